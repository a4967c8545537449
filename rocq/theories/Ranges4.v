(** Ranges of errors begin before they end (C56): function by function. Proof file. *)
From Verif Require Import LexerSpec PunctuatedProofs.
From Verif Require Import Order7 ParserTop ParserSafe6.
From Verif Require Export Ranges3.
From Coq Require Import Lia Permutation.
Local Open Scope nat_scope.
Import ListNotations.

Lemma r_unwrap c l pre {A} (r : pres A) : E c l pre (unwrap r).
Proof. unfold unwrap. r_tac. Qed.
Lemma r_push_punctuated c l pre {A} (m : punctuated A) v q : E c l pre (push_punctuated m v q).
Proof. unfold push_punctuated. r_tac. Qed.
#[export] Hint Resolve r_unwrap r_push_punctuated : rdb.
Lemma r_function_args_empty c l pre  : E c l pre (function_args_empty c).
Proof. intros. unfold function_args_empty. r_tac. all: try rfin. Qed.
#[export] Hint Resolve r_function_args_empty : rdb.
Lemma r_function_body_new c l pre  : E c l pre (function_body_new c).
Proof. intros. unfold function_body_new. r_tac. all: try rfin. Qed.
#[export] Hint Resolve r_function_body_new : rdb.
Lemma r_if_new c l pre condition else_if : E c l pre (if_new c condition else_if).
Proof. intros. unfold if_new. r_tac. all: try rfin. Qed.
#[export] Hint Resolve r_if_new : rdb.
Lemma r_while_new c l pre condition : E c l pre (while_new c condition).
Proof. intros. unfold while_new. r_tac. all: try rfin. Qed.
#[export] Hint Resolve r_while_new : rdb.
Lemma r_do_with_block c l pre block : E c l pre (do_with_block c block).
Proof. intros. unfold do_with_block. r_tac. all: try rfin. Qed.
#[export] Hint Resolve r_do_with_block : rdb.
Lemma r_parse_name c l pre  : E c l pre (parse_name).
Proof. intros. unfold parse_name. r_tac. all: try rfin. Qed.
#[export] Hint Resolve r_parse_name : rdb.
Lemma r_expect_type_specifier c l pre p punctuation : rgood c l p -> has_luau c = true -> E c l pre (expect_type_specifier p punctuation).
Proof. intros. unfold expect_type_specifier. r_tac. all: try rfin. Qed.
#[export] Hint Resolve r_expect_type_specifier : rdb.
Lemma r_force_name_with_type_specifiers c l pre p r : rgood c l p -> E c l pre (force_name_with_type_specifiers c p r).
Proof. intros. unfold force_name_with_type_specifiers. r_tac. all: try rfin. Qed.
#[export] Hint Resolve r_force_name_with_type_specifiers : rdb.
Lemma r_force_name_with_attributes c l pre p r : rgood c l p -> E c l pre (force_name_with_attributes c p r).
Proof. intros. unfold force_name_with_attributes. r_tac. all: try rfin. Qed.
#[export] Hint Resolve r_force_name_with_attributes : rdb.
Lemma r_parse_name_with_attributes c l pre p : rgood c l p -> E c l pre (parse_name_with_attributes c p).
Proof. intros. unfold parse_name_with_attributes. r_tac. all: try rfin. Qed.
#[export] Hint Resolve r_parse_name_with_attributes : rdb.
Lemma r_parse_name_with_type_specifiers c l pre p : rgood c l p -> E c l pre (parse_name_with_type_specifiers c p).
Proof. intros. unfold parse_name_with_type_specifiers. r_tac. all: try rfin. Qed.
#[export] Hint Resolve r_parse_name_with_type_specifiers : rdb.
Lemma r_one_or_more c l pre {A} (q : M (pres A)) d : (forall pre, E c l pre q) -> E c l pre (one_or_more q d).
Proof. intros. unfold one_or_more. r_tac. Qed.
#[export] Hint Resolve r_one_or_more : rdb.
Lemma r_parse_name_list c l pre p : rgood c l p -> E c l pre (parse_name_list c p).
Proof. intros. unfold parse_name_list. r_tac. all: try rfin. Qed.
#[export] Hint Resolve r_parse_name_list : rdb.
Lemma r_parse_expression_list c l pre p : rgood c l p -> E c l pre (parse_expression_list p).
Proof. intros. unfold parse_expression_list. r_tac. all: try rfin. Qed.
#[export] Hint Resolve r_parse_expression_list : rdb.
Lemma r_parse_type_pack c l pre p : rgood c l p -> has_luau c = true -> E c l pre (parse_type_pack p).
Proof. intros. unfold parse_type_pack. r_tac. all: try rfin. Qed.
#[export] Hint Resolve r_parse_type_pack : rdb.
Lemma r_parse_return_type c l pre p : rgood c l p -> has_luau c = true -> E c l pre (parse_return_type p).
Proof. intros. unfold parse_return_type. r_tac. all: try rfin. Qed.
#[export] Hint Resolve r_parse_return_type : rdb.
Lemma r_expect_generic_type_params c l pre p left_arrow : rgood c l p -> has_luau c = true -> E c l pre (expect_generic_type_params p left_arrow).
Proof. intros. unfold expect_generic_type_params. r_tac. all: try rfin. Qed.
#[export] Hint Resolve r_expect_generic_type_params : rdb.
Lemma r_missing_default c l pre seen_default : E c l pre (missing_default seen_default).
Proof. intros. unfold missing_default. r_tac. all: try rfin. Qed.
#[export] Hint Resolve r_missing_default : rdb.
Lemma r_parse_generic_type_list c l pre p style : rgood c l p -> E c l pre (parse_generic_type_list c p style).
Proof. intros. unfold parse_generic_type_list. r_tac. all: try rfin. Qed.
#[export] Hint Resolve r_parse_generic_type_list : rdb.
Lemma r_expect_function_type c l pre p style : rgood c l p -> has_luau c = true -> E c l pre (expect_function_type c p style).
Proof. intros. unfold expect_function_type. r_tac. all: try rfin. Qed.
#[export] Hint Resolve r_expect_function_type : rdb.
Lemma r_error_at_current c l pre msg : E c l pre (error_at_current msg).
Proof. intros. unfold error_at_current. r_tac. all: try rfin. Qed.
#[export] Hint Resolve r_error_at_current : rdb.
Lemma r_push_field c l pre {B} fs f (g : _ -> B) : E c l pre (push_field fs f g).
Proof. intros. unfold push_field. r_tac. all: try rfin. Qed.
#[export] Hint Resolve r_push_field : rdb.
Lemma r_expect_type_table c l pre p left_brace : rgood c l p -> has_luau c = true -> E c l pre (expect_type_table c p left_brace).
Proof. intros. unfold expect_type_table. r_tac. all: try rfin. Qed.
#[export] Hint Resolve r_expect_type_table : rdb.
Lemma r_parse_simple_type c l pre p style : rgood c l p -> has_luau c = true -> E c l pre (parse_simple_type c p style).
Proof. intros. unfold parse_simple_type. r_tac. all: try rfin. Qed.
#[export] Hint Resolve r_parse_simple_type : rdb.
Lemma r_parse_type_suffix c l pre p simple_type : rgood c l p -> has_luau c = true -> E c l pre (parse_type_suffix c p simple_type).
Proof. intros. unfold parse_type_suffix. r_tac. all: try rfin. Qed.
#[export] Hint Resolve r_parse_type_suffix : rdb.
Lemma r_parse_type c l pre p : rgood c l p -> has_luau c = true -> E c l pre (parse_type c p).
Proof. intros. unfold parse_type. r_tac. all: try rfin. Qed.
#[export] Hint Resolve r_parse_type : rdb.
Lemma r_parse_type_or_pack c l pre p : rgood c l p -> has_luau c = true -> E c l pre (parse_type_or_pack c p).
Proof. intros. unfold parse_type_or_pack. r_tac. all: try rfin. Qed.
#[export] Hint Resolve r_parse_type_or_pack : rdb.
Lemma r_expect_type_instantiation c l pre p outer_0 : rgood c l p -> has_luau c = true -> E c l pre (expect_type_instantiation p outer_0).
Proof. intros. unfold expect_type_instantiation. r_tac. all: try rfin. Qed.
#[export] Hint Resolve r_expect_type_instantiation : rdb.
Lemma r_parse_attributes c l pre  : E c l pre (parse_attributes).
Proof. intros. unfold parse_attributes. r_tac. all: try rfin. Qed.
#[export] Hint Resolve r_parse_attributes : rdb.
Lemma sub_has c y v x : has c y v -> In x (subs v) -> exists z, has c z x.
Proof.
  intros [H K] I. pose proof (wt_children _ _ H) as W. destruct v as [|k cs|k cs]; [destruct I| |]; cbn [subs] in I; rewrite Forall_forall in W; destruct (W x I) as [z Z]; exists z; split; try exact Z; cbn [every] in K.
  - rewrite forallb_forall in K. auto.
  - apply andb_true_iff in K as [_ K]. rewrite forallb_forall in K. auto.
Qed.
Lemma block_part c v x : (exists y, has c y v) -> block_last_stmt v = Some x \/ block_last_of_stmts v = Some x -> (exists y, has c y x) /\ exists a z, printed v = a ++ printed x ++ z.
Proof.
  intros (y & H) [B|B].
  - unfold block_last_stmt in B. destruct v as [|k cs|k cs]; try discriminate. destruct k; try discriminate. destruct cs as [|a [|b [|d cs]]]; try discriminate; [|destruct b as [|[] [|[|[] [|]|] []]|]; discriminate].
    destruct b as [|[] [|[|[] [|b w]|] []]|]; try discriminate. injection B as ->. split.
    + destruct (sub_has c y _ (Con CSome [Con CTuple (x :: w)]) H) as (z & Z); [right; now left|]. destruct (sub_has c z _ (Con CTuple (x :: w)) Z) as (z' & Z'); [now left|]. apply (sub_has c z' _ x Z'). now left.
    + rewrite printed_plain by reflexivity. cbn [flat_map]. rewrite !printed_con. cbn [flat_map]. rewrite !printed_con. cbn [flat_map]. exists (printed a), (flat_map printed w). now rewrite !app_nil_r.
  - unfold block_last_of_stmts in B. destruct (rev (block_stmts v)) as [|t q] eqn:R; [discriminate|]. destruct t as [|[] [|t w]|]; try discriminate. injection B as ->.
    assert (S : block_stmts v = rev q ++ [Con CTuple (x :: w)]) by (rewrite <- (rev_involutive (block_stmts v)), R; reflexivity).
    destruct v as [|k cs|k cs]; try (destruct q as [|? ?] using rev_ind; [discriminate|rewrite rev_app_distr in S; discriminate]).
    assert (KB : k = KBlock /\ exists ss r, cs = Con CVec ss :: r /\ ss = rev q ++ [Con CTuple (x :: w)]).
    { unfold block_stmts in S. destruct k; try (destruct (rev q); discriminate). split; [reflexivity|]. destruct cs as [|[|[] ss|] r]; try (destruct (rev q); discriminate). eauto. }
    destruct KB as (-> & ss & r & -> & ->). split.
    + destruct (sub_has c y _ (Con CVec (rev q ++ [Con CTuple (x :: w)])) H) as (z & Z); [now left|]. destruct (sub_has c z _ (Con CTuple (x :: w)) Z) as (z' & Z'); [apply in_elt|]. apply (sub_has c z' _ x Z'). now left.
    + destruct H as [H _]. apply wt_nd in H as [_ H]. rewrite printed_plain; [|reflexivity|now apply (forall2_length has_ty)]. cbn [flat_map]. rewrite printed_con, flat_map_app. cbn [flat_map]. rewrite printed_con. cbn [flat_map].
      exists (flat_map printed (rev q)), ((flat_map printed w ++ []) ++ flat_map printed r). now rewrite <- !app_assoc.
Qed.
Lemma r_expect_block_with_end c l pre p name start : rgood c l p -> mine c l start -> E c l pre (expect_block_with_end c p name start).
Proof.
  intros G M. unfold expect_block_with_end. apply E_value; [auto with rdb nocore|intros v u N|intros u; r_tac|intros u; r_tac]. cbv beta iota.
  apply (E_known _ _ _ _ (fun e => behind l (pre ++ u) -> okends c l (fst e) (snd e))).
  - intros s e s' X.
    assert (K : forall x, block_last_stmt v = Some x \/ block_last_of_stmts v = Some x -> ends_of x s = Done (e, s') -> s' = s /\ (behind l (pre ++ u) -> okends c l (fst e) (snd e))).
    { intros x B Y. apply ends_in in Y as (-> & A & B'). split; [reflexivity|]. intros (r & ->). destruct (block_part c v x (proj1 N) B) as (T & a & z & P).
      destruct (nice_ends c x v u (fst e) (snd e) a z N P T A B') as (U1 & U2 & U3). unfold okends, mine. rewrite !in_app_iff.
      repeat split; [tauto|tauto|]. destruct U3 as [?|[?|[?|U3]]]; [tauto|tauto|tauto|]. right. right. right. now apply bef_right, bef_left. }
    destruct (block_last_stmt v) as [x|] eqn:B1; [apply (K x); auto|]. destruct (block_last_of_stmts v) as [x|] eqn:B2; [apply (K x); auto|].
    injection X as <- <-. split; [reflexivity|]. intros _. unfold okends. auto.
  - intros e K. r_tac. auto.
Qed.
#[export] Hint Resolve r_expect_block_with_end : rdb.
Lemma r_unfinished_function_body c l pre left_parenthesis parameters : E c l pre (unfinished_function_body c left_parenthesis parameters).
Proof. intros. unfold unfinished_function_body. r_tac. all: try rfin. Qed.
#[export] Hint Resolve r_unfinished_function_body : rdb.
Lemma r_ellipsis_specifier c l pre p : rgood c l p -> has_luau c = true -> E c l pre (ellipsis_specifier p).
Proof. intros. unfold ellipsis_specifier. r_tac. all: try rfin. Qed.
#[export] Hint Resolve r_ellipsis_specifier : rdb.
Lemma r_parameter_loop c l pre p : rgood c l p -> E c l pre (parameter_loop c p).
Proof. intros. unfold parameter_loop. r_tac. all: try rfin. Qed.
#[export] Hint Resolve r_parameter_loop : rdb.
Lemma r_body_return_type c l pre p : rgood c l p -> E c l pre (body_return_type c p).
Proof. intros. unfold body_return_type. r_tac. all: try rfin. Qed.
#[export] Hint Resolve r_body_return_type : rdb.
Lemma r_parse_function_body c l pre p : rgood c l p -> E c l pre (parse_function_body c p).
Proof.
  intros G. unfold parse_function_body. apply E_bind; [r_tac|]. intros r u1. destruct r as [g| |]; try apply E_ret.
  all: cbv zeta beta iota; rstep; [|r_tac]; cbv beta iota; (eapply E_step; [auto with rdb nocore|apply post_O, o_parameters, (rg_o _ _ _ G)|]).
  all: intros [m|[[m v] e]] u2 (Bh & K); [r_tac|]; cbn [param_post] in K; apply kept_strict in K.
  all: assert (M : mine c l e) by (destruct Bh as (r & ->); destruct (drawn_in _ _ _ e K) as [X|X]; [rewrite in_app_iff; cbn; tauto|now left|right; rewrite !in_app_iff; tauto]); r_tac.
Qed.
#[export] Hint Resolve r_parse_function_body : rdb.
Lemma E_callback c l pre u y msg x v : In x pre -> nice c v u -> E c l (pre ++ u) (require_with_reference_range_callback y msg (let! e := last_token v in ret (x, e))).
Proof.
  intros I N. unfold require_with_reference_range_callback. apply E_current; [intros t T X|apply E_ret]. destruct (is_symbol t y); [r_tac|].
  apply (E_known _ _ _ _ (fun e => fst e = x /\ In (snd e) (leaves v))); [|intros [a b] [A B]; cbn [fst snd] in *; subst a; r_tac; rfin].
  intros s a s' Y. unfold bind in Y. destruct (last_token v s) as [[e s1]| |] eqn:L; try discriminate. apply last_in in L as [-> L]. injection Y as <- <-. auto.
Qed.
Lemma r_expect_expression_key c l pre p left_bracket : rgood c l p -> In left_bracket pre -> mine c l left_bracket -> E c l pre (expect_expression_key p left_bracket).
Proof.
  intros. unfold expect_expression_key. apply E_value; [auto with rdb nocore|intros v u N|intros u; r_tac|intros u; r_tac].
  cbv beta iota. apply E_opt; [now apply E_callback| |intros t T|]; [|r_tac; rfin|r_tac].
  apply O_require_callback; [apply pure_bind; [apply pure_last_token|intros ?; apply pure_ret]|intros t; reflexivity|reflexivity].
Qed.
#[export] Hint Resolve r_expect_expression_key : rdb.
Lemma r_table_field c l pre p left_brace fields t : rgood c l p -> E c l pre (table_field c p left_brace fields t).
Proof. intros. unfold table_field. r_tac. all: try rfin. Qed.
#[export] Hint Resolve r_table_field : rdb.
Lemma r_force_table_constructor c l pre p left_brace : rgood c l p -> E c l pre (force_table_constructor c p left_brace).
Proof. intros. unfold force_table_constructor. r_tac. all: try rfin. Qed.
#[export] Hint Resolve r_force_table_constructor : rdb.
Lemma r_parse_prefix c l pre p : rgood c l p -> E c l pre (parse_prefix c p).
Proof. intros. unfold parse_prefix. r_tac. all: try rfin. Qed.
#[export] Hint Resolve r_parse_prefix : rdb.
Lemma r_parse_arguments c l pre p : rgood c l p -> E c l pre (parse_arguments c p).
Proof. intros. unfold parse_arguments. r_tac. all: try rfin. Qed.
#[export] Hint Resolve r_parse_arguments : rdb.
Lemma r_dot_suffix c l pre msg : E c l pre (dot_suffix msg).
Proof. intros. unfold dot_suffix. r_tac. all: try rfin. Qed.
#[export] Hint Resolve r_dot_suffix : rdb.
Lemma r_parse_suffix c l pre p : rgood c l p -> E c l pre (parse_suffix c p).
Proof. intros. unfold parse_suffix. apply E_current; [intros t ? ?|r_tac]. destruct (has_luau c) eqn:L; rewrite ?andb_false_r, ?andb_true_r; r_tac; rfin. Qed.
#[export] Hint Resolve r_parse_suffix : rdb.
Lemma r_parse_prefix_and_suffixes c l pre p : rgood c l p -> E c l pre (parse_prefix_and_suffixes c p).
Proof. intros. unfold parse_prefix_and_suffixes. r_tac. all: try rfin. Qed.
#[export] Hint Resolve r_parse_prefix_and_suffixes : rdb.
Lemma r_expect_if_else_expression c l pre p if_token : rgood c l p -> E c l pre (expect_if_else_expression p if_token).
Proof. intros. unfold expect_if_else_expression. r_tac. all: try rfin. Qed.
#[export] Hint Resolve r_expect_if_else_expression : rdb.
Lemma r_expect_interpolated_string c l pre p first : rgood c l p -> E c l pre (expect_interpolated_string p first).
Proof. intros. unfold expect_interpolated_string. r_tac. all: try rfin. Qed.
#[export] Hint Resolve r_expect_interpolated_string : rdb.
Lemma r_unop c l pre r : E c l pre (unop c r).
Proof. intros. unfold unop. r_tac. all: try rfin. Qed.
#[export] Hint Resolve r_unop : rdb.
Lemma r_parse_unary_expression c l pre p unary_operator_token : rgood c l p -> E c l pre (parse_unary_expression c p unary_operator_token).
Proof. intros. unfold parse_unary_expression. r_tac. all: try rfin. Qed.
#[export] Hint Resolve r_parse_unary_expression : rdb.
Lemma r_anonymous_function c l pre p attributes : rgood c l p -> E c l pre (anonymous_function c p attributes).
Proof. intros. unfold anonymous_function. r_tac. all: try rfin. Qed.
#[export] Hint Resolve r_anonymous_function : rdb.
Lemma r_primary_arm c l pre p : rgood c l p -> E c l pre (primary_arm c p).
Proof. intros. unfold primary_arm. r_tac. all: try rfin. Qed.
#[export] Hint Resolve r_primary_arm : rdb.
Lemma r_parse_primary_expression c l pre p : rgood c l p -> E c l pre (parse_primary_expression c p).
Proof. intros. unfold parse_primary_expression. r_tac. all: try rfin. Qed.
#[export] Hint Resolve r_parse_primary_expression : rdb.
Lemma r_consume_binop c l pre  : E c l pre (consume_binop c).
Proof. intros. unfold consume_binop. r_tac. all: try rfin. Qed.
#[export] Hint Resolve r_consume_binop : rdb.
Lemma r_climb_right c l pre p bin_op_token bin_op_precedence rhs : rgood c l p -> E c l pre (climb_right c p bin_op_token bin_op_precedence rhs).
Proof. intros. unfold climb_right. r_tac. all: try rfin. Qed.
#[export] Hint Resolve r_climb_right : rdb.
Lemma r_parse_expression_with_precedence c l pre p lhs precedence : rgood c l p -> E c l pre (parse_expression_with_precedence c p lhs precedence).
Proof. intros. unfold parse_expression_with_precedence. r_tac. all: try rfin. Qed.
#[export] Hint Resolve r_parse_expression_with_precedence : rdb.
Lemma r_parse_expression c l pre p : rgood c l p -> E c l pre (parse_expression c p).
Proof. intros. unfold parse_expression. r_tac. all: try rfin. Qed.
#[export] Hint Resolve r_parse_expression : rdb.
Lemma r_compound_op c l pre r : E c l pre (compound_op c r).
Proof. intros. unfold compound_op. r_tac. all: try rfin. Qed.
#[export] Hint Resolve r_compound_op : rdb.
Lemma r_parse_compound_assignment c l pre p v : rgood c l p -> E c l pre (parse_compound_assignment c p v).
Proof. intros. unfold parse_compound_assignment. r_tac. all: try rfin. Qed.
#[export] Hint Resolve r_parse_compound_assignment : rdb.
Lemma r_expect_function_name c l pre  : E c l pre (expect_function_name).
Proof. intros. unfold expect_function_name. r_tac. all: try rfin. Qed.
#[export] Hint Resolve r_expect_function_name : rdb.
Lemma r_expect_function_declaration c l pre p attributes function_token : rgood c l p -> E c l pre (expect_function_declaration c p attributes function_token).
Proof. intros. unfold expect_function_declaration. r_tac. all: try rfin. Qed.
#[export] Hint Resolve r_expect_function_declaration : rdb.
Lemma r_expect_local_function_declaration c l pre p attributes local_token function_token : rgood c l p -> E c l pre (expect_local_function_declaration c p attributes local_token function_token).
Proof. intros. unfold expect_local_function_declaration. r_tac. all: try rfin. Qed.
#[export] Hint Resolve r_expect_local_function_declaration : rdb.
Lemma r_expect_numeric_for_stmt c l pre p for_token index_variable : rgood c l p -> E c l pre (expect_numeric_for_stmt c p for_token index_variable).
Proof. intros. unfold expect_numeric_for_stmt. r_tac. all: try rfin. Qed.
#[export] Hint Resolve r_expect_numeric_for_stmt : rdb.
Lemma r_expect_for_stmt c l pre p for_token : rgood c l p -> E c l pre (expect_for_stmt c p for_token).
Proof. intros. unfold expect_for_stmt. r_tac. all: try rfin. Qed.
#[export] Hint Resolve r_expect_for_stmt : rdb.
Lemma r_expect_if_stmt c l pre p if_token : rgood c l p -> E c l pre (expect_if_stmt c p if_token).
Proof. intros. unfold expect_if_stmt. r_tac. all: try rfin. Qed.
#[export] Hint Resolve r_expect_if_stmt : rdb.
Lemma r_expect_local_assignment c l pre p local_token : rgood c l p -> E c l pre (expect_local_assignment c p local_token).
Proof. intros. unfold expect_local_assignment. r_tac. all: try rfin. Qed.
#[export] Hint Resolve r_expect_local_assignment : rdb.
Lemma r_expect_repeat_stmt c l pre p repeat_token : rgood c l p -> E c l pre (expect_repeat_stmt c p repeat_token).
Proof. intros. unfold expect_repeat_stmt. r_tac. all: try rfin. Qed.
#[export] Hint Resolve r_expect_repeat_stmt : rdb.
Lemma r_expect_while_stmt c l pre p while_token : rgood c l p -> E c l pre (expect_while_stmt c p while_token).
Proof. intros. unfold expect_while_stmt. r_tac. all: try rfin. Qed.
#[export] Hint Resolve r_expect_while_stmt : rdb.
Lemma r_expect_type_declaration c l pre p type_token : rgood c l p -> has_luau c = true -> E c l pre (expect_type_declaration c p type_token).
Proof. intros. unfold expect_type_declaration. r_tac. all: try rfin. Qed.
#[export] Hint Resolve r_expect_type_declaration : rdb.
Lemma r_expect_type_function c l pre p type_token function_token : rgood c l p -> has_luau c = true -> E c l pre (expect_type_function c p type_token function_token).
Proof. intros. unfold expect_type_function. r_tac. all: try rfin. Qed.
#[export] Hint Resolve r_expect_type_function : rdb.
Lemma r_local_stmt c l pre p : rgood c l p -> E c l pre (local_stmt c p).
Proof. intros. unfold local_stmt. r_tac. all: try rfin. Qed.
#[export] Hint Resolve r_local_stmt : rdb.
Definition var_ok (c : cfg) (l pre : list tokref) (v : var) : Prop := match v with VarName w => mine c l w /\ (inserted c w \/ In w pre) | _ => True end.
#[export] Hint Extern 1 (var_ok _ _ _ _) => first [exact I|assumption] : rdb.
Lemma r_contextual_stmt c l pre p v : rgood c l p -> var_ok c l pre v -> E c l pre (contextual_stmt c p v).
Proof. intros G H. unfold contextual_stmt. destruct v as [x s|w]; cbn [var_ok] in H; [|destruct H as [H1 H2]]; r_tac; rfin. Qed.
#[export] Hint Resolve r_contextual_stmt : rdb.
Lemma r_var_loop c l pre p v : rgood c l p -> E c l pre (var_loop c p v).
Proof. intros. unfold var_loop. r_tac. all: try rfin. Qed.
#[export] Hint Resolve r_var_loop : rdb.
Lemma r_assignment c l pre p v : rgood c l p -> E c l pre (assignment c p v).
Proof. intros. unfold assignment. r_tac. all: try rfin. Qed.
#[export] Hint Resolve r_assignment : rdb.
Lemma r_expression_stmt c l pre p : rgood c l p -> E c l pre (expression_stmt c p).
Proof.
  intros G. unfold expression_stmt. eapply E_step; [auto with rdb nocore|apply post_O, o_chain, (rg_o _ _ _ G)|]. intros [[x s]| |] u (Bh & K); [|r_tac|r_tac].
  cbn [vkept app] in K. apply kept_strict in K.
  assert (H : forall r, x = PrefixName r -> var_ok c l (pre ++ u) (VarName r)).
  { intros r ->. destruct (drawn_in _ _ _ r K) as [X|X]; [now left|split; left; assumption|]. destruct Bh as (q & ->). split; right; rewrite !in_app_iff; tauto. }
  destruct x as [e|r]; [|specialize (H r eq_refl)]; r_tac.
Qed.
#[export] Hint Resolve r_expression_stmt : rdb.
Lemma r_goto_stmt c l pre  : E c l pre (goto_stmt c).
Proof. intros. unfold goto_stmt. r_tac. all: try rfin. Qed.
#[export] Hint Resolve r_goto_stmt : rdb.
Lemma r_two_colons c l pre  : E c l pre (two_colons c).
Proof. intros. unfold two_colons. r_tac. all: try rfin. Qed.
#[export] Hint Resolve r_two_colons : rdb.
Lemma r_label_stmt c l pre  : E c l pre (label_stmt c).
Proof. intros. unfold label_stmt. r_tac. all: try rfin. Qed.
#[export] Hint Resolve r_label_stmt : rdb.
Lemma r_attribute_stmt c l pre p : rgood c l p -> E c l pre (attribute_stmt c p).
Proof. intros. unfold attribute_stmt. r_tac. all: try rfin. Qed.
#[export] Hint Resolve r_attribute_stmt : rdb.
Lemma r_parse_stmt c l pre p : rgood c l p -> E c l pre (parse_stmt c p).
Proof. intros. unfold parse_stmt. r_tac. all: try rfin. Qed.
#[export] Hint Resolve r_parse_stmt : rdb.
Lemma r_parse_last_stmt c l pre p : rgood c l p -> E c l pre (parse_last_stmt p).
Proof. intros. unfold parse_last_stmt. r_tac. all: try rfin. Qed.
#[export] Hint Resolve r_parse_last_stmt : rdb.
Lemma r_parse_block c l pre p : rgood c l p -> E c l pre (parse_block c p).
Proof. intros. unfold parse_block. r_tac. all: try rfin. Qed.
#[export] Hint Resolve r_parse_block : rdb.
