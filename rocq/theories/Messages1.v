(** Messages of the parser are on one line (C61). Proof file. *)
From Verif Require Import LexerSpec TokenSpec MessageSpec.
From Verif Require Export Parsers.
Local Open Scope nat_scope.
Import ListNotations.

(** A text that is not empty and has no line break, as a test. *)
Definition oneline (m : text) : bool := match m with [] => false | _ => forallb (fun x => negb (N.eqb x 10)) m end.
Definition plain_error (e : error) : Prop := match e with AstError _ m _ => oneline m = true | TokenizerError _ => True end.
Lemma plain_sentence e : plain_error e -> sentence e.
Proof.
  destruct e as [e|t m o]; intros H; constructor; [intros ->; discriminate|]. cbn in H. intros I. destruct m as [|y m]; [destruct I|].
  unfold oneline in H. rewrite forallb_forall in H. specialize (H c_nl I). discriminate.
Qed.
Definition keeps {A} (m : M A) : Prop := forall s a s', m s = Done (a, s') -> Forall plain_error (st_errors s) -> Forall plain_error (st_errors s').

Lemma ke_ret {A} (a : A) : keeps (ret a).
Proof. intros s b s' [= <- <-]. auto. Qed.
Lemma ke_panic {A} : keeps (@panic A).
Proof. intros s b s' E. discriminate. Qed.
Lemma ke_bind {A B} (m : M A) (k : A -> M B) : keeps m -> (forall a, keeps (k a)) -> keeps (bind m k).
Proof.
  intros H1 H2 s b s' E F. unfold bind in E. destruct (m s) as [[a s1]| |] eqn:E1; try discriminate.
  eapply H2; [eassumption|]. eapply H1; eassumption.
Qed.
Lemma ke_lift {A} (o : out A) : keeps (lift o).
Proof. intros s b s' E. unfold lift in E. destruct o; try discriminate. injection E as <- <-. auto. Qed.
Lemma ke_loop {A B} (body : A -> M (A + B)) a : (forall a, keeps (body a)) -> keeps (loop body a).
Proof.
  intros H s b s'. unfold loop. generalize (S (List.length (st_toks s))). intros n. revert a s.
  induction n as [|n IH]; intros a s E; [discriminate|]. cbn [loop_] in E.
  destruct (body a s) as [[[a1|b1] s1]| |] eqn:E1; try discriminate.
  - intros F. eapply IH; [eassumption|]. eapply H; eassumption.
  - injection E as <- <-. eapply H; eassumption.
Qed.
Lemma ke_current : keeps current.
Proof. intros s a s' E. unfold current in E. destruct (st_toks s) as [|[]]; try discriminate; injection E as <- <-; auto. Qed.
Lemma ke_peek : keeps peek.
Proof. intros s a s' E. unfold peek in E. destruct (st_toks s) as [|? [|[]]]; try discriminate; injection E as <- <-; auto. Qed.
Lemma plain_lexical es : Forall plain_error (map TokenizerError es).
Proof. induction es; cbn; constructor; cbn; auto. Qed.
Lemma ke_consume : keeps consume.
Proof.
  intros s a s'. unfold consume. destruct (st_toks s) as [|[t|es|t es] rest]; intros [= <- <-] F; cbn [st_errors]; auto; apply Forall_app; auto using plain_lexical.
Qed.
Lemma ke_error r msg : oneline msg = true -> keeps (token_error r msg).
Proof. intros H s a s' [= <- <-] F. cbn [st_errors]. apply Forall_app. split; [exact F|]. now constructor. Qed.
Lemma ke_error_ranged r msg a b : oneline msg = true -> keeps (token_error_ranged r msg a b).
Proof. intros H s x s' [= <- <-] F. cbn [st_errors]. apply Forall_app. split; [exact F|]. now constructor. Qed.
Lemma ke_errors : keeps errors.
Proof. intros s a s' [= <- <-]. auto. Qed.
Lemma ke_lexer_current : keeps lexer_current.
Proof. intros s a s' [= <- <-]. auto. Qed.
Lemma ke_basic c w : keeps (basic c w).
Proof. apply ke_lift. Qed.
(** A token that is looked at and taken. *)
Lemma ke_look {A} (cond : tokref -> bool) (n : M A) (k e : tokref -> M A) : keeps n -> (forall t, cond t = true -> keeps (k t)) -> (forall t, keeps (e t)) ->
  keeps (let! o := current in match o with None => n | Some t => if cond t then bind take k else e t end).
Proof.
  intros N K E s b s' R F. unfold bind at 1 in R. unfold current in R. destruct (st_toks s) as [|[t|es|t es] rest] eqn:T; [discriminate| | |].
  - destruct (cond t) eqn:C; [|eapply E; eassumption]. unfold bind, take, consume, unwrap in R. cbn in R. unfold bind in R. rewrite T in R. cbn in R. eapply K; [exact C|exact R|exact F].
  - eapply N; eassumption.
  - destruct (cond t) eqn:C; [|eapply E; eassumption]. unfold bind, take, consume, unwrap in R. cbn in R. unfold bind in R. rewrite T in R. cbn in R. eapply K; [exact C|exact R|].
    cbn [st_errors]. apply Forall_app; auto using plain_lexical.
Qed.
Lemma symbol_oneline r s : is_symbol r s = true -> oneline (show_token (r_token r)) = true.
Proof.
  unfold is_symbol. destruct (t_type (r_token r)) eqn:T; try discriminate. intros _. unfold show_token. rewrite T. cbn [show_type]. match goal with |- oneline (sym_text ?y) = true => destruct y; reflexivity end.
Qed.
Lemma oneline_app a b : oneline a = true -> forallb (fun x => negb (N.eqb x 10)) b = true -> oneline (a ++ b) = true.
Proof. unfold oneline. destruct a as [|x a]; [discriminate|]. intros H1 H2. cbn [app]. change (x :: a ++ b) with ((x :: a) ++ b). rewrite forallb_app. apply andb_true_intro. now split. Qed.
Lemma oneline_all a : oneline a = true -> forallb (fun x => negb (N.eqb x 10)) a = true.
Proof. unfold oneline. destruct a; [discriminate|auto]. Qed.

Create HintDb keeps.
#[export] Hint Resolve ke_ret ke_panic ke_lift ke_current ke_peek ke_consume ke_error ke_error_ranged ke_basic ke_errors ke_lexer_current : keeps.
#[export] Hint Extern 1 (oneline _ = true) => first [assumption | reflexivity] : keeps.
Ltac ke_tac :=
  repeat (intros; cbv beta iota zeta;
    lazymatch goal with
    | |- keeps (bind _ _) => apply ke_bind
    | |- keeps (loop _ _) => apply ke_loop
    | |- keeps (match ?x with _ => _ end) => destruct x
    | |- keeps (require_with_reference_range_callback ?y ?m ?ab) => unfold require_with_reference_range_callback
    | |- keeps _ => solve [eauto with keeps | auto with keeps]
    | |- forall _, _ => intro
    end).
Lemma ke_take : keeps take.
Proof. unfold take, unwrap. ke_tac. Qed.
#[export] Hint Resolve ke_take : keeps.
Lemma ke_unwrap {A} (r : pres A) : keeps (unwrap r).
Proof. unfold unwrap. ke_tac. Qed.
Lemma ke_push_punctuated {A} (l : punctuated A) v q : keeps (push_punctuated l v q).
Proof. unfold push_punctuated. ke_tac. Qed.
Lemma ke_consume_if y : keeps (consume_if y).
Proof. unfold consume_if. ke_tac. Qed.
Lemma ke_consume_if_symbols y : keeps (consume_if_symbols y).
Proof. unfold consume_if_symbols. ke_tac. Qed.
Lemma ke_require y m : oneline m = true -> keeps (require y m).
Proof. unfold require. ke_tac. Qed.
Lemma ke_require_token y m a : oneline m = true -> keeps (require_with_reference_token y m a).
Proof. unfold require_with_reference_token. ke_tac. Qed.
Lemma ke_require_range y m a b : oneline m = true -> keeps (require_with_reference_range y m a b).
Proof. unfold require_with_reference_range. ke_tac. Qed.
Lemma ke_require_callback y m ab : oneline m = true -> keeps ab -> keeps (require_with_reference_range_callback y m ab).
Proof. unfold require_with_reference_range_callback. ke_tac. Qed.
Lemma ke_first_token t : keeps (first_token t).
Proof. unfold first_token. ke_tac. Qed.
Lemma ke_last_token t : keeps (last_token t).
Proof. unfold last_token. ke_tac. Qed.
Lemma ke_ends_of t : keeps (ends_of t).
Proof. unfold ends_of. ke_tac. Qed.
#[export] Hint Resolve ke_unwrap ke_push_punctuated ke_consume_if ke_consume_if_symbols ke_require ke_require_token ke_require_range
  ke_require_callback ke_first_token ke_last_token ke_ends_of : keeps.

(** The recursive functions. *)
Definition pkeeps (p : parsers) : Prop :=
  keeps (p_block p) /\ keeps (p_expression p) /\ keeps (p_primary p) /\ (forall e n, keeps (p_precedence p e n)) /\ keeps (p_type p) /\ keeps (p_type_or_pack p).
Lemma kp_block p : pkeeps p -> keeps (p_block p). Proof. now intros (? & ? & ? & ? & ? & ?). Qed.
Lemma kp_expression p : pkeeps p -> keeps (p_expression p). Proof. now intros (? & ? & ? & ? & ? & ?). Qed.
Lemma kp_primary p : pkeeps p -> keeps (p_primary p). Proof. now intros (? & ? & ? & ? & ? & ?). Qed.
Lemma kp_precedence p e n : pkeeps p -> keeps (p_precedence p e n). Proof. now intros (? & ? & ? & ? & ? & ?). Qed.
Lemma kp_type p : pkeeps p -> keeps (p_type p). Proof. now intros (? & ? & ? & ? & ? & ?). Qed.
Lemma kp_type_or_pack p : pkeeps p -> keeps (p_type_or_pack p). Proof. now intros (? & ? & ? & ? & ? & ?). Qed.
#[export] Hint Resolve kp_block kp_expression kp_primary kp_precedence kp_type kp_type_or_pack : keeps.

(** Function by function. *)
Lemma ke_function_args_empty c : keeps (function_args_empty c).
Proof. intros. unfold function_args_empty. ke_tac. Qed.
#[export] Hint Resolve ke_function_args_empty : keeps.
Lemma ke_function_body_new c : keeps (function_body_new c).
Proof. intros. unfold function_body_new. ke_tac. Qed.
#[export] Hint Resolve ke_function_body_new : keeps.
Lemma ke_if_new c condition else_if : keeps (if_new c condition else_if).
Proof. intros. unfold if_new. ke_tac. Qed.
#[export] Hint Resolve ke_if_new : keeps.
Lemma ke_while_new c condition : keeps (while_new c condition).
Proof. intros. unfold while_new. ke_tac. Qed.
#[export] Hint Resolve ke_while_new : keeps.
Lemma ke_do_with_block c block : keeps (do_with_block c block).
Proof. intros. unfold do_with_block. ke_tac. Qed.
#[export] Hint Resolve ke_do_with_block : keeps.
Lemma ke_parse_name : keeps (parse_name).
Proof. intros. unfold parse_name. ke_tac. Qed.
#[export] Hint Resolve ke_parse_name : keeps.
Lemma ke_expect_type_specifier p punctuation : pkeeps p -> keeps (expect_type_specifier p punctuation).
Proof. intros. unfold expect_type_specifier. ke_tac. Qed.
#[export] Hint Resolve ke_expect_type_specifier : keeps.
Lemma ke_force_name_with_type_specifiers c p r : pkeeps p -> keeps (force_name_with_type_specifiers c p r).
Proof. intros. unfold force_name_with_type_specifiers. ke_tac. Qed.
#[export] Hint Resolve ke_force_name_with_type_specifiers : keeps.
Lemma ke_force_name_with_attributes c p r : pkeeps p -> keeps (force_name_with_attributes c p r).
Proof. intros. unfold force_name_with_attributes. ke_tac. Qed.
#[export] Hint Resolve ke_force_name_with_attributes : keeps.
Lemma ke_parse_name_with_attributes c p : pkeeps p -> keeps (parse_name_with_attributes c p).
Proof. intros. unfold parse_name_with_attributes. ke_tac. Qed.
#[export] Hint Resolve ke_parse_name_with_attributes : keeps.
Lemma ke_parse_name_with_type_specifiers c p : pkeeps p -> keeps (parse_name_with_type_specifiers c p).
Proof. intros. unfold parse_name_with_type_specifiers. ke_tac. Qed.
#[export] Hint Resolve ke_parse_name_with_type_specifiers : keeps.
Lemma ke_one_or_more {A} (q : M (pres A)) d : keeps q -> keeps (one_or_more q d).
Proof. intros. unfold one_or_more. ke_tac. Qed.
#[export] Hint Resolve ke_one_or_more : keeps.
Lemma ke_parse_name_list c p : pkeeps p -> keeps (parse_name_list c p).
Proof. intros. unfold parse_name_list. ke_tac. Qed.
#[export] Hint Resolve ke_parse_name_list : keeps.
Lemma ke_parse_expression_list p : pkeeps p -> keeps (parse_expression_list p).
Proof. intros. unfold parse_expression_list. ke_tac. Qed.
#[export] Hint Resolve ke_parse_expression_list : keeps.
Lemma ke_parse_type_pack p : pkeeps p -> keeps (parse_type_pack p).
Proof. intros. unfold parse_type_pack. ke_tac. Qed.
#[export] Hint Resolve ke_parse_type_pack : keeps.
Lemma ke_parse_return_type p : pkeeps p -> keeps (parse_return_type p).
Proof. intros. unfold parse_return_type. ke_tac. Qed.
#[export] Hint Resolve ke_parse_return_type : keeps.
Lemma ke_expect_generic_type_params p left_arrow : pkeeps p -> keeps (expect_generic_type_params p left_arrow).
Proof. intros. unfold expect_generic_type_params. ke_tac. Qed.
#[export] Hint Resolve ke_expect_generic_type_params : keeps.
Lemma ke_missing_default seen_default : keeps (missing_default seen_default).
Proof. intros. unfold missing_default. ke_tac. Qed.
#[export] Hint Resolve ke_missing_default : keeps.
Lemma ke_parse_generic_type_list c p style : pkeeps p -> keeps (parse_generic_type_list c p style).
Proof. intros. unfold parse_generic_type_list. ke_tac. Qed.
#[export] Hint Resolve ke_parse_generic_type_list : keeps.
Lemma ke_expect_function_type c p style : pkeeps p -> keeps (expect_function_type c p style).
Proof. intros. unfold expect_function_type. ke_tac. Qed.
#[export] Hint Resolve ke_expect_function_type : keeps.
Lemma ke_error_at_current msg : oneline msg = true -> keeps (error_at_current msg).
Proof. intros. unfold error_at_current. ke_tac. Qed.
#[export] Hint Resolve ke_error_at_current : keeps.
Lemma ke_push_field {B} l f (g : _ -> B) : keeps (push_field l f g).
Proof. unfold push_field. ke_tac. Qed.
#[export] Hint Resolve ke_push_field : keeps.
Lemma ke_expect_type_table c p left_brace : pkeeps p -> keeps (expect_type_table c p left_brace).
Proof. intros. unfold expect_type_table. ke_tac. Qed.
#[export] Hint Resolve ke_expect_type_table : keeps.
Lemma ke_parse_simple_type c p style : pkeeps p -> keeps (parse_simple_type c p style).
Proof. intros. unfold parse_simple_type. ke_tac. Qed.
#[export] Hint Resolve ke_parse_simple_type : keeps.
Lemma ke_parse_type_suffix c p simple_type : pkeeps p -> keeps (parse_type_suffix c p simple_type).
Proof. intros. unfold parse_type_suffix. ke_tac. Qed.
#[export] Hint Resolve ke_parse_type_suffix : keeps.
Lemma ke_parse_type c p : pkeeps p -> keeps (parse_type c p).
Proof. intros. unfold parse_type. ke_tac. Qed.
#[export] Hint Resolve ke_parse_type : keeps.
Lemma ke_parse_type_or_pack c p : pkeeps p -> keeps (parse_type_or_pack c p).
Proof. intros. unfold parse_type_or_pack. ke_tac. Qed.
#[export] Hint Resolve ke_parse_type_or_pack : keeps.
Lemma ke_expect_type_instantiation p outer_0 : pkeeps p -> keeps (expect_type_instantiation p outer_0).
Proof. intros. unfold expect_type_instantiation. ke_tac. Qed.
#[export] Hint Resolve ke_expect_type_instantiation : keeps.
Lemma ke_parse_attributes : keeps (parse_attributes).
Proof. intros. unfold parse_attributes. ke_tac. Qed.
#[export] Hint Resolve ke_parse_attributes : keeps.
Lemma ke_expect_block_with_end c p name start_for_errors : pkeeps p -> oneline (str "expected `end` to close " ++ name ++ str " block") = true -> keeps (expect_block_with_end c p name start_for_errors).
Proof. intros. unfold expect_block_with_end. ke_tac. Qed.
#[export] Hint Resolve ke_expect_block_with_end : keeps.
Lemma ke_unfinished_function_body c left_parenthesis parameters : keeps (unfinished_function_body c left_parenthesis parameters).
Proof. intros. unfold unfinished_function_body. ke_tac. Qed.
#[export] Hint Resolve ke_unfinished_function_body : keeps.
Lemma ke_ellipsis_specifier p : pkeeps p -> keeps (ellipsis_specifier p).
Proof. intros. unfold ellipsis_specifier. ke_tac. Qed.
#[export] Hint Resolve ke_ellipsis_specifier : keeps.
Lemma ke_parameter_loop c p : pkeeps p -> keeps (parameter_loop c p).
Proof. intros. unfold parameter_loop. ke_tac. Qed.
#[export] Hint Resolve ke_parameter_loop : keeps.
Lemma ke_body_return_type c p : pkeeps p -> keeps (body_return_type c p).
Proof. intros. unfold body_return_type. ke_tac. Qed.
#[export] Hint Resolve ke_body_return_type : keeps.
Lemma ke_parse_function_body c p : pkeeps p -> keeps (parse_function_body c p).
Proof. intros. unfold parse_function_body. ke_tac. Qed.
#[export] Hint Resolve ke_parse_function_body : keeps.
Lemma ke_expect_expression_key p left_bracket : pkeeps p -> keeps (expect_expression_key p left_bracket).
Proof. intros. unfold expect_expression_key. ke_tac. Qed.
#[export] Hint Resolve ke_expect_expression_key : keeps.
Lemma ke_table_field c p left_brace fields t : pkeeps p -> keeps (table_field c p left_brace fields t).
Proof. intros. unfold table_field. ke_tac. Qed.
#[export] Hint Resolve ke_table_field : keeps.
Lemma ke_force_table_constructor c p left_brace : pkeeps p -> keeps (force_table_constructor c p left_brace).
Proof. intros. unfold force_table_constructor. ke_tac. Qed.
#[export] Hint Resolve ke_force_table_constructor : keeps.
Lemma ke_parse_prefix c p : pkeeps p -> keeps (parse_prefix c p).
Proof. intros. unfold parse_prefix. ke_tac. Qed.
#[export] Hint Resolve ke_parse_prefix : keeps.
Lemma ke_parse_arguments c p : pkeeps p -> keeps (parse_arguments c p).
Proof. intros. unfold parse_arguments. ke_tac. Qed.
#[export] Hint Resolve ke_parse_arguments : keeps.
Lemma ke_dot_suffix msg : oneline msg = true -> keeps (dot_suffix msg).
Proof. intros. unfold dot_suffix. ke_tac. Qed.
#[export] Hint Resolve ke_dot_suffix : keeps.
Lemma ke_parse_suffix c p : pkeeps p -> keeps (parse_suffix c p).
Proof. intros. unfold parse_suffix. ke_tac. Qed.
#[export] Hint Resolve ke_parse_suffix : keeps.
Lemma ke_parse_prefix_and_suffixes c p : pkeeps p -> keeps (parse_prefix_and_suffixes c p).
Proof. intros. unfold parse_prefix_and_suffixes. ke_tac. Qed.
#[export] Hint Resolve ke_parse_prefix_and_suffixes : keeps.
Lemma ke_expect_if_else_expression p if_token : pkeeps p -> keeps (expect_if_else_expression p if_token).
Proof. intros. unfold expect_if_else_expression. ke_tac. Qed.
#[export] Hint Resolve ke_expect_if_else_expression : keeps.
Lemma ke_expect_interpolated_string p first : pkeeps p -> keeps (expect_interpolated_string p first).
Proof. intros. unfold expect_interpolated_string. ke_tac. Qed.
#[export] Hint Resolve ke_expect_interpolated_string : keeps.
Lemma ke_unop c r : keeps (unop c r).
Proof. intros. unfold unop. ke_tac. Qed.
#[export] Hint Resolve ke_unop : keeps.
Lemma ke_parse_unary_expression c p unary_operator_token : pkeeps p -> keeps (parse_unary_expression c p unary_operator_token).
Proof.
  intros P. unfold parse_unary_expression. destruct (existsb (is_symbol unary_operator_token) all_symbols) eqn:X.
  - apply existsb_exists in X. destruct X as (s & _ & X). assert (Q : oneline (str "expected an expression after " ++ show_token (r_token unary_operator_token)) = true).
    { apply oneline_app; [reflexivity|]. apply oneline_all. eapply symbol_oneline; eassumption. }
    ke_tac.
  - assert (N : forall s, is_symbol unary_operator_token s = false).
    { intros s. destruct (is_symbol unary_operator_token s) eqn:Y; [|reflexivity]. assert (Z : existsb (is_symbol unary_operator_token) all_symbols = true) by (apply existsb_exists; exists s; split; [destruct s; cbn; tauto|exact Y]). congruence. }
    unfold unop. rewrite !N. intros s a s' E. discriminate E.
Qed.
#[export] Hint Resolve ke_parse_unary_expression : keeps.
Lemma ke_anonymous_function c p attributes : pkeeps p -> keeps (anonymous_function c p attributes).
Proof. intros. unfold anonymous_function. ke_tac. Qed.
#[export] Hint Resolve ke_anonymous_function : keeps.
Lemma ke_primary_arm c p : pkeeps p -> keeps (primary_arm c p).
Proof. intros. unfold primary_arm. ke_tac. Qed.
#[export] Hint Resolve ke_primary_arm : keeps.
Lemma ke_parse_primary_expression c p : pkeeps p -> keeps (parse_primary_expression c p).
Proof. intros. unfold parse_primary_expression. ke_tac. Qed.
#[export] Hint Resolve ke_parse_primary_expression : keeps.
Lemma ke_consume_binop c : keeps (consume_binop c).
Proof. intros. unfold consume_binop. ke_tac. Qed.
#[export] Hint Resolve ke_consume_binop : keeps.
Lemma ke_climb_right c p bin_op_token bin_op_precedence rhs : pkeeps p -> keeps (climb_right c p bin_op_token bin_op_precedence rhs).
Proof. intros. unfold climb_right. ke_tac. Qed.
#[export] Hint Resolve ke_climb_right : keeps.
Lemma ke_parse_expression_with_precedence c p lhs precedence : pkeeps p -> keeps (parse_expression_with_precedence c p lhs precedence).
Proof. intros. unfold parse_expression_with_precedence. ke_tac. Qed.
#[export] Hint Resolve ke_parse_expression_with_precedence : keeps.
Lemma ke_parse_expression c p : pkeeps p -> keeps (parse_expression c p).
Proof. intros. unfold parse_expression. ke_tac. Qed.
#[export] Hint Resolve ke_parse_expression : keeps.
Lemma ke_compound_op c r : keeps (compound_op c r).
Proof. intros. unfold compound_op. ke_tac. Qed.
#[export] Hint Resolve ke_compound_op : keeps.
Lemma ke_parse_compound_assignment c p v : pkeeps p -> keeps (parse_compound_assignment c p v).
Proof. intros. unfold parse_compound_assignment. ke_tac. Qed.
#[export] Hint Resolve ke_parse_compound_assignment : keeps.
Lemma ke_expect_function_name : keeps (expect_function_name).
Proof.
  unfold expect_function_name. apply ke_bind; [apply ke_current|]. intros [t|]; [|ke_tac]. destruct (is_identifier t); [|ke_tac]. apply ke_bind; [apply ke_take|]. intros name. apply ke_loop. intros names.
  apply (ke_look (fun t => is_symbol t SColon || is_symbol t SDot) (ret (inr LexerMoved))); [ke_tac| |ke_tac]. intros m C.
  assert (Q : oneline (str "expected name after `" ++ show_token (r_token m) ++ str "`") = true).
  { apply oneline_app; [reflexivity|]. rewrite forallb_app. apply andb_true_intro. split; [|reflexivity]. apply oneline_all. apply orb_true_iff in C. destruct C as [C|C]; eapply symbol_oneline; exact C. }
  ke_tac.
Qed.
#[export] Hint Resolve ke_expect_function_name : keeps.
Lemma ke_expect_function_declaration c p attributes function_token : pkeeps p -> keeps (expect_function_declaration c p attributes function_token).
Proof. intros. unfold expect_function_declaration. ke_tac. Qed.
#[export] Hint Resolve ke_expect_function_declaration : keeps.
Lemma ke_expect_local_function_declaration c p attributes local_token function_token : pkeeps p -> keeps (expect_local_function_declaration c p attributes local_token function_token).
Proof. intros. unfold expect_local_function_declaration. ke_tac. Qed.
#[export] Hint Resolve ke_expect_local_function_declaration : keeps.
Lemma ke_expect_numeric_for_stmt c p for_token index_variable : pkeeps p -> keeps (expect_numeric_for_stmt c p for_token index_variable).
Proof. intros. unfold expect_numeric_for_stmt. ke_tac. Qed.
#[export] Hint Resolve ke_expect_numeric_for_stmt : keeps.
Lemma ke_expect_for_stmt c p for_token : pkeeps p -> keeps (expect_for_stmt c p for_token).
Proof. intros. unfold expect_for_stmt. ke_tac. Qed.
#[export] Hint Resolve ke_expect_for_stmt : keeps.
Lemma ke_expect_if_stmt c p if_token : pkeeps p -> keeps (expect_if_stmt c p if_token).
Proof. intros. unfold expect_if_stmt. ke_tac. Qed.
#[export] Hint Resolve ke_expect_if_stmt : keeps.
Lemma ke_expect_local_assignment c p local_token : pkeeps p -> keeps (expect_local_assignment c p local_token).
Proof. intros. unfold expect_local_assignment. ke_tac. Qed.
#[export] Hint Resolve ke_expect_local_assignment : keeps.
Lemma ke_expect_repeat_stmt c p repeat_token : pkeeps p -> keeps (expect_repeat_stmt c p repeat_token).
Proof. intros. unfold expect_repeat_stmt. ke_tac. Qed.
#[export] Hint Resolve ke_expect_repeat_stmt : keeps.
Lemma ke_expect_while_stmt c p while_token : pkeeps p -> keeps (expect_while_stmt c p while_token).
Proof. intros. unfold expect_while_stmt. ke_tac. Qed.
#[export] Hint Resolve ke_expect_while_stmt : keeps.
Lemma ke_expect_type_declaration c p type_token : pkeeps p -> keeps (expect_type_declaration c p type_token).
Proof. intros. unfold expect_type_declaration. ke_tac. Qed.
#[export] Hint Resolve ke_expect_type_declaration : keeps.
Lemma ke_expect_type_function c p type_token function_token : pkeeps p -> keeps (expect_type_function c p type_token function_token).
Proof. intros. unfold expect_type_function. ke_tac. Qed.
#[export] Hint Resolve ke_expect_type_function : keeps.
Lemma ke_local_stmt c p : pkeeps p -> keeps (local_stmt c p).
Proof. intros. unfold local_stmt. ke_tac. Qed.
#[export] Hint Resolve ke_local_stmt : keeps.
Lemma ke_contextual_stmt c p v : pkeeps p -> keeps (contextual_stmt c p v).
Proof. intros. unfold contextual_stmt. ke_tac. Qed.
#[export] Hint Resolve ke_contextual_stmt : keeps.
Lemma ke_var_loop c p v : pkeeps p -> keeps (var_loop c p v).
Proof. intros. unfold var_loop. ke_tac. Qed.
#[export] Hint Resolve ke_var_loop : keeps.
Lemma ke_assignment c p v : pkeeps p -> keeps (assignment c p v).
Proof. intros. unfold assignment. ke_tac. Qed.
#[export] Hint Resolve ke_assignment : keeps.
Lemma ke_expression_stmt c p : pkeeps p -> keeps (expression_stmt c p).
Proof. intros. unfold expression_stmt. ke_tac. Qed.
#[export] Hint Resolve ke_expression_stmt : keeps.
Lemma ke_goto_stmt c : keeps (goto_stmt c).
Proof. intros. unfold goto_stmt. ke_tac. Qed.
#[export] Hint Resolve ke_goto_stmt : keeps.
Lemma ke_two_colons c : keeps (two_colons c).
Proof. intros. unfold two_colons. ke_tac. Qed.
#[export] Hint Resolve ke_two_colons : keeps.
Lemma ke_label_stmt c : keeps (label_stmt c).
Proof. intros. unfold label_stmt. ke_tac. Qed.
#[export] Hint Resolve ke_label_stmt : keeps.
Lemma ke_attribute_stmt c p : pkeeps p -> keeps (attribute_stmt c p).
Proof. intros. unfold attribute_stmt. ke_tac. Qed.
#[export] Hint Resolve ke_attribute_stmt : keeps.
Lemma ke_parse_stmt c p : pkeeps p -> keeps (parse_stmt c p).
Proof. intros. unfold parse_stmt. ke_tac. Qed.
#[export] Hint Resolve ke_parse_stmt : keeps.
Lemma ke_parse_last_stmt p : pkeeps p -> keeps (parse_last_stmt p).
Proof. intros. unfold parse_last_stmt. ke_tac. Qed.
#[export] Hint Resolve ke_parse_last_stmt : keeps.
Lemma ke_parse_block c p : pkeeps p -> keeps (parse_block c p).
Proof. intros. unfold parse_block. ke_tac. Qed.
#[export] Hint Resolve ke_parse_block : keeps.

Lemma ke_at c n : pkeeps (parsers_at c n).
Proof.
  induction n as [|n IH]; cbn [parsers_at no_fuel parsers_step].
  - repeat split; intros; apply ke_lift.
  - repeat split; cbn [p_block p_expression p_primary p_precedence p_type p_type_or_pack parsers_step]; intros; auto with keeps.
Qed.
Lemma ke_next_block q b t : keeps q -> keeps (next_block q b t).
Proof. intros. unfold next_block. ke_tac. Qed.
#[export] Hint Resolve ke_next_block : keeps.
Lemma ke_fallible_loop q b t : keeps q -> keeps (fallible_loop q b t).
Proof. intros. unfold fallible_loop. ke_tac. Qed.
Lemma ke_final_token : keeps final_token.
Proof. unfold final_token. ke_tac. Qed.

Lemma ke_parse_stream c : keeps (parse_stream c).
Proof.
  intros s. unfold parse_stream. generalize (S (List.length (st_toks s))). intros n. revert s. fold (@keeps ast (let! r := p_block (parsers_at c n) in
    let block := match r with Value block => block | _ => block_new end in
    let block_has_last_stmt := match block_last_stmt block with Some _ => true | None => false end in
    let! block := fallible_loop (p_block (parsers_at c n)) block_has_last_stmt block in let! eof := final_token in ret (mkAst block eof))).
  pose proof (kp_block _ (ke_at c n)) as P.
  apply ke_bind; [assumption|]. intros r. cbv zeta. apply ke_bind; [now apply ke_fallible_loop|]. intros b. apply ke_bind; [apply ke_final_token|]. intros e. apply ke_ret.
Qed.

Lemma messages_plain c source r : parse_fallible c source = Done r -> Forall sentence (ar_errors r).
Proof.
  intros P. eapply Forall_impl; [exact plain_sentence|]. unfold parse_fallible in P. destruct (lex_all c source) as [rs| |]; try discriminate.
  destruct (parse_stream c (mkState rs [])) as [[a s]| |] eqn:E; try discriminate. injection P as <-. exact (ke_parse_stream c _ _ _ E (Forall_nil _)).
Qed.
