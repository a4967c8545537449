(** More fuel does not change what a parser function returns (C56). Proof file. *)
From Verif Require Import LexerSpec PunctuatedProofs.
From Verif Require Export Parsers.
From Coq Require Import Lia.
Local Open Scope nat_scope.
Import ListNotations.

Definition up {A} (m m' : M A) : Prop := forall s, m s = OutOfFuel \/ m' s = m s.
Lemma up_refl {A} (m : M A) : up m m.
Proof. intros s. now right. Qed.
Lemma up_none {A} (m : M A) : up (lift OutOfFuel) m.
Proof. intros s. now left. Qed.
Lemma up_trans {A} (m n o : M A) : up m n -> up n o -> up m o.
Proof. intros H K s. destruct (H s) as [X|X]; [now left|]. destruct (K s) as [Y|Y]; [left|right]; congruence. Qed.
Lemma up_bind {A B} (m m' : M A) (k k' : A -> M B) : up m m' -> (forall a, up (k a) (k' a)) -> up (bind m k) (bind m' k').
Proof.
  intros H K s. unfold bind. destruct (H s) as [X|X]; rewrite X; [now left|]. destruct (m s) as [[a s1]| |]; [apply K|now right|now right].
Qed.
Lemma up_loop {A B} (f g : A -> M (A + B)) a : (forall a, up (f a) (g a)) -> up (loop f a) (loop g a).
Proof.
  intros H s. unfold loop. generalize (S (List.length (st_toks s))). intros n. revert a s.
  induction n as [|n IH]; intros a s; [now left|]. cbn [loop_]. destruct (H a s) as [X|X]; rewrite X; [now left|].
  destruct (f a s) as [[[a1|b] s1]| |]; [apply IH|now right|now right|now right].
Qed.
Definition pup (p q : parsers) : Prop :=
  up (p_block p) (p_block q) /\ up (p_expression p) (p_expression q) /\ up (p_primary p) (p_primary q) /\ (forall e n, up (p_precedence p e n) (p_precedence q e n)) /\
  up (p_type p) (p_type q) /\ up (p_type_or_pack p) (p_type_or_pack q).
Lemma pu_block p q : pup p q -> up (p_block p) (p_block q). Proof. now intros (? & ? & ? & ? & ? & ?). Qed.
Lemma pu_expression p q : pup p q -> up (p_expression p) (p_expression q). Proof. now intros (? & ? & ? & ? & ? & ?). Qed.
Lemma pu_primary p q : pup p q -> up (p_primary p) (p_primary q). Proof. now intros (? & ? & ? & ? & ? & ?). Qed.
Lemma pu_precedence p q e n : pup p q -> up (p_precedence p e n) (p_precedence q e n). Proof. now intros (? & ? & ? & ? & ? & ?). Qed.
Lemma pu_type p q : pup p q -> up (p_type p) (p_type q). Proof. now intros (? & ? & ? & ? & ? & ?). Qed.
Lemma pu_type_or_pack p q : pup p q -> up (p_type_or_pack p) (p_type_or_pack q). Proof. now intros (? & ? & ? & ? & ? & ?). Qed.
Create HintDb up discriminated.
#[export] Hint Constants Opaque : up.
#[export] Hint Resolve pu_block pu_expression pu_primary pu_precedence pu_type pu_type_or_pack : up.
Ltac up_tac :=
  repeat (intros; cbv beta iota zeta;
    lazymatch goal with
    | |- up ?x ?x => apply up_refl
    | |- up (bind _ _) (bind _ _) => apply up_bind
    | |- up (loop _ _) (loop _ _) => apply up_loop
    | |- up (match ?x with _ => _ end) _ => destruct x
    | |- up ?x ?x => apply up_refl
    | |- up _ _ => solve [auto with up nocore]
    | |- forall _, _ => intro
    end).
Lemma up_expect_type_specifier p q punctuation : pup p q -> up (expect_type_specifier p punctuation) (expect_type_specifier q punctuation).
Proof. intros. unfold expect_type_specifier. up_tac. Qed.
#[export] Hint Resolve up_expect_type_specifier : up.
Lemma up_force_name_with_type_specifiers c p q r : pup p q -> up (force_name_with_type_specifiers c p r) (force_name_with_type_specifiers c q r).
Proof. intros. unfold force_name_with_type_specifiers. up_tac. Qed.
#[export] Hint Resolve up_force_name_with_type_specifiers : up.
Lemma up_force_name_with_attributes c p q r : pup p q -> up (force_name_with_attributes c p r) (force_name_with_attributes c q r).
Proof. intros. unfold force_name_with_attributes. up_tac. Qed.
#[export] Hint Resolve up_force_name_with_attributes : up.
Lemma up_parse_name_with_attributes c p q : pup p q -> up (parse_name_with_attributes c p) (parse_name_with_attributes c q).
Proof. intros. unfold parse_name_with_attributes. up_tac. Qed.
#[export] Hint Resolve up_parse_name_with_attributes : up.
Lemma up_parse_name_with_type_specifiers c p q : pup p q -> up (parse_name_with_type_specifiers c p) (parse_name_with_type_specifiers c q).
Proof. intros. unfold parse_name_with_type_specifiers. up_tac. Qed.
#[export] Hint Resolve up_parse_name_with_type_specifiers : up.
Lemma up_one_or_more {A} (x y : M (pres A)) d : up x y -> up (one_or_more x d) (one_or_more y d).
Proof. intros. unfold one_or_more. up_tac. Qed.
#[export] Hint Resolve up_one_or_more : up.
Lemma up_parse_name_list c p q : pup p q -> up (parse_name_list c p) (parse_name_list c q).
Proof. intros. unfold parse_name_list. up_tac. Qed.
#[export] Hint Resolve up_parse_name_list : up.
Lemma up_parse_expression_list p q : pup p q -> up (parse_expression_list p) (parse_expression_list q).
Proof. intros. unfold parse_expression_list. up_tac. Qed.
#[export] Hint Resolve up_parse_expression_list : up.
Lemma up_parse_type_pack p q : pup p q -> up (parse_type_pack p) (parse_type_pack q).
Proof. intros. unfold parse_type_pack. up_tac. Qed.
#[export] Hint Resolve up_parse_type_pack : up.
Lemma up_parse_return_type p q : pup p q -> up (parse_return_type p) (parse_return_type q).
Proof. intros. unfold parse_return_type. up_tac. Qed.
#[export] Hint Resolve up_parse_return_type : up.
Lemma up_expect_generic_type_params p q left_arrow : pup p q -> up (expect_generic_type_params p left_arrow) (expect_generic_type_params q left_arrow).
Proof. intros. unfold expect_generic_type_params. up_tac. Qed.
#[export] Hint Resolve up_expect_generic_type_params : up.
Lemma up_parse_generic_type_list c p q style : pup p q -> up (parse_generic_type_list c p style) (parse_generic_type_list c q style).
Proof. intros. unfold parse_generic_type_list. up_tac. Qed.
#[export] Hint Resolve up_parse_generic_type_list : up.
Lemma up_expect_function_type c p q style : pup p q -> up (expect_function_type c p style) (expect_function_type c q style).
Proof. intros. unfold expect_function_type. up_tac. Qed.
#[export] Hint Resolve up_expect_function_type : up.
Lemma up_expect_type_table c p q left_brace : pup p q -> up (expect_type_table c p left_brace) (expect_type_table c q left_brace).
Proof. intros. unfold expect_type_table. up_tac. Qed.
#[export] Hint Resolve up_expect_type_table : up.
Lemma up_parse_simple_type c p q style : pup p q -> up (parse_simple_type c p style) (parse_simple_type c q style).
Proof. intros. unfold parse_simple_type. up_tac. Qed.
#[export] Hint Resolve up_parse_simple_type : up.
Lemma up_parse_type_suffix c p q simple_type : pup p q -> up (parse_type_suffix c p simple_type) (parse_type_suffix c q simple_type).
Proof. intros. unfold parse_type_suffix. up_tac. Qed.
#[export] Hint Resolve up_parse_type_suffix : up.
Lemma up_parse_type c p q : pup p q -> up (parse_type c p) (parse_type c q).
Proof. intros. unfold parse_type. up_tac. Qed.
#[export] Hint Resolve up_parse_type : up.
Lemma up_parse_type_or_pack c p q : pup p q -> up (parse_type_or_pack c p) (parse_type_or_pack c q).
Proof. intros. unfold parse_type_or_pack. up_tac. Qed.
#[export] Hint Resolve up_parse_type_or_pack : up.
Lemma up_expect_type_instantiation p q outer_0 : pup p q -> up (expect_type_instantiation p outer_0) (expect_type_instantiation q outer_0).
Proof. intros. unfold expect_type_instantiation. up_tac. Qed.
#[export] Hint Resolve up_expect_type_instantiation : up.
Lemma up_expect_block_with_end c p q name start_for_errors : pup p q -> up (expect_block_with_end c p name start_for_errors) (expect_block_with_end c q name start_for_errors).
Proof. intros. unfold expect_block_with_end. up_tac. Qed.
#[export] Hint Resolve up_expect_block_with_end : up.
Lemma up_ellipsis_specifier p q : pup p q -> up (ellipsis_specifier p) (ellipsis_specifier q).
Proof. intros. unfold ellipsis_specifier. up_tac. Qed.
#[export] Hint Resolve up_ellipsis_specifier : up.
Lemma up_parameter_loop c p q : pup p q -> up (parameter_loop c p) (parameter_loop c q).
Proof. intros. unfold parameter_loop. up_tac. Qed.
#[export] Hint Resolve up_parameter_loop : up.
Lemma up_body_return_type c p q : pup p q -> up (body_return_type c p) (body_return_type c q).
Proof. intros. unfold body_return_type. up_tac. Qed.
#[export] Hint Resolve up_body_return_type : up.
Lemma up_parse_function_body c p q : pup p q -> up (parse_function_body c p) (parse_function_body c q).
Proof. intros. unfold parse_function_body. up_tac. Qed.
#[export] Hint Resolve up_parse_function_body : up.
Lemma up_expect_expression_key p q left_bracket : pup p q -> up (expect_expression_key p left_bracket) (expect_expression_key q left_bracket).
Proof. intros. unfold expect_expression_key. up_tac. Qed.
#[export] Hint Resolve up_expect_expression_key : up.
Lemma up_table_field c p q left_brace fields t : pup p q -> up (table_field c p left_brace fields t) (table_field c q left_brace fields t).
Proof. intros. unfold table_field. up_tac. Qed.
#[export] Hint Resolve up_table_field : up.
Lemma up_force_table_constructor c p q left_brace : pup p q -> up (force_table_constructor c p left_brace) (force_table_constructor c q left_brace).
Proof. intros. unfold force_table_constructor. up_tac. Qed.
#[export] Hint Resolve up_force_table_constructor : up.
Lemma up_parse_prefix c p q : pup p q -> up (parse_prefix c p) (parse_prefix c q).
Proof. intros. unfold parse_prefix. up_tac. Qed.
#[export] Hint Resolve up_parse_prefix : up.
Lemma up_parse_arguments c p q : pup p q -> up (parse_arguments c p) (parse_arguments c q).
Proof. intros. unfold parse_arguments. up_tac. Qed.
#[export] Hint Resolve up_parse_arguments : up.
Lemma up_parse_suffix c p q : pup p q -> up (parse_suffix c p) (parse_suffix c q).
Proof. intros. unfold parse_suffix. up_tac. Qed.
#[export] Hint Resolve up_parse_suffix : up.
Lemma up_parse_prefix_and_suffixes c p q : pup p q -> up (parse_prefix_and_suffixes c p) (parse_prefix_and_suffixes c q).
Proof. intros. unfold parse_prefix_and_suffixes. up_tac. Qed.
#[export] Hint Resolve up_parse_prefix_and_suffixes : up.
Lemma up_expect_if_else_expression p q if_token : pup p q -> up (expect_if_else_expression p if_token) (expect_if_else_expression q if_token).
Proof. intros. unfold expect_if_else_expression. up_tac. Qed.
#[export] Hint Resolve up_expect_if_else_expression : up.
Lemma up_expect_interpolated_string p q first : pup p q -> up (expect_interpolated_string p first) (expect_interpolated_string q first).
Proof. intros. unfold expect_interpolated_string. up_tac. Qed.
#[export] Hint Resolve up_expect_interpolated_string : up.
Lemma up_parse_unary_expression c p q unary_operator_token : pup p q -> up (parse_unary_expression c p unary_operator_token) (parse_unary_expression c q unary_operator_token).
Proof. intros. unfold parse_unary_expression. up_tac. Qed.
#[export] Hint Resolve up_parse_unary_expression : up.
Lemma up_anonymous_function c p q attributes : pup p q -> up (anonymous_function c p attributes) (anonymous_function c q attributes).
Proof. intros. unfold anonymous_function. up_tac. Qed.
#[export] Hint Resolve up_anonymous_function : up.
Lemma up_primary_arm c p q : pup p q -> up (primary_arm c p) (primary_arm c q).
Proof. intros. unfold primary_arm. up_tac. Qed.
#[export] Hint Resolve up_primary_arm : up.
Lemma up_parse_primary_expression c p q : pup p q -> up (parse_primary_expression c p) (parse_primary_expression c q).
Proof. intros. unfold parse_primary_expression. up_tac. Qed.
#[export] Hint Resolve up_parse_primary_expression : up.
Lemma up_climb_right c p q bin_op_token bin_op_precedence rhs : pup p q -> up (climb_right c p bin_op_token bin_op_precedence rhs) (climb_right c q bin_op_token bin_op_precedence rhs).
Proof. intros. unfold climb_right. up_tac. Qed.
#[export] Hint Resolve up_climb_right : up.
Lemma up_parse_expression_with_precedence c p q lhs precedence : pup p q -> up (parse_expression_with_precedence c p lhs precedence) (parse_expression_with_precedence c q lhs precedence).
Proof. intros. unfold parse_expression_with_precedence. up_tac. Qed.
#[export] Hint Resolve up_parse_expression_with_precedence : up.
Lemma up_parse_expression c p q : pup p q -> up (parse_expression c p) (parse_expression c q).
Proof. intros. unfold parse_expression. up_tac. Qed.
#[export] Hint Resolve up_parse_expression : up.
Lemma up_parse_compound_assignment c p q v : pup p q -> up (parse_compound_assignment c p v) (parse_compound_assignment c q v).
Proof. intros. unfold parse_compound_assignment. up_tac. Qed.
#[export] Hint Resolve up_parse_compound_assignment : up.
Lemma up_expect_function_declaration c p q attributes function_token : pup p q -> up (expect_function_declaration c p attributes function_token) (expect_function_declaration c q attributes function_token).
Proof. intros. unfold expect_function_declaration. up_tac. Qed.
#[export] Hint Resolve up_expect_function_declaration : up.
Lemma up_expect_local_function_declaration c p q attributes local_token function_token : pup p q -> up (expect_local_function_declaration c p attributes local_token function_token) (expect_local_function_declaration c q attributes local_token function_token).
Proof. intros. unfold expect_local_function_declaration. up_tac. Qed.
#[export] Hint Resolve up_expect_local_function_declaration : up.
Lemma up_expect_numeric_for_stmt c p q for_token index_variable : pup p q -> up (expect_numeric_for_stmt c p for_token index_variable) (expect_numeric_for_stmt c q for_token index_variable).
Proof. intros. unfold expect_numeric_for_stmt. up_tac. Qed.
#[export] Hint Resolve up_expect_numeric_for_stmt : up.
Lemma up_expect_for_stmt c p q for_token : pup p q -> up (expect_for_stmt c p for_token) (expect_for_stmt c q for_token).
Proof. intros. unfold expect_for_stmt. up_tac. Qed.
#[export] Hint Resolve up_expect_for_stmt : up.
Lemma up_expect_if_stmt c p q if_token : pup p q -> up (expect_if_stmt c p if_token) (expect_if_stmt c q if_token).
Proof. intros. unfold expect_if_stmt. up_tac. Qed.
#[export] Hint Resolve up_expect_if_stmt : up.
Lemma up_expect_local_assignment c p q local_token : pup p q -> up (expect_local_assignment c p local_token) (expect_local_assignment c q local_token).
Proof. intros. unfold expect_local_assignment. up_tac. Qed.
#[export] Hint Resolve up_expect_local_assignment : up.
Lemma up_expect_repeat_stmt c p q repeat_token : pup p q -> up (expect_repeat_stmt c p repeat_token) (expect_repeat_stmt c q repeat_token).
Proof. intros. unfold expect_repeat_stmt. up_tac. Qed.
#[export] Hint Resolve up_expect_repeat_stmt : up.
Lemma up_expect_while_stmt c p q while_token : pup p q -> up (expect_while_stmt c p while_token) (expect_while_stmt c q while_token).
Proof. intros. unfold expect_while_stmt. up_tac. Qed.
#[export] Hint Resolve up_expect_while_stmt : up.
Lemma up_expect_type_declaration c p q type_token : pup p q -> up (expect_type_declaration c p type_token) (expect_type_declaration c q type_token).
Proof. intros. unfold expect_type_declaration. up_tac. Qed.
#[export] Hint Resolve up_expect_type_declaration : up.
Lemma up_expect_type_function c p q type_token function_token : pup p q -> up (expect_type_function c p type_token function_token) (expect_type_function c q type_token function_token).
Proof. intros. unfold expect_type_function. up_tac. Qed.
#[export] Hint Resolve up_expect_type_function : up.
Lemma up_local_stmt c p q : pup p q -> up (local_stmt c p) (local_stmt c q).
Proof. intros. unfold local_stmt. up_tac. Qed.
#[export] Hint Resolve up_local_stmt : up.
Lemma up_contextual_stmt c p q v : pup p q -> up (contextual_stmt c p v) (contextual_stmt c q v).
Proof. intros. unfold contextual_stmt. up_tac. Qed.
#[export] Hint Resolve up_contextual_stmt : up.
Lemma up_var_loop c p q v : pup p q -> up (var_loop c p v) (var_loop c q v).
Proof. intros. unfold var_loop. up_tac. Qed.
#[export] Hint Resolve up_var_loop : up.
Lemma up_assignment c p q v : pup p q -> up (assignment c p v) (assignment c q v).
Proof. intros. unfold assignment. up_tac. Qed.
#[export] Hint Resolve up_assignment : up.
Lemma up_expression_stmt c p q : pup p q -> up (expression_stmt c p) (expression_stmt c q).
Proof. intros. unfold expression_stmt. up_tac. Qed.
#[export] Hint Resolve up_expression_stmt : up.
Lemma up_attribute_stmt c p q : pup p q -> up (attribute_stmt c p) (attribute_stmt c q).
Proof. intros. unfold attribute_stmt. up_tac. Qed.
#[export] Hint Resolve up_attribute_stmt : up.
Lemma up_parse_stmt c p q : pup p q -> up (parse_stmt c p) (parse_stmt c q).
Proof. intros. unfold parse_stmt. up_tac. Qed.
#[export] Hint Resolve up_parse_stmt : up.
Lemma up_parse_last_stmt p q : pup p q -> up (parse_last_stmt p) (parse_last_stmt q).
Proof. intros. unfold parse_last_stmt. up_tac. Qed.
#[export] Hint Resolve up_parse_last_stmt : up.
Lemma up_parse_block c p q : pup p q -> up (parse_block c p) (parse_block c q).
Proof. intros. unfold parse_block. up_tac. Qed.
#[export] Hint Resolve up_parse_block : up.

Lemma up_step c p q : pup p q -> pup (parsers_step c p) (parsers_step c q).
Proof. intros H. unfold parsers_step. repeat split; cbn [p_block p_expression p_primary p_precedence p_type p_type_or_pack]; intros; auto with up. Qed.
Lemma up_at c n : pup (parsers_at c n) (parsers_at c (S n)).
Proof.
  induction n as [|n IH]; [|cbn [parsers_at]; apply up_step; exact IH].
  cbn [parsers_at no_fuel]. repeat split; cbn [no_fuel p_block p_expression p_primary p_precedence p_type p_type_or_pack]; intros; apply up_none.
Qed.
Lemma pup_refl p : pup p p.
Proof. repeat split; intros; apply up_refl. Qed.
Lemma pup_trans p q r : pup p q -> pup q r -> pup p r.
Proof. intros (A & B & D & E & F & G) (A' & B' & D' & E' & F' & G'). repeat split; intros; eapply up_trans; eauto. Qed.
Lemma up_more c n m : n <= m -> pup (parsers_at c n) (parsers_at c m).
Proof. induction 1; [apply pup_refl|]. eapply pup_trans; [eassumption|apply up_at]. Qed.
