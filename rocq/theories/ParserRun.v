(** What holds of every step of the parser holds of its runs. *)
From Verif Require Import LexerSpec.
From Verif Require Export Parsers.
Local Open Scope nat_scope.

(** A relation between states that every step keeps to. *)
Record transition := mkTransition { tr :> pstate -> pstate -> Prop;
  tr_refl : forall s, tr s s;
  tr_trans : forall s s1 s2, tr s s1 -> tr s1 s2 -> tr s s2;
  tr_consume : forall s a s', consume s = Done (a, s') -> tr s s';
  tr_error : forall s a s' r msg, token_error r msg s = Done (a, s') -> tr s s';
  tr_error_ranged : forall s a s' r msg x y, token_error_ranged r msg x y s = Done (a, s') -> tr s s' }.
Definition along (T : transition) {A} (m : M A) : Prop := forall s a s', m s = Done (a, s') -> T s s'.

Lemma al_ret T {A} (a : A) : along T (ret a).
Proof. intros s b s' [= <- <-]. apply tr_refl. Qed.
Lemma al_panic T {A} : along T (@panic A).
Proof. intros s b s' E. discriminate. Qed.
Lemma al_bind T {A B} (m : M A) (k : A -> M B) : along T m -> (forall a, along T (k a)) -> along T (bind m k).
Proof.
  intros H1 H2 s b s' E. unfold bind in E. destruct (m s) as [[a s1]| |] eqn:E1; try discriminate.
  eapply tr_trans; [eapply H1; eassumption|eapply H2; eassumption].
Qed.
Lemma al_lift T {A} (o : out A) : along T (lift o).
Proof. intros s b s' E. unfold lift in E. destruct o; try discriminate. injection E as <- <-. apply tr_refl. Qed.
Lemma al_loop T {A B} (body : A -> M (A + B)) a : (forall a, along T (body a)) -> along T (loop body a).
Proof.
  intros H s b s'. unfold loop. generalize (S (List.length (st_toks s))). intros n. revert a s.
  induction n as [|n IH]; intros a s E; [discriminate|]. cbn [loop_] in E.
  destruct (body a s) as [[[a1|b1] s1]| |] eqn:E1; try discriminate.
  - eapply tr_trans; [eapply H; eassumption|eapply IH; eassumption].
  - injection E as <- <-. eapply H; eassumption.
Qed.
Lemma al_current T : along T current.
Proof. intros s a s' E. unfold current in E. destruct (st_toks s) as [|[]]; try discriminate; injection E as <- <-; apply tr_refl. Qed.
Lemma al_peek T : along T peek.
Proof. intros s a s' E. unfold peek in E. destruct (st_toks s) as [|? [|[]]]; try discriminate; injection E as <- <-; apply tr_refl. Qed.
Lemma al_consume T : along T consume.
Proof. intros s a s'. apply tr_consume. Qed.
Lemma al_error T r msg : along T (token_error r msg).
Proof. intros s a s'. apply tr_error. Qed.
Lemma al_error_ranged T r msg a b : along T (token_error_ranged r msg a b).
Proof. intros s x s'. apply tr_error_ranged. Qed.
Lemma al_errors T : along T errors.
Proof. intros s a s' [= <- <-]. apply tr_refl. Qed.
Lemma al_lexer_current T : along T lexer_current.
Proof. intros s a s' [= <- <-]. apply tr_refl. Qed.
Lemma al_basic T c w : along T (basic c w).
Proof. apply al_lift. Qed.

Create HintDb along.
#[export] Hint Resolve al_ret al_panic al_lift al_current al_peek al_consume al_error al_error_ranged al_basic al_errors al_lexer_current : along.
Ltac al_tac :=
  repeat (intros; cbv beta iota zeta;
    lazymatch goal with
    | |- along _ (bind _ _) => apply al_bind
    | |- along _ (loop _ _) => apply al_loop
    | |- along _ (match ?x with _ => _ end) => destruct x
    | |- along _ (require_with_reference_range_callback ?y ?m ?ab) => unfold require_with_reference_range_callback
    | |- along _ _ => solve [eauto with along | auto with along]
    | |- forall _, _ => intro
    end).
Lemma al_take T : along T take.
Proof. unfold take, unwrap. al_tac. Qed.
#[export] Hint Resolve al_take : along.
Lemma al_unwrap T {A} (r : pres A) : along T (unwrap r).
Proof. unfold unwrap. al_tac. Qed.
Lemma al_push_punctuated T {A} (l : punctuated A) v q : along T (push_punctuated l v q).
Proof. unfold push_punctuated. al_tac. Qed.
Lemma al_consume_if T y : along T (consume_if y).
Proof. unfold consume_if. al_tac. Qed.
Lemma al_consume_if_symbols T y : along T (consume_if_symbols y).
Proof. unfold consume_if_symbols. al_tac. Qed.
Lemma al_require T y m : along T (require y m).
Proof. unfold require. al_tac. Qed.
Lemma al_require_token T y m a : along T (require_with_reference_token y m a).
Proof. unfold require_with_reference_token. al_tac. Qed.
Lemma al_require_range T y m a b : along T (require_with_reference_range y m a b).
Proof. unfold require_with_reference_range. al_tac. Qed.
Lemma al_require_callback T y m ab : along T ab -> along T (require_with_reference_range_callback y m ab).
Proof. unfold require_with_reference_range_callback. al_tac. Qed.
Lemma al_first_token T t : along T (first_token t).
Proof. unfold first_token. al_tac. Qed.
Lemma al_last_token T t : along T (last_token t).
Proof. unfold last_token. al_tac. Qed.
Lemma al_ends_of T t : along T (ends_of t).
Proof. unfold ends_of. al_tac. Qed.
#[export] Hint Resolve al_unwrap al_push_punctuated al_consume_if al_consume_if_symbols al_require al_require_token al_require_range
  al_require_callback al_first_token al_last_token al_ends_of : along.

(** The recursive functions. *)
Definition palong (T : transition) (p : parsers) : Prop :=
  along T (p_block p) /\ along T (p_expression p) /\ along T (p_primary p) /\ (forall e n, along T (p_precedence p e n)) /\ along T (p_type p) /\ along T (p_type_or_pack p).
Lemma pa_block T p : palong T p -> along T (p_block p). Proof. now intros (? & ? & ? & ? & ? & ?). Qed.
Lemma pa_expression T p : palong T p -> along T (p_expression p). Proof. now intros (? & ? & ? & ? & ? & ?). Qed.
Lemma pa_primary T p : palong T p -> along T (p_primary p). Proof. now intros (? & ? & ? & ? & ? & ?). Qed.
Lemma pa_precedence T p e n : palong T p -> along T (p_precedence p e n). Proof. now intros (? & ? & ? & ? & ? & ?). Qed.
Lemma pa_type T p : palong T p -> along T (p_type p). Proof. now intros (? & ? & ? & ? & ? & ?). Qed.
Lemma pa_type_or_pack T p : palong T p -> along T (p_type_or_pack p). Proof. now intros (? & ? & ? & ? & ? & ?). Qed.
#[export] Hint Resolve pa_block pa_expression pa_primary pa_precedence pa_type pa_type_or_pack : along.

(** Function by function. *)
Lemma al_function_args_empty T c : along T (function_args_empty c).
Proof. intros. unfold function_args_empty. al_tac. Qed.
#[export] Hint Resolve al_function_args_empty : along.
Lemma al_function_body_new T c : along T (function_body_new c).
Proof. intros. unfold function_body_new. al_tac. Qed.
#[export] Hint Resolve al_function_body_new : along.
Lemma al_if_new T c condition else_if : along T (if_new c condition else_if).
Proof. intros. unfold if_new. al_tac. Qed.
#[export] Hint Resolve al_if_new : along.
Lemma al_while_new T c condition : along T (while_new c condition).
Proof. intros. unfold while_new. al_tac. Qed.
#[export] Hint Resolve al_while_new : along.
Lemma al_do_with_block T c block : along T (do_with_block c block).
Proof. intros. unfold do_with_block. al_tac. Qed.
#[export] Hint Resolve al_do_with_block : along.
Lemma al_parse_name T : along T (parse_name).
Proof. intros. unfold parse_name. al_tac. Qed.
#[export] Hint Resolve al_parse_name : along.
Lemma al_expect_type_specifier T p punctuation : palong T p -> along T (expect_type_specifier p punctuation).
Proof. intros. unfold expect_type_specifier. al_tac. Qed.
#[export] Hint Resolve al_expect_type_specifier : along.
Lemma al_force_name_with_type_specifiers T c p r : palong T p -> along T (force_name_with_type_specifiers c p r).
Proof. intros. unfold force_name_with_type_specifiers. al_tac. Qed.
#[export] Hint Resolve al_force_name_with_type_specifiers : along.
Lemma al_force_name_with_attributes T c p r : palong T p -> along T (force_name_with_attributes c p r).
Proof. intros. unfold force_name_with_attributes. al_tac. Qed.
#[export] Hint Resolve al_force_name_with_attributes : along.
Lemma al_parse_name_with_attributes T c p : palong T p -> along T (parse_name_with_attributes c p).
Proof. intros. unfold parse_name_with_attributes. al_tac. Qed.
#[export] Hint Resolve al_parse_name_with_attributes : along.
Lemma al_parse_name_with_type_specifiers T c p : palong T p -> along T (parse_name_with_type_specifiers c p).
Proof. intros. unfold parse_name_with_type_specifiers. al_tac. Qed.
#[export] Hint Resolve al_parse_name_with_type_specifiers : along.
Lemma al_one_or_more T {A} (q : M (pres A)) d : along T q -> along T (one_or_more q d).
Proof. intros. unfold one_or_more. al_tac. Qed.
#[export] Hint Resolve al_one_or_more : along.
Lemma al_parse_name_list T c p : palong T p -> along T (parse_name_list c p).
Proof. intros. unfold parse_name_list. al_tac. Qed.
#[export] Hint Resolve al_parse_name_list : along.
Lemma al_parse_expression_list T p : palong T p -> along T (parse_expression_list p).
Proof. intros. unfold parse_expression_list. al_tac. Qed.
#[export] Hint Resolve al_parse_expression_list : along.
Lemma al_parse_type_pack T p : palong T p -> along T (parse_type_pack p).
Proof. intros. unfold parse_type_pack. al_tac. Qed.
#[export] Hint Resolve al_parse_type_pack : along.
Lemma al_parse_return_type T p : palong T p -> along T (parse_return_type p).
Proof. intros. unfold parse_return_type. al_tac. Qed.
#[export] Hint Resolve al_parse_return_type : along.
Lemma al_expect_generic_type_params T p left_arrow : palong T p -> along T (expect_generic_type_params p left_arrow).
Proof. intros. unfold expect_generic_type_params. al_tac. Qed.
#[export] Hint Resolve al_expect_generic_type_params : along.
Lemma al_missing_default T seen_default : along T (missing_default seen_default).
Proof. intros. unfold missing_default. al_tac. Qed.
#[export] Hint Resolve al_missing_default : along.
Lemma al_parse_generic_type_list T c p style : palong T p -> along T (parse_generic_type_list c p style).
Proof. intros. unfold parse_generic_type_list. al_tac. Qed.
#[export] Hint Resolve al_parse_generic_type_list : along.
Lemma al_expect_function_type T c p style : palong T p -> along T (expect_function_type c p style).
Proof. intros. unfold expect_function_type. al_tac. Qed.
#[export] Hint Resolve al_expect_function_type : along.
Lemma al_error_at_current T msg : along T (error_at_current msg).
Proof. intros. unfold error_at_current. al_tac. Qed.
#[export] Hint Resolve al_error_at_current : along.
Lemma al_push_field T {B} l f (g : _ -> B) : along T (push_field l f g).
Proof. unfold push_field. al_tac. Qed.
#[export] Hint Resolve al_push_field : along.
Lemma al_expect_type_table T c p left_brace : palong T p -> along T (expect_type_table c p left_brace).
Proof. intros. unfold expect_type_table. al_tac. Qed.
#[export] Hint Resolve al_expect_type_table : along.
Lemma al_parse_simple_type T c p style : palong T p -> along T (parse_simple_type c p style).
Proof. intros. unfold parse_simple_type. al_tac. Qed.
#[export] Hint Resolve al_parse_simple_type : along.
Lemma al_parse_type_suffix T c p simple_type : palong T p -> along T (parse_type_suffix c p simple_type).
Proof. intros. unfold parse_type_suffix. al_tac. Qed.
#[export] Hint Resolve al_parse_type_suffix : along.
Lemma al_parse_type T c p : palong T p -> along T (parse_type c p).
Proof. intros. unfold parse_type. al_tac. Qed.
#[export] Hint Resolve al_parse_type : along.
Lemma al_parse_type_or_pack T c p : palong T p -> along T (parse_type_or_pack c p).
Proof. intros. unfold parse_type_or_pack. al_tac. Qed.
#[export] Hint Resolve al_parse_type_or_pack : along.
Lemma al_expect_type_instantiation T p outer_0 : palong T p -> along T (expect_type_instantiation p outer_0).
Proof. intros. unfold expect_type_instantiation. al_tac. Qed.
#[export] Hint Resolve al_expect_type_instantiation : along.
Lemma al_parse_attributes T : along T (parse_attributes).
Proof. intros. unfold parse_attributes. al_tac. Qed.
#[export] Hint Resolve al_parse_attributes : along.
Lemma al_expect_block_with_end T c p name start_for_errors : palong T p -> along T (expect_block_with_end c p name start_for_errors).
Proof. intros. unfold expect_block_with_end. al_tac. Qed.
#[export] Hint Resolve al_expect_block_with_end : along.
Lemma al_unfinished_function_body T c left_parenthesis parameters : along T (unfinished_function_body c left_parenthesis parameters).
Proof. intros. unfold unfinished_function_body. al_tac. Qed.
#[export] Hint Resolve al_unfinished_function_body : along.
Lemma al_ellipsis_specifier T p : palong T p -> along T (ellipsis_specifier p).
Proof. intros. unfold ellipsis_specifier. al_tac. Qed.
#[export] Hint Resolve al_ellipsis_specifier : along.
Lemma al_parameter_loop T c p : palong T p -> along T (parameter_loop c p).
Proof. intros. unfold parameter_loop. al_tac. Qed.
#[export] Hint Resolve al_parameter_loop : along.
Lemma al_body_return_type T c p : palong T p -> along T (body_return_type c p).
Proof. intros. unfold body_return_type. al_tac. Qed.
#[export] Hint Resolve al_body_return_type : along.
Lemma al_parse_function_body T c p : palong T p -> along T (parse_function_body c p).
Proof. intros. unfold parse_function_body. al_tac. Qed.
#[export] Hint Resolve al_parse_function_body : along.
Lemma al_expect_expression_key T p left_bracket : palong T p -> along T (expect_expression_key p left_bracket).
Proof. intros. unfold expect_expression_key. al_tac. Qed.
#[export] Hint Resolve al_expect_expression_key : along.
Lemma al_table_field T c p left_brace fields t : palong T p -> along T (table_field c p left_brace fields t).
Proof. intros. unfold table_field. al_tac. Qed.
#[export] Hint Resolve al_table_field : along.
Lemma al_force_table_constructor T c p left_brace : palong T p -> along T (force_table_constructor c p left_brace).
Proof. intros. unfold force_table_constructor. al_tac. Qed.
#[export] Hint Resolve al_force_table_constructor : along.
Lemma al_parse_prefix T c p : palong T p -> along T (parse_prefix c p).
Proof. intros. unfold parse_prefix. al_tac. Qed.
#[export] Hint Resolve al_parse_prefix : along.
Lemma al_parse_arguments T c p : palong T p -> along T (parse_arguments c p).
Proof. intros. unfold parse_arguments. al_tac. Qed.
#[export] Hint Resolve al_parse_arguments : along.
Lemma al_dot_suffix T msg : along T (dot_suffix msg).
Proof. intros. unfold dot_suffix. al_tac. Qed.
#[export] Hint Resolve al_dot_suffix : along.
Lemma al_parse_suffix T c p : palong T p -> along T (parse_suffix c p).
Proof. intros. unfold parse_suffix. al_tac. Qed.
#[export] Hint Resolve al_parse_suffix : along.
Lemma al_parse_prefix_and_suffixes T c p : palong T p -> along T (parse_prefix_and_suffixes c p).
Proof. intros. unfold parse_prefix_and_suffixes. al_tac. Qed.
#[export] Hint Resolve al_parse_prefix_and_suffixes : along.
Lemma al_expect_if_else_expression T p if_token : palong T p -> along T (expect_if_else_expression p if_token).
Proof. intros. unfold expect_if_else_expression. al_tac. Qed.
#[export] Hint Resolve al_expect_if_else_expression : along.
Lemma al_expect_interpolated_string T p first : palong T p -> along T (expect_interpolated_string p first).
Proof. intros. unfold expect_interpolated_string. al_tac. Qed.
#[export] Hint Resolve al_expect_interpolated_string : along.
Lemma al_unop T c r : along T (unop c r).
Proof. intros. unfold unop. al_tac. Qed.
#[export] Hint Resolve al_unop : along.
Lemma al_parse_unary_expression T c p unary_operator_token : palong T p -> along T (parse_unary_expression c p unary_operator_token).
Proof. intros. unfold parse_unary_expression. al_tac. Qed.
#[export] Hint Resolve al_parse_unary_expression : along.
Lemma al_anonymous_function T c p attributes : palong T p -> along T (anonymous_function c p attributes).
Proof. intros. unfold anonymous_function. al_tac. Qed.
#[export] Hint Resolve al_anonymous_function : along.
Lemma al_primary_arm T c p : palong T p -> along T (primary_arm c p).
Proof. intros. unfold primary_arm. al_tac. Qed.
#[export] Hint Resolve al_primary_arm : along.
Lemma al_parse_primary_expression T c p : palong T p -> along T (parse_primary_expression c p).
Proof. intros. unfold parse_primary_expression. al_tac. Qed.
#[export] Hint Resolve al_parse_primary_expression : along.
Lemma al_consume_binop T c : along T (consume_binop c).
Proof. intros. unfold consume_binop. al_tac. Qed.
#[export] Hint Resolve al_consume_binop : along.
Lemma al_climb_right T c p bin_op_token bin_op_precedence rhs : palong T p -> along T (climb_right c p bin_op_token bin_op_precedence rhs).
Proof. intros. unfold climb_right. al_tac. Qed.
#[export] Hint Resolve al_climb_right : along.
Lemma al_parse_expression_with_precedence T c p lhs precedence : palong T p -> along T (parse_expression_with_precedence c p lhs precedence).
Proof. intros. unfold parse_expression_with_precedence. al_tac. Qed.
#[export] Hint Resolve al_parse_expression_with_precedence : along.
Lemma al_parse_expression T c p : palong T p -> along T (parse_expression c p).
Proof. intros. unfold parse_expression. al_tac. Qed.
#[export] Hint Resolve al_parse_expression : along.
Lemma al_compound_op T c r : along T (compound_op c r).
Proof. intros. unfold compound_op. al_tac. Qed.
#[export] Hint Resolve al_compound_op : along.
Lemma al_parse_compound_assignment T c p v : palong T p -> along T (parse_compound_assignment c p v).
Proof. intros. unfold parse_compound_assignment. al_tac. Qed.
#[export] Hint Resolve al_parse_compound_assignment : along.
Lemma al_expect_function_name T : along T (expect_function_name).
Proof. intros. unfold expect_function_name. al_tac. Qed.
#[export] Hint Resolve al_expect_function_name : along.
Lemma al_expect_function_declaration T c p attributes function_token : palong T p -> along T (expect_function_declaration c p attributes function_token).
Proof. intros. unfold expect_function_declaration. al_tac. Qed.
#[export] Hint Resolve al_expect_function_declaration : along.
Lemma al_expect_local_function_declaration T c p attributes local_token function_token : palong T p -> along T (expect_local_function_declaration c p attributes local_token function_token).
Proof. intros. unfold expect_local_function_declaration. al_tac. Qed.
#[export] Hint Resolve al_expect_local_function_declaration : along.
Lemma al_expect_numeric_for_stmt T c p for_token index_variable : palong T p -> along T (expect_numeric_for_stmt c p for_token index_variable).
Proof. intros. unfold expect_numeric_for_stmt. al_tac. Qed.
#[export] Hint Resolve al_expect_numeric_for_stmt : along.
Lemma al_expect_for_stmt T c p for_token : palong T p -> along T (expect_for_stmt c p for_token).
Proof. intros. unfold expect_for_stmt. al_tac. Qed.
#[export] Hint Resolve al_expect_for_stmt : along.
Lemma al_expect_if_stmt T c p if_token : palong T p -> along T (expect_if_stmt c p if_token).
Proof. intros. unfold expect_if_stmt. al_tac. Qed.
#[export] Hint Resolve al_expect_if_stmt : along.
Lemma al_expect_local_assignment T c p local_token : palong T p -> along T (expect_local_assignment c p local_token).
Proof. intros. unfold expect_local_assignment. al_tac. Qed.
#[export] Hint Resolve al_expect_local_assignment : along.
Lemma al_expect_repeat_stmt T c p repeat_token : palong T p -> along T (expect_repeat_stmt c p repeat_token).
Proof. intros. unfold expect_repeat_stmt. al_tac. Qed.
#[export] Hint Resolve al_expect_repeat_stmt : along.
Lemma al_expect_while_stmt T c p while_token : palong T p -> along T (expect_while_stmt c p while_token).
Proof. intros. unfold expect_while_stmt. al_tac. Qed.
#[export] Hint Resolve al_expect_while_stmt : along.
Lemma al_expect_type_declaration T c p type_token : palong T p -> along T (expect_type_declaration c p type_token).
Proof. intros. unfold expect_type_declaration. al_tac. Qed.
#[export] Hint Resolve al_expect_type_declaration : along.
Lemma al_expect_type_function T c p type_token function_token : palong T p -> along T (expect_type_function c p type_token function_token).
Proof. intros. unfold expect_type_function. al_tac. Qed.
#[export] Hint Resolve al_expect_type_function : along.
Lemma al_local_stmt T c p : palong T p -> along T (local_stmt c p).
Proof. intros. unfold local_stmt. al_tac. Qed.
#[export] Hint Resolve al_local_stmt : along.
Lemma al_contextual_stmt T c p v : palong T p -> along T (contextual_stmt c p v).
Proof. intros. unfold contextual_stmt. al_tac. Qed.
#[export] Hint Resolve al_contextual_stmt : along.
Lemma al_var_loop T c p v : palong T p -> along T (var_loop c p v).
Proof. intros. unfold var_loop. al_tac. Qed.
#[export] Hint Resolve al_var_loop : along.
Lemma al_assignment T c p v : palong T p -> along T (assignment c p v).
Proof. intros. unfold assignment. al_tac. Qed.
#[export] Hint Resolve al_assignment : along.
Lemma al_expression_stmt T c p : palong T p -> along T (expression_stmt c p).
Proof. intros. unfold expression_stmt. al_tac. Qed.
#[export] Hint Resolve al_expression_stmt : along.
Lemma al_goto_stmt T c : along T (goto_stmt c).
Proof. intros. unfold goto_stmt. al_tac. Qed.
#[export] Hint Resolve al_goto_stmt : along.
Lemma al_two_colons T c : along T (two_colons c).
Proof. intros. unfold two_colons. al_tac. Qed.
#[export] Hint Resolve al_two_colons : along.
Lemma al_label_stmt T c : along T (label_stmt c).
Proof. intros. unfold label_stmt. al_tac. Qed.
#[export] Hint Resolve al_label_stmt : along.
Lemma al_attribute_stmt T c p : palong T p -> along T (attribute_stmt c p).
Proof. intros. unfold attribute_stmt. al_tac. Qed.
#[export] Hint Resolve al_attribute_stmt : along.
Lemma al_parse_stmt T c p : palong T p -> along T (parse_stmt c p).
Proof. intros. unfold parse_stmt. al_tac. Qed.
#[export] Hint Resolve al_parse_stmt : along.
Lemma al_parse_last_stmt T p : palong T p -> along T (parse_last_stmt p).
Proof. intros. unfold parse_last_stmt. al_tac. Qed.
#[export] Hint Resolve al_parse_last_stmt : along.
Lemma al_parse_block T c p : palong T p -> along T (parse_block c p).
Proof. intros. unfold parse_block. al_tac. Qed.
#[export] Hint Resolve al_parse_block : along.

Lemma al_at T c n : palong T (parsers_at c n).
Proof.
  induction n as [|n IH]; cbn [parsers_at no_fuel parsers_step].
  - repeat split; intros; apply al_lift.
  - repeat split; cbn [p_block p_expression p_primary p_precedence p_type p_type_or_pack parsers_step]; intros; auto with along.
Qed.
Lemma al_next_block T q b t : along T q -> along T (next_block q b t).
Proof. intros. unfold next_block. al_tac. Qed.
#[export] Hint Resolve al_next_block : along.
Lemma al_fallible_loop T q b t : along T q -> along T (fallible_loop q b t).
Proof. intros. unfold fallible_loop. al_tac. Qed.
Lemma al_final_token T : along T final_token.
Proof. unfold final_token. al_tac. Qed.

Lemma al_parse_stream T c : along T (parse_stream c).
Proof.
  intros s. unfold parse_stream. generalize (S (List.length (st_toks s))). intros n. revert s. fold (@along T ast (let! r := p_block (parsers_at c n) in
    let block := match r with Value block => block | _ => block_new end in
    let block_has_last_stmt := match block_last_stmt block with Some _ => true | None => false end in
    let! block := fallible_loop (p_block (parsers_at c n)) block_has_last_stmt block in let! eof := final_token in ret (mkAst block eof))).
  pose proof (pa_block T _ (al_at T c n)) as P.
  apply al_bind; [assumption|]. intros r. cbv zeta. apply al_bind; [now apply al_fallible_loop|]. intros b. apply al_bind; [apply al_final_token|]. intros e. apply al_ret.
Qed.
