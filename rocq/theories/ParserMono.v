(** Every parser function only adds errors. *)
From Verif Require Import LexerSpec.
From Verif Require Export Parsers.
Local Open Scope nat_scope.

Definition grows (s s' : pstate) : Prop := exists es, st_errors s' = st_errors s ++ es.
Definition mono {A} (m : M A) : Prop := forall s a s', m s = Done (a, s') -> grows s s'.

Lemma grows_refl s : grows s s.
Proof. exists []. now rewrite app_nil_r. Qed.
Lemma grows_trans a b d : grows a b -> grows b d -> grows a d.
Proof. intros [x X] [z Z]. exists (x ++ z). now rewrite Z, X, app_assoc. Qed.

Lemma mono_ret {A} (a : A) : mono (ret a).
Proof. intros s b s' [= <- <-]. apply grows_refl. Qed.
Lemma mono_panic {A} : mono (@panic A).
Proof. intros s b s' E. discriminate. Qed.
Lemma mono_bind {A B} (m : M A) (k : A -> M B) : mono m -> (forall a, mono (k a)) -> mono (bind m k).
Proof.
  intros H1 H2 s b s' E. unfold bind in E. destruct (m s) as [[a s1]| |] eqn:E1; try discriminate.
  eapply grows_trans; [eapply H1; eassumption|eapply H2; eassumption].
Qed.
Lemma mono_lift {A} (o : out A) : mono (lift o).
Proof. intros s b s' E. unfold lift in E. destruct o; try discriminate. injection E as <- <-. apply grows_refl. Qed.
Lemma mono_loop {A B} (body : A -> M (A + B)) a : (forall a, mono (body a)) -> mono (loop body a).
Proof.
  intros H s b s'. unfold loop. generalize (S (List.length (st_toks s))). intros n. revert a s.
  induction n as [|n IH]; intros a s E; [discriminate|]. cbn [loop_] in E.
  destruct (body a s) as [[[a1|b1] s1]| |] eqn:E1; try discriminate.
  - eapply grows_trans; [eapply H; eassumption|eapply IH; eassumption].
  - injection E as <- <-. eapply H; eassumption.
Qed.
Lemma mono_current : mono current.
Proof. intros s a s' E. unfold current in E. destruct (st_toks s) as [|[]]; try discriminate; injection E as <- <-; apply grows_refl. Qed.
Lemma mono_peek : mono peek.
Proof. intros s a s' E. unfold peek in E. destruct (st_toks s) as [|? [|[]]]; try discriminate; injection E as <- <-; apply grows_refl. Qed.
Lemma mono_consume : mono consume.
Proof.
  intros s a s' E. unfold consume in E. destruct (st_toks s) as [|[]]; try discriminate; injection E as <- <-; try apply grows_refl;
  first [exists []; cbn; now rewrite app_nil_r | eexists; cbn; reflexivity].
Qed.
Lemma mono_error r msg : mono (token_error r msg).
Proof. intros s a s' [= <- <-]. eexists. reflexivity. Qed.
Lemma mono_error_ranged r msg a b : mono (token_error_ranged r msg a b).
Proof. intros s x s' [= <- <-]. eexists. reflexivity. Qed.
Lemma mono_errors : mono errors.
Proof. intros s a s' [= <- <-]. apply grows_refl. Qed.
Lemma mono_lexer_current : mono lexer_current.
Proof. intros s a s' [= <- <-]. apply grows_refl. Qed.
Lemma mono_basic c w : mono (basic c w).
Proof. apply mono_lift. Qed.

Create HintDb mono.
#[export] Hint Resolve mono_ret mono_panic mono_lift mono_current mono_peek mono_consume mono_error mono_error_ranged mono_basic mono_errors mono_lexer_current : mono.
Ltac mono_tac :=
  repeat (intros; cbv beta iota zeta;
    lazymatch goal with
    | |- mono (bind _ _) => apply mono_bind
    | |- mono (loop _ _) => apply mono_loop
    | |- mono (match ?x with _ => _ end) => destruct x
    | |- mono (require_with_reference_range_callback ?y ?m ?ab) => unfold require_with_reference_range_callback
    | |- mono _ => solve [eauto with mono | auto with mono]
    | |- forall _, _ => intro
    end).
Lemma mono_take : mono take.
Proof. unfold take, unwrap. mono_tac. Qed.
#[export] Hint Resolve mono_take : mono.
Lemma mono_unwrap {A} (r : pres A) : mono (unwrap r).
Proof. unfold unwrap. mono_tac. Qed.
Lemma mono_push_punctuated {A} (l : punctuated A) v q : mono (push_punctuated l v q).
Proof. unfold push_punctuated. mono_tac. Qed.
Lemma mono_consume_if y : mono (consume_if y).
Proof. unfold consume_if. mono_tac. Qed.
Lemma mono_consume_if_symbols y : mono (consume_if_symbols y).
Proof. unfold consume_if_symbols. mono_tac. Qed.
Lemma mono_require y m : mono (require y m).
Proof. unfold require. mono_tac. Qed.
Lemma mono_require_token y m a : mono (require_with_reference_token y m a).
Proof. unfold require_with_reference_token. mono_tac. Qed.
Lemma mono_require_range y m a b : mono (require_with_reference_range y m a b).
Proof. unfold require_with_reference_range. mono_tac. Qed.
Lemma mono_require_callback y m ab : mono ab -> mono (require_with_reference_range_callback y m ab).
Proof. unfold require_with_reference_range_callback. mono_tac. Qed.
Lemma mono_first_token t : mono (first_token t).
Proof. unfold first_token. mono_tac. Qed.
Lemma mono_last_token t : mono (last_token t).
Proof. unfold last_token. mono_tac. Qed.
Lemma mono_ends_of t : mono (ends_of t).
Proof. unfold ends_of. mono_tac. Qed.
#[export] Hint Resolve mono_unwrap mono_push_punctuated mono_consume_if mono_consume_if_symbols mono_require mono_require_token mono_require_range
  mono_require_callback mono_first_token mono_last_token mono_ends_of : mono.

(** The recursive functions. *)
Definition pmono (p : parsers) : Prop :=
  mono (p_block p) /\ mono (p_expression p) /\ mono (p_primary p) /\ (forall e n, mono (p_precedence p e n)) /\ mono (p_type p) /\ mono (p_type_or_pack p).
Lemma pm_block p : pmono p -> mono (p_block p). Proof. now intros (? & ? & ? & ? & ? & ?). Qed.
Lemma pm_expression p : pmono p -> mono (p_expression p). Proof. now intros (? & ? & ? & ? & ? & ?). Qed.
Lemma pm_primary p : pmono p -> mono (p_primary p). Proof. now intros (? & ? & ? & ? & ? & ?). Qed.
Lemma pm_precedence p e n : pmono p -> mono (p_precedence p e n). Proof. now intros (? & ? & ? & ? & ? & ?). Qed.
Lemma pm_type p : pmono p -> mono (p_type p). Proof. now intros (? & ? & ? & ? & ? & ?). Qed.
Lemma pm_type_or_pack p : pmono p -> mono (p_type_or_pack p). Proof. now intros (? & ? & ? & ? & ? & ?). Qed.
#[export] Hint Resolve pm_block pm_expression pm_primary pm_precedence pm_type pm_type_or_pack : mono.

(** Function by function. *)
Lemma mono_function_args_empty c : mono (function_args_empty c).
Proof. intros. unfold function_args_empty. mono_tac. Qed.
#[export] Hint Resolve mono_function_args_empty : mono.
Lemma mono_function_body_new c : mono (function_body_new c).
Proof. intros. unfold function_body_new. mono_tac. Qed.
#[export] Hint Resolve mono_function_body_new : mono.
Lemma mono_if_new c condition else_if : mono (if_new c condition else_if).
Proof. intros. unfold if_new. mono_tac. Qed.
#[export] Hint Resolve mono_if_new : mono.
Lemma mono_while_new c condition : mono (while_new c condition).
Proof. intros. unfold while_new. mono_tac. Qed.
#[export] Hint Resolve mono_while_new : mono.
Lemma mono_do_with_block c block : mono (do_with_block c block).
Proof. intros. unfold do_with_block. mono_tac. Qed.
#[export] Hint Resolve mono_do_with_block : mono.
Lemma mono_parse_name : mono (parse_name).
Proof. intros. unfold parse_name. mono_tac. Qed.
#[export] Hint Resolve mono_parse_name : mono.
Lemma mono_expect_type_specifier p punctuation : pmono p -> mono (expect_type_specifier p punctuation).
Proof. intros. unfold expect_type_specifier. mono_tac. Qed.
#[export] Hint Resolve mono_expect_type_specifier : mono.
Lemma mono_force_name_with_type_specifiers c p r : pmono p -> mono (force_name_with_type_specifiers c p r).
Proof. intros. unfold force_name_with_type_specifiers. mono_tac. Qed.
#[export] Hint Resolve mono_force_name_with_type_specifiers : mono.
Lemma mono_force_name_with_attributes c p r : pmono p -> mono (force_name_with_attributes c p r).
Proof. intros. unfold force_name_with_attributes. mono_tac. Qed.
#[export] Hint Resolve mono_force_name_with_attributes : mono.
Lemma mono_parse_name_with_attributes c p : pmono p -> mono (parse_name_with_attributes c p).
Proof. intros. unfold parse_name_with_attributes. mono_tac. Qed.
#[export] Hint Resolve mono_parse_name_with_attributes : mono.
Lemma mono_parse_name_with_type_specifiers c p : pmono p -> mono (parse_name_with_type_specifiers c p).
Proof. intros. unfold parse_name_with_type_specifiers. mono_tac. Qed.
#[export] Hint Resolve mono_parse_name_with_type_specifiers : mono.
Lemma mono_one_or_more {A} (q : M (pres A)) d : mono q -> mono (one_or_more q d).
Proof. intros. unfold one_or_more. mono_tac. Qed.
#[export] Hint Resolve mono_one_or_more : mono.
Lemma mono_parse_name_list c p : pmono p -> mono (parse_name_list c p).
Proof. intros. unfold parse_name_list. mono_tac. Qed.
#[export] Hint Resolve mono_parse_name_list : mono.
Lemma mono_parse_expression_list p : pmono p -> mono (parse_expression_list p).
Proof. intros. unfold parse_expression_list. mono_tac. Qed.
#[export] Hint Resolve mono_parse_expression_list : mono.
Lemma mono_parse_type_pack p : pmono p -> mono (parse_type_pack p).
Proof. intros. unfold parse_type_pack. mono_tac. Qed.
#[export] Hint Resolve mono_parse_type_pack : mono.
Lemma mono_parse_return_type p : pmono p -> mono (parse_return_type p).
Proof. intros. unfold parse_return_type. mono_tac. Qed.
#[export] Hint Resolve mono_parse_return_type : mono.
Lemma mono_expect_generic_type_params p left_arrow : pmono p -> mono (expect_generic_type_params p left_arrow).
Proof. intros. unfold expect_generic_type_params. mono_tac. Qed.
#[export] Hint Resolve mono_expect_generic_type_params : mono.
Lemma mono_missing_default seen_default : mono (missing_default seen_default).
Proof. intros. unfold missing_default. mono_tac. Qed.
#[export] Hint Resolve mono_missing_default : mono.
Lemma mono_parse_generic_type_list c p style : pmono p -> mono (parse_generic_type_list c p style).
Proof. intros. unfold parse_generic_type_list. mono_tac. Qed.
#[export] Hint Resolve mono_parse_generic_type_list : mono.
Lemma mono_expect_function_type c p style : pmono p -> mono (expect_function_type c p style).
Proof. intros. unfold expect_function_type. mono_tac. Qed.
#[export] Hint Resolve mono_expect_function_type : mono.
Lemma mono_error_at_current msg : mono (error_at_current msg).
Proof. intros. unfold error_at_current. mono_tac. Qed.
#[export] Hint Resolve mono_error_at_current : mono.
Lemma mono_push_field {B} l f (g : _ -> B) : mono (push_field l f g).
Proof. unfold push_field. mono_tac. Qed.
#[export] Hint Resolve mono_push_field : mono.
Lemma mono_expect_type_table c p left_brace : pmono p -> mono (expect_type_table c p left_brace).
Proof. intros. unfold expect_type_table. mono_tac. Qed.
#[export] Hint Resolve mono_expect_type_table : mono.
Lemma mono_parse_simple_type c p style : pmono p -> mono (parse_simple_type c p style).
Proof. intros. unfold parse_simple_type. mono_tac. Qed.
#[export] Hint Resolve mono_parse_simple_type : mono.
Lemma mono_parse_type_suffix c p simple_type : pmono p -> mono (parse_type_suffix c p simple_type).
Proof. intros. unfold parse_type_suffix. mono_tac. Qed.
#[export] Hint Resolve mono_parse_type_suffix : mono.
Lemma mono_parse_type c p : pmono p -> mono (parse_type c p).
Proof. intros. unfold parse_type. mono_tac. Qed.
#[export] Hint Resolve mono_parse_type : mono.
Lemma mono_parse_type_or_pack c p : pmono p -> mono (parse_type_or_pack c p).
Proof. intros. unfold parse_type_or_pack. mono_tac. Qed.
#[export] Hint Resolve mono_parse_type_or_pack : mono.
Lemma mono_expect_type_instantiation p outer_0 : pmono p -> mono (expect_type_instantiation p outer_0).
Proof. intros. unfold expect_type_instantiation. mono_tac. Qed.
#[export] Hint Resolve mono_expect_type_instantiation : mono.
Lemma mono_parse_attributes : mono (parse_attributes).
Proof. intros. unfold parse_attributes. mono_tac. Qed.
#[export] Hint Resolve mono_parse_attributes : mono.
Lemma mono_expect_block_with_end c p name start_for_errors : pmono p -> mono (expect_block_with_end c p name start_for_errors).
Proof. intros. unfold expect_block_with_end. mono_tac. Qed.
#[export] Hint Resolve mono_expect_block_with_end : mono.
Lemma mono_unfinished_function_body c left_parenthesis parameters : mono (unfinished_function_body c left_parenthesis parameters).
Proof. intros. unfold unfinished_function_body. mono_tac. Qed.
#[export] Hint Resolve mono_unfinished_function_body : mono.
Lemma mono_ellipsis_specifier p : pmono p -> mono (ellipsis_specifier p).
Proof. intros. unfold ellipsis_specifier. mono_tac. Qed.
#[export] Hint Resolve mono_ellipsis_specifier : mono.
Lemma mono_parameter_loop c p : pmono p -> mono (parameter_loop c p).
Proof. intros. unfold parameter_loop. mono_tac. Qed.
#[export] Hint Resolve mono_parameter_loop : mono.
Lemma mono_body_return_type c p : pmono p -> mono (body_return_type c p).
Proof. intros. unfold body_return_type. mono_tac. Qed.
#[export] Hint Resolve mono_body_return_type : mono.
Lemma mono_parse_function_body c p : pmono p -> mono (parse_function_body c p).
Proof. intros. unfold parse_function_body. mono_tac. Qed.
#[export] Hint Resolve mono_parse_function_body : mono.
Lemma mono_expect_expression_key p left_bracket : pmono p -> mono (expect_expression_key p left_bracket).
Proof. intros. unfold expect_expression_key. mono_tac. Qed.
#[export] Hint Resolve mono_expect_expression_key : mono.
Lemma mono_table_field c p left_brace fields t : pmono p -> mono (table_field c p left_brace fields t).
Proof. intros. unfold table_field. mono_tac. Qed.
#[export] Hint Resolve mono_table_field : mono.
Lemma mono_force_table_constructor c p left_brace : pmono p -> mono (force_table_constructor c p left_brace).
Proof. intros. unfold force_table_constructor. mono_tac. Qed.
#[export] Hint Resolve mono_force_table_constructor : mono.
Lemma mono_parse_prefix c p : pmono p -> mono (parse_prefix c p).
Proof. intros. unfold parse_prefix. mono_tac. Qed.
#[export] Hint Resolve mono_parse_prefix : mono.
Lemma mono_parse_arguments c p : pmono p -> mono (parse_arguments c p).
Proof. intros. unfold parse_arguments. mono_tac. Qed.
#[export] Hint Resolve mono_parse_arguments : mono.
Lemma mono_dot_suffix msg : mono (dot_suffix msg).
Proof. intros. unfold dot_suffix. mono_tac. Qed.
#[export] Hint Resolve mono_dot_suffix : mono.
Lemma mono_parse_suffix c p : pmono p -> mono (parse_suffix c p).
Proof. intros. unfold parse_suffix. mono_tac. Qed.
#[export] Hint Resolve mono_parse_suffix : mono.
Lemma mono_parse_prefix_and_suffixes c p : pmono p -> mono (parse_prefix_and_suffixes c p).
Proof. intros. unfold parse_prefix_and_suffixes. mono_tac. Qed.
#[export] Hint Resolve mono_parse_prefix_and_suffixes : mono.
Lemma mono_expect_if_else_expression p if_token : pmono p -> mono (expect_if_else_expression p if_token).
Proof. intros. unfold expect_if_else_expression. mono_tac. Qed.
#[export] Hint Resolve mono_expect_if_else_expression : mono.
Lemma mono_expect_interpolated_string p first : pmono p -> mono (expect_interpolated_string p first).
Proof. intros. unfold expect_interpolated_string. mono_tac. Qed.
#[export] Hint Resolve mono_expect_interpolated_string : mono.
Lemma mono_unop c r : mono (unop c r).
Proof. intros. unfold unop. mono_tac. Qed.
#[export] Hint Resolve mono_unop : mono.
Lemma mono_parse_unary_expression c p unary_operator_token : pmono p -> mono (parse_unary_expression c p unary_operator_token).
Proof. intros. unfold parse_unary_expression. mono_tac. Qed.
#[export] Hint Resolve mono_parse_unary_expression : mono.
Lemma mono_anonymous_function c p attributes : pmono p -> mono (anonymous_function c p attributes).
Proof. intros. unfold anonymous_function. mono_tac. Qed.
#[export] Hint Resolve mono_anonymous_function : mono.
Lemma mono_primary_arm c p : pmono p -> mono (primary_arm c p).
Proof. intros. unfold primary_arm. mono_tac. Qed.
#[export] Hint Resolve mono_primary_arm : mono.
Lemma mono_parse_primary_expression c p : pmono p -> mono (parse_primary_expression c p).
Proof. intros. unfold parse_primary_expression. mono_tac. Qed.
#[export] Hint Resolve mono_parse_primary_expression : mono.
Lemma mono_consume_binop c : mono (consume_binop c).
Proof. intros. unfold consume_binop. mono_tac. Qed.
#[export] Hint Resolve mono_consume_binop : mono.
Lemma mono_climb_right c p bin_op_token bin_op_precedence rhs : pmono p -> mono (climb_right c p bin_op_token bin_op_precedence rhs).
Proof. intros. unfold climb_right. mono_tac. Qed.
#[export] Hint Resolve mono_climb_right : mono.
Lemma mono_parse_expression_with_precedence c p lhs precedence : pmono p -> mono (parse_expression_with_precedence c p lhs precedence).
Proof. intros. unfold parse_expression_with_precedence. mono_tac. Qed.
#[export] Hint Resolve mono_parse_expression_with_precedence : mono.
Lemma mono_parse_expression c p : pmono p -> mono (parse_expression c p).
Proof. intros. unfold parse_expression. mono_tac. Qed.
#[export] Hint Resolve mono_parse_expression : mono.
Lemma mono_compound_op c r : mono (compound_op c r).
Proof. intros. unfold compound_op. mono_tac. Qed.
#[export] Hint Resolve mono_compound_op : mono.
Lemma mono_parse_compound_assignment c p v : pmono p -> mono (parse_compound_assignment c p v).
Proof. intros. unfold parse_compound_assignment. mono_tac. Qed.
#[export] Hint Resolve mono_parse_compound_assignment : mono.
Lemma mono_expect_function_name : mono (expect_function_name).
Proof. intros. unfold expect_function_name. mono_tac. Qed.
#[export] Hint Resolve mono_expect_function_name : mono.
Lemma mono_expect_function_declaration c p attributes function_token : pmono p -> mono (expect_function_declaration c p attributes function_token).
Proof. intros. unfold expect_function_declaration. mono_tac. Qed.
#[export] Hint Resolve mono_expect_function_declaration : mono.
Lemma mono_expect_local_function_declaration c p attributes local_token function_token : pmono p -> mono (expect_local_function_declaration c p attributes local_token function_token).
Proof. intros. unfold expect_local_function_declaration. mono_tac. Qed.
#[export] Hint Resolve mono_expect_local_function_declaration : mono.
Lemma mono_expect_numeric_for_stmt c p for_token index_variable : pmono p -> mono (expect_numeric_for_stmt c p for_token index_variable).
Proof. intros. unfold expect_numeric_for_stmt. mono_tac. Qed.
#[export] Hint Resolve mono_expect_numeric_for_stmt : mono.
Lemma mono_expect_for_stmt c p for_token : pmono p -> mono (expect_for_stmt c p for_token).
Proof. intros. unfold expect_for_stmt. mono_tac. Qed.
#[export] Hint Resolve mono_expect_for_stmt : mono.
Lemma mono_expect_if_stmt c p if_token : pmono p -> mono (expect_if_stmt c p if_token).
Proof. intros. unfold expect_if_stmt. mono_tac. Qed.
#[export] Hint Resolve mono_expect_if_stmt : mono.
Lemma mono_expect_local_assignment c p local_token : pmono p -> mono (expect_local_assignment c p local_token).
Proof. intros. unfold expect_local_assignment. mono_tac. Qed.
#[export] Hint Resolve mono_expect_local_assignment : mono.
Lemma mono_expect_repeat_stmt c p repeat_token : pmono p -> mono (expect_repeat_stmt c p repeat_token).
Proof. intros. unfold expect_repeat_stmt. mono_tac. Qed.
#[export] Hint Resolve mono_expect_repeat_stmt : mono.
Lemma mono_expect_while_stmt c p while_token : pmono p -> mono (expect_while_stmt c p while_token).
Proof. intros. unfold expect_while_stmt. mono_tac. Qed.
#[export] Hint Resolve mono_expect_while_stmt : mono.
Lemma mono_expect_type_declaration c p type_token : pmono p -> mono (expect_type_declaration c p type_token).
Proof. intros. unfold expect_type_declaration. mono_tac. Qed.
#[export] Hint Resolve mono_expect_type_declaration : mono.
Lemma mono_expect_type_function c p type_token function_token : pmono p -> mono (expect_type_function c p type_token function_token).
Proof. intros. unfold expect_type_function. mono_tac. Qed.
#[export] Hint Resolve mono_expect_type_function : mono.
Lemma mono_local_stmt c p : pmono p -> mono (local_stmt c p).
Proof. intros. unfold local_stmt. mono_tac. Qed.
#[export] Hint Resolve mono_local_stmt : mono.
Lemma mono_contextual_stmt c p v : pmono p -> mono (contextual_stmt c p v).
Proof. intros. unfold contextual_stmt. mono_tac. Qed.
#[export] Hint Resolve mono_contextual_stmt : mono.
Lemma mono_var_loop c p v : pmono p -> mono (var_loop c p v).
Proof. intros. unfold var_loop. mono_tac. Qed.
#[export] Hint Resolve mono_var_loop : mono.
Lemma mono_assignment c p v : pmono p -> mono (assignment c p v).
Proof. intros. unfold assignment. mono_tac. Qed.
#[export] Hint Resolve mono_assignment : mono.
Lemma mono_expression_stmt c p : pmono p -> mono (expression_stmt c p).
Proof. intros. unfold expression_stmt. mono_tac. Qed.
#[export] Hint Resolve mono_expression_stmt : mono.
Lemma mono_goto_stmt c : mono (goto_stmt c).
Proof. intros. unfold goto_stmt. mono_tac. Qed.
#[export] Hint Resolve mono_goto_stmt : mono.
Lemma mono_two_colons c : mono (two_colons c).
Proof. intros. unfold two_colons. mono_tac. Qed.
#[export] Hint Resolve mono_two_colons : mono.
Lemma mono_label_stmt c : mono (label_stmt c).
Proof. intros. unfold label_stmt. mono_tac. Qed.
#[export] Hint Resolve mono_label_stmt : mono.
Lemma mono_attribute_stmt c p : pmono p -> mono (attribute_stmt c p).
Proof. intros. unfold attribute_stmt. mono_tac. Qed.
#[export] Hint Resolve mono_attribute_stmt : mono.
Lemma mono_parse_stmt c p : pmono p -> mono (parse_stmt c p).
Proof. intros. unfold parse_stmt. mono_tac. Qed.
#[export] Hint Resolve mono_parse_stmt : mono.
Lemma mono_parse_last_stmt p : pmono p -> mono (parse_last_stmt p).
Proof. intros. unfold parse_last_stmt. mono_tac. Qed.
#[export] Hint Resolve mono_parse_last_stmt : mono.
Lemma mono_parse_block c p : pmono p -> mono (parse_block c p).
Proof. intros. unfold parse_block. mono_tac. Qed.
#[export] Hint Resolve mono_parse_block : mono.

Lemma mono_at c n : pmono (parsers_at c n).
Proof.
  induction n as [|n IH]; cbn [parsers_at no_fuel parsers_step].
  - repeat split; intros; apply mono_lift.
  - repeat split; cbn [p_block p_expression p_primary p_precedence p_type p_type_or_pack parsers_step]; intros; auto with mono.
Qed.
Lemma mono_next_block q b t : mono q -> mono (next_block q b t).
Proof. intros. unfold next_block. mono_tac. Qed.
#[export] Hint Resolve mono_next_block : mono.
Lemma mono_fallible_loop q b t : mono q -> mono (fallible_loop q b t).
Proof. intros. unfold fallible_loop. mono_tac. Qed.
Lemma mono_final_token : mono final_token.
Proof. unfold final_token. mono_tac. Qed.
