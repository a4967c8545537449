(** The parser looks only at the sorts of tokens (C51): function by function. *)
From Verif Require Import LexerSpec PunctuatedProofs.
From Verif Require Import TreeFacts LexerStep.
From Verif Require Export Layout2.
From Coq Require Import Lia.
Local Open Scope nat_scope.
Import ListNotations.

Create HintDb twins.
#[export] Hint Resolve twins_panic twins_current twins_peek twins_consume twins_error twins_error_ranged twins_errors twins_lexer_current twins_basic : twins.
#[export] Hint Extern 5 (twin _ _ _) => val : twins.
Ltac vals :=
  intros; cbv beta iota zeta;
  first [val
        |match goal with H : twin _ ?x _ |- context [match ?x with _ => _ end] => destruct H; vals end
        |match goal with |- twin ?c (if ?x then _ else _) (if ?y then _ else _) =>
           let E := fresh "E" in assert (E : twin c x y) by vals; change (x = y) in E; rewrite <- E; clear E; destruct x; vals end
        |match goal with H : twin _ ?x _ |- context [match p_pop ?x with _ => _ end] => destruct (tv_p_pop _ _ _ H); vals end
        |match goal with H : twin _ ?x _ |- context [match fst ?x with _ => _ end] => destruct H; cbn [fst snd]; vals end
        |match goal with |- context [match ?x with _ => _ end] => is_var x; destruct x; vals end].
Ltac case_of x y :=
  lazymatch x with
  | context [has_luau ?c] => let L := fresh "L" in destruct (has_luau c) eqn:L; try congruence
  | _ =>
  tryif constr_eq x y then destruct x
  else
    let T := fresh "T" in
    lazymatch goal with |- twins ?c _ _ => assert (T : twin c x y) by vals end;
    lazymatch type of x with
    | bool => let E := fresh "E" in assert (E : x = y) by exact T; clear T; rewrite <- E; clear E; destruct x
    | _ => destruct T
    end
  end.
Lemma twins_bind_ret c {A B} `{Twin B} (a a' : A) (k k' : A -> M B) : twins c (k a) (k' a') -> twins c (bind (ret a) k) (bind (ret a') k').
Proof. intros X. exact X. Qed.
Ltac tws :=
  repeat (intros; cbv beta iota zeta;
    lazymatch goal with
    | |- twins _ (bind (ret _) _) (bind (ret _) _) => eapply twins_bind_ret
    | |- twins _ (bind _ _) (bind _ _) => eapply twins_bind
    | |- twins _ (loop _ _) (loop _ _) => eapply twins_loop
    | |- twins _ (ret _) (ret _) => apply twins_ret
    | |- twins _ (match ?x with _ => _ end) (match ?y with _ => _ end) => case_of x y
    | |- twins _ (require_with_reference_range_callback _ _ _) _ => unfold require_with_reference_range_callback
    | |- twins _ _ _ => solve [eauto with twins nocore]
    | |- forall _, _ => intro
    | |- twin _ _ _ => solve [vals]
    end).

(** ** Small functions *)
Lemma tw_unwrap c {A} `{Twin A} (r r' : pres A) : twin c r r' -> twins c (unwrap r) (unwrap r').
Proof. unfold unwrap. tws. Qed.
#[export] Hint Resolve tw_unwrap : twins.
Lemma tw_take c : twins c take take.
Proof. unfold take. tws. Qed.
#[export] Hint Resolve tw_take : twins.
Lemma tw_push_punctuated c {A} `{Twin A} (l l' : punctuated A) v v' q q' : twin c l l' -> twin c v v' -> twin c q q' -> twins c (push_punctuated l v q) (push_punctuated l' v' q').
Proof.
  intros L V Q. unfold push_punctuated, p_push_punctuated, vec_pop. destruct (tv_rev _ _ _ (tv_pairs _ _ _ L)) as [|x x' m m' X M]; [tws|].
  apply tv_rev in M. destruct X; cbn; tws.
Qed.
#[export] Hint Resolve tw_push_punctuated : twins.
Lemma tw_consume_if c y : twins c (consume_if y) (consume_if y).
Proof. unfold consume_if. tws. Qed.
Lemma tw_consume_if_symbols c y : twins c (consume_if_symbols y) (consume_if_symbols y).
Proof.
  unfold consume_if_symbols. eapply twins_bind; [apply twins_current|]. intros o o' O. destruct O as [|t t' T]; [tws|].
  assert (E : existsb (is_symbol t) y = existsb (is_symbol t') y). { induction y as [|a y IH]; [reflexivity|]. cbn. now rewrite IH, (tw_is_symbol c t t' a T). }
  rewrite <- E. destruct (existsb (is_symbol t) y); tws.
Qed.
Lemma tw_require c y m : twins c (require y m) (require y m).
Proof. unfold require. tws. Qed.
Lemma tw_require_token c y m a a' : twin c a a' -> twins c (require_with_reference_token y m a) (require_with_reference_token y m a').
Proof. unfold require_with_reference_token. tws. Qed.
Lemma tw_require_range c y m a a' b b' : twin c a a' -> twin c b b' -> twins c (require_with_reference_range y m a b) (require_with_reference_range y m a' b').
Proof. unfold require_with_reference_range. tws. Qed.
Lemma tw_require_callback c y m ab ab' : twins c ab ab' -> twins c (require_with_reference_range_callback y m ab) (require_with_reference_range_callback y m ab').
Proof. unfold require_with_reference_range_callback. tws. Qed.
Lemma tw_first_token c t t' : twin c t t' -> twins c (first_token t) (first_token t').
Proof. intros T. unfold first_token. eapply twins_bind; [apply twins_lift, tv_next; now apply tv_items|]. tws. Qed.
Lemma tw_last_token c t t' : twin c t t' -> twins c (last_token t) (last_token t').
Proof. intros T. unfold last_token. eapply twins_bind; [apply twins_lift, tv_next_back; now apply tv_items|]. tws. Qed.
Lemma tw_ends_of c t t' : twin c t t' -> twins c (ends_of t) (ends_of t').
Proof.
  intros T. unfold ends_of. eapply twins_bind; [apply twins_lift, tv_next; now apply tv_items|]. intros a a' A.
  destruct (tv_fst _ _ _ A); [tws|]. eapply twins_bind; [apply twins_lift, tv_next_back; now apply tv_snd|]. tws.
Qed.
#[export] Hint Resolve tw_consume_if tw_consume_if_symbols tw_require tw_require_token tw_require_range tw_first_token tw_last_token tw_ends_of : twins.

Lemma tv_has_named c l l' : twin c l l' ->
  twin c (existsb (fun a => match ta_name a with Some _ => true | None => false end) l) (existsb (fun a => match ta_name a with Some _ => true | None => false end) l').
Proof. apply tv_existsb. intros a a' T. now destruct (tv_ta_name _ _ _ T). Qed.
#[export] Hint Resolve tv_has_named : twv.

Lemma tv_word (c : tie) r r' w : has_luau c = true -> In w contextual -> twin c r r' ->
  twin c (match t_type (r_token r) with TIdentifier x => text_eqb x w | _ => false end) (match t_type (r_token r') with TIdentifier x => text_eqb x w | _ => false end).
Proof. intros L I T. exact (contextual_same c r r' w L I T). Qed.
Lemma tv_access (c : tie) r r' : has_luau c = true -> twin c r r' -> twin c (is_access r) (is_access r').
Proof.
  intros L T. assert (X : forall r, is_access r = (match t_type (r_token r) with TIdentifier x => text_eqb x (str "read") | _ => false end)
      || (match t_type (r_token r) with TIdentifier x => text_eqb x (str "write") | _ => false end)).
  { intros q. unfold is_access. now destruct (t_type (r_token q)). }
  rewrite !X. apply tv_or; apply tv_word; auto; cbn; auto.
Qed.
#[export] Hint Resolve tv_access : twv.

Lemma tv_else_if_optional c l l' : twin c l l' -> twin c (else_if_optional l) (else_if_optional l').
Proof. intros T. unfold else_if_optional. destruct T; [apply tv_none|]. apply tv_some, tv_vec. now constructor. Qed.
#[export] Hint Resolve tv_else_if_optional : twv.

Lemma tv_type_word (c : tie) r r' : has_luau c = true -> twin c r r' ->
  twin c (match t_type (r_token r) with TIdentifier x => text_eqb x (str "type") | _ => false end) (match t_type (r_token r') with TIdentifier x => text_eqb x (str "type") | _ => false end).
Proof. intros. apply tv_word; auto. cbn. tauto. Qed.
#[export] Hint Resolve tv_type_word : twv.

(** ** The current token is known *)
Definition twins_on c (t t' : tokref) {A} `{Twin A} (m m' : M A) : Prop :=
  forall s s', state_twin c s s' -> current s = Done (Some t, s) -> current s' = Done (Some t', s') ->
  out_twin (fun x x' => twin c (fst x) (fst x') /\ state_twin c (snd x) (snd x')) (m s) (m' s').
Lemma on_drop c t t' {A} `{Twin A} (m m' : M A) : twins c m m' -> twins_on c t t' m m'.
Proof. intros X s s' S _ _. now apply X. Qed.
Lemma on_current c {A} `{Twin A} (k k' : option tokref -> M A) : twins c (k None) (k' None) ->
  (forall t t', twin c t t' -> twins_on c t t' (k (Some t)) (k' (Some t'))) -> twins c (bind current k) (bind current k').
Proof.
  intros N X s s' S. pose proof (twins_current c s s' S) as Y. unfold bind. destruct (current s) as [[o u]| |] eqn:E, (current s') as [[o' u']| |] eqn:E'; try contradiction; try exact I.
  destruct Y as [O Y]. cbn in O, Y. assert (u = s). { unfold current in E. destruct (st_toks s) as [|[]]; congruence. } assert (u' = s'). { unfold current in E'. destruct (st_toks s') as [|[]]; congruence. }
  subst u u'. destruct O as [|t t' T]; [now apply N|]. now apply X.
Qed.
Lemma on_take c t t' {A} `{Twin A} (k k' : tokref -> M A) : twins c (k t) (k' t') -> twins_on c t t' (bind take k) (bind take k').
Proof.
  intros X s s' S E E'. pose proof (tw_take c s s' S) as Y. unfold bind at 1. unfold bind at 1.
  assert (F : forall s t, current s = Done (Some t, s) -> exists u, take s = Done (t, u)).
  { clear. intros [l es] t E. unfold current in E. cbn in E. destruct l as [|[]]; try discriminate; injection E as ->; eexists; reflexivity. }
  destruct (F s t E) as (u & Eu), (F s' t' E') as (u' & Eu'). rewrite Eu, Eu' in Y |- *. apply X. apply Y.
Qed.
Lemma on_consume c t t' {A} `{Twin A} (k k' : pres tokref -> M A) : twins c (k (Value t)) (k' (Value t')) -> twins_on c t t' (bind consume k) (bind consume k').
Proof.
  intros X s s' S E E'. pose proof (twins_consume c s s' S) as Y. unfold bind at 1. unfold bind at 1.
  assert (F : forall s t, current s = Done (Some t, s) -> exists u, consume s = Done (Value t, u)).
  { clear. intros [l es] t E. unfold current in E. cbn in E. destruct l as [|[]]; try discriminate; injection E as ->; eexists; reflexivity. }
  destruct (F s t E) as (u & Eu), (F s' t' E') as (u' & Eu'). rewrite Eu, Eu' in Y |- *. apply X. apply Y.
Qed.

Ltac on_if :=
  lazymatch goal with
  | |- twins_on ?c _ _ (if ?x then _ else _) (if ?y then _ else _) =>
      let E := fresh "E" in let B := fresh "B" in
      assert (E : x = y) by (change (twin c x y); vals); rewrite <- E; clear E; destruct x eqn:B
  end.
Ltac on_drop_tac := solve [apply on_drop; tws].

(** The recursive functions; types are parsed in Luau only. *)
Definition ptwins c (p p' : parsers) : Prop :=
  twins c (p_block p) (p_block p') /\ twins c (p_expression p) (p_expression p') /\ twins c (p_primary p) (p_primary p') /\
  (forall e e' n n', twin c e e' -> twin c n n' -> twins c (p_precedence p e n) (p_precedence p' e' n')) /\
  (has_luau c = true -> twins c (p_type p) (p_type p')) /\ (has_luau c = true -> twins c (p_type_or_pack p) (p_type_or_pack p')).
Lemma pt_block c p p' : ptwins c p p' -> twins c (p_block p) (p_block p'). Proof. now intros (? & ? & ? & ? & ? & ?). Qed.
Lemma pt_expression c p p' : ptwins c p p' -> twins c (p_expression p) (p_expression p'). Proof. now intros (? & ? & ? & ? & ? & ?). Qed.
Lemma pt_primary c p p' : ptwins c p p' -> twins c (p_primary p) (p_primary p'). Proof. now intros (? & ? & ? & ? & ? & ?). Qed.
Lemma pt_precedence c p p' e e' n n' : ptwins c p p' -> twin c e e' -> twin c n n' -> twins c (p_precedence p e n) (p_precedence p' e' n'). Proof. intros (? & ? & ? & ? & ? & ?). auto. Qed.
Lemma pt_type c p p' : ptwins c p p' -> has_luau c = true -> twins c (p_type p) (p_type p'). Proof. now intros (? & ? & ? & ? & ? & ?). Qed.
Lemma pt_type_or_pack c p p' : ptwins c p p' -> has_luau c = true -> twins c (p_type_or_pack p) (p_type_or_pack p'). Proof. now intros (? & ? & ? & ? & ? & ?). Qed.
#[export] Hint Resolve pt_block pt_expression pt_primary pt_precedence pt_type pt_type_or_pack : twins.

Lemma show_word (c : tie) r r' w : has_luau c = true -> In w contextual -> twin c r r' -> is_identifier r = true ->
  text_eqb (show_token (r_token r)) w = text_eqb (show_token (r_token r')) w.
Proof.
  intros L I T H. pose proof (contextual_same c r r' w L I T) as X. apply tied_same in T as [T _]. unfold is_identifier in H. unfold show_token.
  destruct (t_type (r_token r)), (t_type (r_token r')); cbn in T; try discriminate. exact X.
Qed.
Lemma show_symbol c r r' y : twin c r r' -> is_symbol r y = true -> show_token (r_token r) = show_token (r_token r').
Proof.
  intros T H. apply tied_same in T as [T _]. unfold is_symbol in H. unfold show_token. destruct (t_type (r_token r)), (t_type (r_token r')); cbn in T; try discriminate. now injection T as ->.
Qed.

(** ** Function by function *)
Lemma tw_function_args_empty c : twins c (function_args_empty c) (function_args_empty c).
Proof. intros. unfold function_args_empty. tws. Qed.
#[export] Hint Resolve tw_function_args_empty : twins.
Lemma tw_function_body_new c : twins c (function_body_new c) (function_body_new c).
Proof. intros. unfold function_body_new. tws. Qed.
#[export] Hint Resolve tw_function_body_new : twins.
Lemma tw_if_new c (condition condition' : tree) (else_if else_if' : option tree) : twin c condition condition' -> twin c else_if else_if' -> twins c (if_new c condition else_if) (if_new c condition' else_if').
Proof. intros. unfold if_new. tws. Qed.
#[export] Hint Resolve tw_if_new : twins.
Lemma tw_while_new c (condition condition' : tree) : twin c condition condition' -> twins c (while_new c condition) (while_new c condition').
Proof. intros. unfold while_new. tws. Qed.
#[export] Hint Resolve tw_while_new : twins.
Lemma tw_do_with_block c (block block' : tree) : twin c block block' -> twins c (do_with_block c block) (do_with_block c block').
Proof. intros. unfold do_with_block. tws. Qed.
#[export] Hint Resolve tw_do_with_block : twins.
Lemma tw_parse_name c : twins c (parse_name) (parse_name).
Proof. intros. unfold parse_name. tws. Qed.
#[export] Hint Resolve tw_parse_name : twins.
Lemma tw_expect_type_specifier c p p' (punctuation punctuation' : tokref) : ptwins c p p' -> twin c punctuation punctuation' -> has_luau c = true -> twins c (expect_type_specifier p punctuation) (expect_type_specifier p' punctuation').
Proof. intros. unfold expect_type_specifier. tws. Qed.
#[export] Hint Resolve tw_expect_type_specifier : twins.
Lemma tw_force_name_with_type_specifiers c p p' (r r' : tokref) : ptwins c p p' -> twin c r r' -> twins c (force_name_with_type_specifiers c p r) (force_name_with_type_specifiers c p' r').
Proof. intros. unfold force_name_with_type_specifiers. tws. Qed.
#[export] Hint Resolve tw_force_name_with_type_specifiers : twins.
Lemma tw_force_name_with_attributes c p p' (r r' : tokref) : ptwins c p p' -> twin c r r' -> twins c (force_name_with_attributes c p r) (force_name_with_attributes c p' r').
Proof. intros. unfold force_name_with_attributes. tws. Qed.
#[export] Hint Resolve tw_force_name_with_attributes : twins.
Lemma tw_parse_name_with_attributes c p p' : ptwins c p p' -> twins c (parse_name_with_attributes c p) (parse_name_with_attributes c p').
Proof. intros. unfold parse_name_with_attributes. tws. Qed.
#[export] Hint Resolve tw_parse_name_with_attributes : twins.
Lemma tw_parse_name_with_type_specifiers c p p' : ptwins c p p' -> twins c (parse_name_with_type_specifiers c p) (parse_name_with_type_specifiers c p').
Proof. intros. unfold parse_name_with_type_specifiers. tws. Qed.
#[export] Hint Resolve tw_parse_name_with_type_specifiers : twins.
Lemma tw_one_or_more c {A} `{Twin A} (q q' : M (pres A)) d : twins c q q' -> twins c (one_or_more q d) (one_or_more q' d).
Proof. intros. unfold one_or_more. tws. Qed.
#[export] Hint Resolve tw_one_or_more : twins.
Lemma tw_parse_name_list c p p' : ptwins c p p' -> twins c (parse_name_list c p) (parse_name_list c p').
Proof. intros. unfold parse_name_list. tws. Qed.
#[export] Hint Resolve tw_parse_name_list : twins.
Lemma tw_parse_expression_list c p p' : ptwins c p p' -> twins c (parse_expression_list p) (parse_expression_list p').
Proof. intros. unfold parse_expression_list. tws. Qed.
#[export] Hint Resolve tw_parse_expression_list : twins.
Lemma tw_parse_type_pack c p p' : ptwins c p p' -> has_luau c = true -> twins c (parse_type_pack p) (parse_type_pack p').
Proof. intros. unfold parse_type_pack. tws. Qed.
#[export] Hint Resolve tw_parse_type_pack : twins.
Lemma tw_parse_return_type c p p' : ptwins c p p' -> has_luau c = true -> twins c (parse_return_type p) (parse_return_type p').
Proof. intros. unfold parse_return_type. tws. Qed.
#[export] Hint Resolve tw_parse_return_type : twins.
Lemma tw_expect_generic_type_params c p p' (left_arrow left_arrow' : tokref) : ptwins c p p' -> twin c left_arrow left_arrow' -> has_luau c = true -> twins c (expect_generic_type_params p left_arrow) (expect_generic_type_params p' left_arrow').
Proof. intros. unfold expect_generic_type_params. tws. Qed.
#[export] Hint Resolve tw_expect_generic_type_params : twins.
Lemma tw_missing_default c (seen_default seen_default' : bool) : twin c seen_default seen_default' -> twins c (missing_default seen_default) (missing_default seen_default').
Proof. intros. unfold missing_default. tws. Qed.
#[export] Hint Resolve tw_missing_default : twins.
Lemma tw_parse_generic_type_list c p p' (style : list_style) : ptwins c p p' -> has_luau c = true -> twins c (parse_generic_type_list c p style) (parse_generic_type_list c p' style).
Proof. intros. unfold parse_generic_type_list. tws. Qed.
#[export] Hint Resolve tw_parse_generic_type_list : twins.
Lemma tw_expect_function_type c p p' (style : type_style) : ptwins c p p' -> has_luau c = true -> twins c (expect_function_type c p style) (expect_function_type c p' style).
Proof. intros. unfold expect_function_type. tws. Qed.
#[export] Hint Resolve tw_expect_function_type : twins.
Lemma tw_error_at_current c (msg : text) : twins c (error_at_current msg) (error_at_current msg).
Proof. intros. unfold error_at_current. tws. Qed.
#[export] Hint Resolve tw_error_at_current : twins.
Lemma tw_push_field c {B} `{Twin B} l l' f f' (g g' : punctuated tree -> B) : twin c l l' -> twin c f f' -> (forall x x', twin c x x' -> twin c (g x) (g' x')) -> twins c (push_field l f g) (push_field l' f' g').
Proof. intros L F G. unfold push_field. tws. Qed.
#[export] Hint Resolve tw_push_field : twins.
Lemma tw_expect_type_table c p p' (left_brace left_brace' : tokref) : ptwins c p p' -> twin c left_brace left_brace' -> has_luau c = true -> twins c (expect_type_table c p left_brace) (expect_type_table c p' left_brace').
Proof. intros. unfold expect_type_table. tws. Qed.
#[export] Hint Resolve tw_expect_type_table : twins.
Lemma tw_parse_simple_type c p p' (style : type_style) : ptwins c p p' -> has_luau c = true -> twins c (parse_simple_type c p style) (parse_simple_type c p' style).
Proof.
  intros P L. unfold parse_simple_type. apply on_current; [tws|]. intros t t' T. cbv beta iota.
  do 4 (on_if; [on_drop_tac|]). on_if; [|repeat (on_if; [on_drop_tac|]); on_drop_tac].
  apply on_take. rewrite <- (show_word c t t' (str "typeof")); [|assumption|cbn; auto|assumption|assumption]. tws.
Qed.
#[export] Hint Resolve tw_parse_simple_type : twins.
Lemma tw_parse_type_suffix c p p' (simple_type simple_type' : option tree) : ptwins c p p' -> twin c simple_type simple_type' -> has_luau c = true -> twins c (parse_type_suffix c p simple_type) (parse_type_suffix c p' simple_type').
Proof. intros. unfold parse_type_suffix. tws. Qed.
#[export] Hint Resolve tw_parse_type_suffix : twins.
Lemma tw_parse_type c p p' : ptwins c p p' -> has_luau c = true -> twins c (parse_type c p) (parse_type c p').
Proof. intros. unfold parse_type. tws. Qed.
#[export] Hint Resolve tw_parse_type : twins.
Lemma tw_parse_type_or_pack c p p' : ptwins c p p' -> has_luau c = true -> twins c (parse_type_or_pack c p) (parse_type_or_pack c p').
Proof. intros. unfold parse_type_or_pack. tws. Qed.
#[export] Hint Resolve tw_parse_type_or_pack : twins.
Lemma tw_expect_type_instantiation c p p' (outer_0 outer_0' : tokref) : ptwins c p p' -> twin c outer_0 outer_0' -> has_luau c = true -> twins c (expect_type_instantiation p outer_0) (expect_type_instantiation p' outer_0').
Proof. intros. unfold expect_type_instantiation. tws. Qed.
#[export] Hint Resolve tw_expect_type_instantiation : twins.
Lemma tw_parse_attributes c : twins c (parse_attributes) (parse_attributes).
Proof. intros. unfold parse_attributes. tws. Qed.
#[export] Hint Resolve tw_parse_attributes : twins.
Lemma tw_expect_block_with_end c p p' (name : text) (start_for_errors start_for_errors' : tokref) : ptwins c p p' -> twin c start_for_errors start_for_errors' -> twins c (expect_block_with_end c p name start_for_errors) (expect_block_with_end c p' name start_for_errors').
Proof. intros. unfold expect_block_with_end. tws. Qed.
#[export] Hint Resolve tw_expect_block_with_end : twins.
Lemma tw_unfinished_function_body c (left_parenthesis left_parenthesis' : tokref) (parameters parameters' : punctuated tree) : twin c left_parenthesis left_parenthesis' -> twin c parameters parameters' -> twins c (unfinished_function_body c left_parenthesis parameters) (unfinished_function_body c left_parenthesis' parameters').
Proof. intros. unfold unfinished_function_body. tws. Qed.
#[export] Hint Resolve tw_unfinished_function_body : twins.
Lemma tw_ellipsis_specifier c p p' : ptwins c p p' -> has_luau c = true -> twins c (ellipsis_specifier p) (ellipsis_specifier p').
Proof. intros. unfold ellipsis_specifier. tws. Qed.
#[export] Hint Resolve tw_ellipsis_specifier : twins.
Lemma tw_parameter_loop c p p' : ptwins c p p' -> twins c (parameter_loop c p) (parameter_loop c p').
Proof. intros. unfold parameter_loop. tws. Qed.
#[export] Hint Resolve tw_parameter_loop : twins.
Lemma tw_body_return_type c p p' : ptwins c p p' -> twins c (body_return_type c p) (body_return_type c p').
Proof. intros. unfold body_return_type. tws. Qed.
#[export] Hint Resolve tw_body_return_type : twins.
Lemma tw_parse_function_body c p p' : ptwins c p p' -> twins c (parse_function_body c p) (parse_function_body c p').
Proof. intros. unfold parse_function_body. tws. Qed.
#[export] Hint Resolve tw_parse_function_body : twins.
Lemma tw_expect_expression_key c p p' (left_bracket left_bracket' : tokref) : ptwins c p p' -> twin c left_bracket left_bracket' -> twins c (expect_expression_key p left_bracket) (expect_expression_key p' left_bracket').
Proof. intros. unfold expect_expression_key. tws. Qed.
#[export] Hint Resolve tw_expect_expression_key : twins.
Lemma tw_table_field c p p' (left_brace left_brace' : tokref) (fields fields' : punctuated tree) (t t' : tokref) : ptwins c p p' -> twin c left_brace left_brace' -> twin c fields fields' -> twin c t t' -> twins c (table_field c p left_brace fields t) (table_field c p' left_brace' fields' t').
Proof. intros. unfold table_field. tws. Qed.
#[export] Hint Resolve tw_table_field : twins.
Lemma tw_force_table_constructor c p p' (left_brace left_brace' : tokref) : ptwins c p p' -> twin c left_brace left_brace' -> twins c (force_table_constructor c p left_brace) (force_table_constructor c p' left_brace').
Proof. intros. unfold force_table_constructor. tws. Qed.
#[export] Hint Resolve tw_force_table_constructor : twins.
Lemma tw_parse_prefix c p p' : ptwins c p p' -> twins c (parse_prefix c p) (parse_prefix c p').
Proof. intros. unfold parse_prefix. tws. Qed.
#[export] Hint Resolve tw_parse_prefix : twins.
Lemma tw_parse_arguments c p p' : ptwins c p p' -> twins c (parse_arguments c p) (parse_arguments c p').
Proof. intros. unfold parse_arguments. tws. Qed.
#[export] Hint Resolve tw_parse_arguments : twins.
Lemma tw_dot_suffix c (msg : text) : twins c (dot_suffix msg) (dot_suffix msg).
Proof. intros. unfold dot_suffix. tws. Qed.
#[export] Hint Resolve tw_dot_suffix : twins.
Lemma tw_parse_suffix c p p' : ptwins c p p' -> twins c (parse_suffix c p) (parse_suffix c p').
Proof.
  intros P. unfold parse_suffix. eapply twins_bind; [apply twins_current|]. intros o o' O. destruct O as [|t t' T]; [tws|]. destruct (has_luau c) eqn:L; [tws|].
  rewrite !andb_false_r. tws.
Qed.
#[export] Hint Resolve tw_parse_suffix : twins.
Lemma tw_parse_prefix_and_suffixes c p p' : ptwins c p p' -> twins c (parse_prefix_and_suffixes c p) (parse_prefix_and_suffixes c p').
Proof. intros. unfold parse_prefix_and_suffixes. tws. Qed.
#[export] Hint Resolve tw_parse_prefix_and_suffixes : twins.
Lemma tw_expect_if_else_expression c p p' (if_token if_token' : tokref) : ptwins c p p' -> twin c if_token if_token' -> twins c (expect_if_else_expression p if_token) (expect_if_else_expression p' if_token').
Proof. intros. unfold expect_if_else_expression. tws. Qed.
#[export] Hint Resolve tw_expect_if_else_expression : twins.
Lemma tw_expect_interpolated_string c p p' (first first' : tokref) : ptwins c p p' -> twin c first first' -> is_interpolated first = true ->
  twins c (expect_interpolated_string p first) (expect_interpolated_string p' first').
Proof.
  intros P F I. unfold expect_interpolated_string.
  pose (R := (fun c x x' => twin c (fst x) (fst x') /\ twin c (snd x) (snd x') /\ is_interpolated (snd x) = true) : Twin (list tree * tokref)).
  eapply twins_bind; [eapply (@twins_loop c _ _ R _)|].
  - intros [sg cur] [sg' cur'] (S & C & J). cbn in S, C, J. cbv beta iota. eapply twins_bind.
    { assert (X : r_trailing cur = [] <-> r_trailing cur' = []). { apply tied_same in C as [_ C]. unfold is_interpolated in J. destruct (t_type (r_token cur)) eqn:E; try discriminate. eapply C, eq_refl. }
      destruct (r_trailing cur), (r_trailing cur'); try (destruct X as [X X']; first [discriminate (X eq_refl)|discriminate (X' eq_refl)]); tws. }
    intros b b' B. eapply twins_bind; [eauto with twins nocore|]. intros r r' [e e' E| |]; [|tws|tws]. cbv zeta. eapply twins_bind; [tws|]. intros u u' _.
    apply on_current; [tws|]. intros t t' T. cbv beta iota. pose proof (proj1 (tied_same c t t' T)) as Y.
    destruct (t_type (r_token t)) eqn:E1, (t_type (r_token t')) eqn:E2; cbn in Y; try discriminate; try on_drop_tac. subst.
    match goal with |- context [match ?k with ISimple => _ | _ => _ end] => destruct k end; try on_drop_tac; apply on_consume; tws; apply tv_inl;
    (split; [cbn; val|split; [exact T|cbn; unfold is_interpolated; now rewrite E1]]).
  - split; [apply tv_nil|split; assumption].
  - tws.
Qed.
#[export] Hint Resolve tw_expect_interpolated_string : twins.
Lemma tw_unop c (r r' : tokref) : twin c r r' -> twins c (unop c r) (unop c r').
Proof. intros. unfold unop. tws. Qed.
#[export] Hint Resolve tw_unop : twins.
Lemma tw_parse_unary_expression c p p' (t t' : tokref) : ptwins c p p' -> twin c t t' -> show_token (r_token t) = show_token (r_token t') ->
  twins c (parse_unary_expression c p t) (parse_unary_expression c p' t').
Proof. intros P T E. unfold parse_unary_expression. cbv zeta. rewrite <- E. tws. Qed.
#[export] Hint Resolve tw_parse_unary_expression : twins.
Lemma tw_anonymous_function c p p' (attributes attributes' : list tree) : ptwins c p p' -> twin c attributes attributes' -> twins c (anonymous_function c p attributes) (anonymous_function c p' attributes').
Proof. intros. unfold anonymous_function. tws. Qed.
#[export] Hint Resolve tw_anonymous_function : twins.
Lemma tw_primary_arm c p p' : ptwins c p p' -> twins c (primary_arm c p) (primary_arm c p').
Proof.
  intros P. unfold primary_arm. apply on_current; [tws|]. intros t t' T. cbv beta iota zeta. do 6 (on_if; [on_drop_tac|]). on_if.
  { apply on_take. eapply twins_bind; [|tws]. apply tw_parse_unary_expression; [assumption..|]. repeat (apply orb_prop in B5; destruct B5 as [B5|B5]); try (apply andb_prop in B5; destruct B5 as [_ B5]);
    eapply show_symbol; eassumption. }
  do 2 (on_if; [on_drop_tac|]). pose proof (proj1 (tied_same c t t' T)) as Y. destruct (t_type (r_token t)) eqn:E1, (t_type (r_token t')) eqn:E2; cbn in Y; try discriminate; try on_drop_tac.
  subst. destruct (has_luau c); [|on_drop_tac]. apply on_take. match goal with |- context [match ?k with ISimple => _ | _ => _ end] => destruct k end; try solve [tws].
  eapply twins_bind; [|tws]. apply tw_expect_interpolated_string; [assumption..|]. unfold is_interpolated. now rewrite E1.
Qed.
#[export] Hint Resolve tw_primary_arm : twins.
Lemma tw_parse_primary_expression c p p' : ptwins c p p' -> twins c (parse_primary_expression c p) (parse_primary_expression c p').
Proof. intros. unfold parse_primary_expression. tws. Qed.
#[export] Hint Resolve tw_parse_primary_expression : twins.
Lemma tw_consume_binop c : twins c (consume_binop c) (consume_binop c).
Proof.
  unfold consume_binop. eapply twins_bind; [apply twins_current|]. intros o o' [|t t' T]; [tws|]. pose proof (proj1 (tied_same c t t' T)) as Y. pose proof (tw_precedence c t t' T) as Z.
  destruct (t_type (r_token t)), (t_type (r_token t')); cbn in Y; try discriminate; try solve [tws]. injection Y as <-. destruct Z; tws.
Qed.
#[export] Hint Resolve tw_consume_binop : twins.
Lemma tw_climb_right c p p' (bin_op_token bin_op_token' : tokref) (bin_op_precedence bin_op_precedence' : nat) (rhs rhs' : tree) : ptwins c p p' -> twin c bin_op_token bin_op_token' -> twin c bin_op_precedence bin_op_precedence' -> twin c rhs rhs' -> twins c (climb_right c p bin_op_token bin_op_precedence rhs) (climb_right c p' bin_op_token' bin_op_precedence' rhs').
Proof. intros. unfold climb_right. tws. Qed.
#[export] Hint Resolve tw_climb_right : twins.
Lemma tw_parse_expression_with_precedence c p p' (lhs lhs' : tree) (precedence precedence' : nat) : ptwins c p p' -> twin c lhs lhs' -> twin c precedence precedence' -> twins c (parse_expression_with_precedence c p lhs precedence) (parse_expression_with_precedence c p' lhs' precedence').
Proof. intros. unfold parse_expression_with_precedence. tws. Qed.
#[export] Hint Resolve tw_parse_expression_with_precedence : twins.
Lemma tw_parse_expression c p p' : ptwins c p p' -> twins c (parse_expression c p) (parse_expression c p').
Proof. intros. unfold parse_expression. tws. Qed.
#[export] Hint Resolve tw_parse_expression : twins.
Lemma tw_compound_op c (r r' : tokref) : twin c r r' -> twins c (compound_op c r) (compound_op c r').
Proof.
  intros T. unfold compound_op. assert (X : forall ys, find (is_symbol r) ys = find (is_symbol r') ys).
  { induction ys as [|y ys IH]; [reflexivity|]. cbn [find]. now rewrite (tw_is_symbol c r r' y T), IH. }
  cbv zeta. rewrite !X. tws.
Qed.
#[export] Hint Resolve tw_compound_op : twins.
Lemma tw_parse_compound_assignment c p p' (v v' : var) : ptwins c p p' -> twin c v v' -> twins c (parse_compound_assignment c p v) (parse_compound_assignment c p' v').
Proof. intros. unfold parse_compound_assignment. tws. Qed.
#[export] Hint Resolve tw_parse_compound_assignment : twins.
Lemma tw_expect_function_name c : twins c (expect_function_name) (expect_function_name).
Proof.
  unfold expect_function_name. eapply twins_bind; [apply twins_current|]. intros o o' [|t t' T]; [tws|]. case_of (is_identifier t) (is_identifier t'); [|tws].
  eapply twins_bind; [apply tw_take|]. intros n n' N. eapply twins_loop; [|val]. intros l l' L. apply on_current; [tws|]. intros q q' Q. cbv beta iota. on_if; [|on_drop_tac].
  apply on_take. assert (E : show_token (r_token q) = show_token (r_token q')). { apply orb_prop in B as [B|B]; eapply show_symbol; eassumption. }
  rewrite <- E. tws.
Qed.
#[export] Hint Resolve tw_expect_function_name : twins.
Lemma tw_expect_function_declaration c p p' (attributes attributes' : list tree) (function_token function_token' : tokref) : ptwins c p p' -> twin c attributes attributes' -> twin c function_token function_token' -> twins c (expect_function_declaration c p attributes function_token) (expect_function_declaration c p' attributes' function_token').
Proof. intros. unfold expect_function_declaration. tws. Qed.
#[export] Hint Resolve tw_expect_function_declaration : twins.
Lemma tw_expect_local_function_declaration c p p' (attributes attributes' : list tree) (local_token local_token' : tokref) (function_token function_token' : tokref) : ptwins c p p' -> twin c attributes attributes' -> twin c local_token local_token' -> twin c function_token function_token' -> twins c (expect_local_function_declaration c p attributes local_token function_token) (expect_local_function_declaration c p' attributes' local_token' function_token').
Proof. intros. unfold expect_local_function_declaration. tws. Qed.
#[export] Hint Resolve tw_expect_local_function_declaration : twins.
Lemma tw_expect_numeric_for_stmt c p p' (for_token for_token' : tokref) (index_variable index_variable' : name) : ptwins c p p' -> twin c for_token for_token' -> twin c index_variable index_variable' -> twins c (expect_numeric_for_stmt c p for_token index_variable) (expect_numeric_for_stmt c p' for_token' index_variable').
Proof. intros. unfold expect_numeric_for_stmt. tws. Qed.
#[export] Hint Resolve tw_expect_numeric_for_stmt : twins.
Lemma tw_expect_for_stmt c p p' (for_token for_token' : tokref) : ptwins c p p' -> twin c for_token for_token' -> twins c (expect_for_stmt c p for_token) (expect_for_stmt c p' for_token').
Proof. intros. unfold expect_for_stmt. tws. Qed.
#[export] Hint Resolve tw_expect_for_stmt : twins.
Lemma tw_expect_if_stmt c p p' (if_token if_token' : tokref) : ptwins c p p' -> twin c if_token if_token' -> twins c (expect_if_stmt c p if_token) (expect_if_stmt c p' if_token').
Proof. intros. unfold expect_if_stmt. tws. Qed.
#[export] Hint Resolve tw_expect_if_stmt : twins.
Lemma tw_expect_local_assignment c p p' (local_token local_token' : tokref) : ptwins c p p' -> twin c local_token local_token' -> twins c (expect_local_assignment c p local_token) (expect_local_assignment c p' local_token').
Proof. intros. unfold expect_local_assignment. tws. Qed.
#[export] Hint Resolve tw_expect_local_assignment : twins.
Lemma tw_expect_repeat_stmt c p p' (repeat_token repeat_token' : tokref) : ptwins c p p' -> twin c repeat_token repeat_token' -> twins c (expect_repeat_stmt c p repeat_token) (expect_repeat_stmt c p' repeat_token').
Proof. intros. unfold expect_repeat_stmt. tws. Qed.
#[export] Hint Resolve tw_expect_repeat_stmt : twins.
Lemma tw_expect_while_stmt c p p' (while_token while_token' : tokref) : ptwins c p p' -> twin c while_token while_token' -> twins c (expect_while_stmt c p while_token) (expect_while_stmt c p' while_token').
Proof. intros. unfold expect_while_stmt. tws. Qed.
#[export] Hint Resolve tw_expect_while_stmt : twins.
Lemma tw_expect_type_declaration c p p' (type_token type_token' : tokref) : ptwins c p p' -> twin c type_token type_token' -> has_luau c = true -> twins c (expect_type_declaration c p type_token) (expect_type_declaration c p' type_token').
Proof. intros. unfold expect_type_declaration. tws. Qed.
#[export] Hint Resolve tw_expect_type_declaration : twins.
Lemma tw_expect_type_function c p p' (type_token type_token' : tokref) (function_token function_token' : tokref) : ptwins c p p' -> twin c type_token type_token' -> twin c function_token function_token' -> twins c (expect_type_function c p type_token function_token) (expect_type_function c p' type_token' function_token').
Proof. intros. unfold expect_type_function. tws. Qed.
#[export] Hint Resolve tw_expect_type_function : twins.
Lemma tw_local_stmt c p p' : ptwins c p p' -> twins c (local_stmt c p) (local_stmt c p').
Proof. intros. unfold local_stmt. tws. Qed.
#[export] Hint Resolve tw_local_stmt : twins.
Lemma tw_contextual_stmt c p p' (v v' : var) : ptwins c p p' -> twin c v v' -> twins c (contextual_stmt c p v) (contextual_stmt c p' v').
Proof.
  intros P V. unfold contextual_stmt. destruct (has_luau c) eqn:L; [|tws]. destruct V as [x x' l l' X Y|r r' R]; [tws|]. change (twin c r r') in R.
  pose proof (contextual_same c r r' (str "export") L) as A. pose proof (contextual_same c r r' (str "type") L) as B. pose proof (contextual_same c r r' (str "continue") L) as D.
  pose proof (proj1 (tied_same c r r' R)) as Z. destruct (t_type (r_token r)), (t_type (r_token r')); cbn in Z; try discriminate; try solve [tws].
  rewrite <- A, <- B, <- D; [tws|cbn; tauto|assumption..|cbn; tauto|assumption|cbn; tauto|assumption].
Qed.
#[export] Hint Resolve tw_contextual_stmt : twins.
Lemma tw_var_loop c p p' (v v' : var) : ptwins c p p' -> twin c v v' -> twins c (var_loop c p v) (var_loop c p' v').
Proof. intros. unfold var_loop. tws. apply tw_push_punctuated; [assumption|vals|assumption]. Qed.
#[export] Hint Resolve tw_var_loop : twins.
Lemma tw_assignment c p p' (v v' : var) : ptwins c p p' -> twin c v v' -> twins c (assignment c p v) (assignment c p' v').
Proof. intros. unfold assignment. tws. Qed.
#[export] Hint Resolve tw_assignment : twins.
Lemma tw_expression_stmt c p p' : ptwins c p p' -> twins c (expression_stmt c p) (expression_stmt c p').
Proof. intros. unfold expression_stmt. tws. Qed.
#[export] Hint Resolve tw_expression_stmt : twins.
Lemma tw_goto_stmt c : twins c (goto_stmt c) (goto_stmt c).
Proof. intros. unfold goto_stmt. tws. Qed.
#[export] Hint Resolve tw_goto_stmt : twins.
Lemma tw_two_colons c : twins c (two_colons c) (two_colons c).
Proof. intros s s' S. unfold two_colons, bind, lift. destruct (token_reference_symbol _ _) as [[]| |] eqn:E; try exact I. split; [apply tied_inserted, in_colons, E|assumption]. Qed.
#[export] Hint Resolve tw_two_colons : twins.
Lemma tw_label_stmt c : twins c (label_stmt c) (label_stmt c).
Proof. intros. unfold label_stmt. tws. Qed.
#[export] Hint Resolve tw_label_stmt : twins.
Lemma tw_attribute_stmt c p p' : ptwins c p p' -> twins c (attribute_stmt c p) (attribute_stmt c p').
Proof. intros. unfold attribute_stmt. tws. Qed.
#[export] Hint Resolve tw_attribute_stmt : twins.
Lemma tw_parse_stmt c p p' : ptwins c p p' -> twins c (parse_stmt c p) (parse_stmt c p').
Proof. intros. unfold parse_stmt. tws. Qed.
#[export] Hint Resolve tw_parse_stmt : twins.
Lemma tw_parse_last_stmt c p p' : ptwins c p p' -> twins c (parse_last_stmt p) (parse_last_stmt p').
Proof. intros. unfold parse_last_stmt. tws. Qed.
#[export] Hint Resolve tw_parse_last_stmt : twins.
Lemma tw_parse_block c p p' : ptwins c p p' -> twins c (parse_block c p) (parse_block c p').
Proof. intros. unfold parse_block. tws. Qed.
#[export] Hint Resolve tw_parse_block : twins.
