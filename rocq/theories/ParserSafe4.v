(** Specifications of the parser functions: expressions. *)
From Verif Require Import PunctuatedProofs.
From Verif Require Export ParserSafe3.
From Coq Require Import Lia ZifyBool ZifyNat ZifyN.
Local Open Scope nat_scope.

Lemma expect_expression_key_spec c U n p q s : good c U n p -> len s <= n ->
  W c U (expect_expression_key p q) s (ov0 (has c (YNode NField))).
Proof. intros G H. unfold expect_expression_key. go; fin. Qed.
#[export] Hint Resolve expect_expression_key_spec : spec.

Lemma last_field {A} (P : A -> Prop) l x : each P l -> p_last l = Some x -> P (pair_value x).
Proof.
  unfold p_last, each. destruct l as [l]. cbn [pairs]. destruct l as [|y l] using rev_ind; [discriminate|]. rewrite rev_unit. intros H [= <-].
  apply Forall_app in H as [_ H]. now inversion H.
Qed.

Lemma table_field_spec c U n p q l t s : good c U n p -> len s <= n -> hd_tok s = Some t -> each (has c (YNode NField)) l ->
  W c U (table_field c p q l t) s (ov (has c (YNode NField)) s).
Proof.
  intros G H E El. unfold table_field. go; fin;
    match goal with H : p_last _ = Some _ |- _ => apply (last_field _ _ _ El) in H end; cbn [pair_value] in *;
    (eapply W_last; [eassumption|reflexivity|intros ?]); go; fin.
Qed.
#[export] Hint Resolve table_field_spec : spec.

Lemma force_table_constructor_spec c U n p q s : good c U n p -> len s <= n ->
  W c U (force_table_constructor c p q) s (fun t _ => has c (YNode NTableConstructor) t).
Proof.
  intros G H. unfold force_table_constructor. cbv zeta. apply W_bind.
  loop_post (fun (a : punctuated tree) (_ : pstate) => each (has c (YNode NField)) a)
    (fun (r : tree + punctuated tree) (_ : pstate) => match r with inl t => has c (YNode NTableConstructor) t | inr l => each (has c (YNode NField)) l end); [apply each_new| |].
  - intros l s1 H1 El. go; fin.
    eapply W_conseq; [eapply (push_field_spec c U (YNode NField)); eassumption|]. intros r s3 L3 HQ. fin.
  - intros r s1 L1 Hr. go; fin.
Qed.
#[export] Hint Resolve force_table_constructor_spec : spec.

Definition prefix_ok (c : cfg) (x : prefix) : Prop := match x with PrefixExpression e => has c (YNode NExpression) e | PrefixName _ => True end.
Lemma prefix_has c x : prefix_ok c x -> has c (YNode NPrefix) (prefix_tree x).
Proof. destruct x; cbn [prefix_tree prefix_ok]; intros H; typ. Qed.
#[export] Hint Resolve prefix_has : core.

Definition starts_prefix (o : option tokref) : bool := match o with Some t => is_symbol t SLeftParen || is_identifier t | None => false end.

Lemma parse_prefix_spec c U n p s : good c U n p -> len s <= S n ->
  W c U (parse_prefix c p) s (fun r s' => match r with
    | Value x => prefix_ok c x /\ len s' < len s
    | NotFound => s' = s /\ starts_prefix (hd_tok s) = false
    | LexerMoved => len s' < len s end).
Proof. intros G H. unfold parse_prefix, starts_prefix. go; cbn [prefix_ok]; fin.

Qed.
#[export] Hint Resolve parse_prefix_spec : spec.

Lemma parse_arguments_spec c U n p s : good c U n p -> len s <= S n ->
  W c U (parse_arguments c p) s (fun r s' => match r with
    | Value x => has c (YNode NFunctionArgs) x /\ len s' < len s
    | NotFound => s' = s /\ match hd_tok s with Some t => is_symbol t SLeftParen || is_symbol t SLeftBrace || is_string t = false | None => True end
    | LexerMoved => len s' < len s end).
Proof. intros G H. unfold parse_arguments. go; fin.
Qed.
#[export] Hint Resolve parse_arguments_spec : spec.

Lemma dot_suffix_spec c U msg s t : hd_tok s = Some t -> is_eof t = false -> negb (is_symbol t SQuestionMarkDot) || f_cfxlua (c_feat c) = true ->
  W c U (dot_suffix msg) s (fun r s' => match r with Value x => has c (YNode NSuffix) x /\ len s' < len s | NotFound => False | LexerMoved => len s' < len s end).
Proof. intros E N F. unfold dot_suffix. go; fin. Qed.

Lemma function_args_empty_spec c U s : W c U (function_args_empty c) s (fun t s' => has c (YNode NFunctionArgs) t /\ s' = s).
Proof. unfold function_args_empty. go; fin. Qed.
#[export] Hint Resolve function_args_empty_spec : spec.

Ltac dot_feature := split_bools;
  match goal with
  | H : is_symbol ?t SDot = true |- _ => rewrite (is_symbol_other t SDot SQuestionMarkDot H ltac:(discriminate)); reflexivity
  | H : f_cfxlua (c_feat ?c) = true |- _ => rewrite H; apply orb_true_r
  end.
Lemma parse_suffix_spec c U n p s : good c U n p -> len s <= S n ->
  W c U (parse_suffix c p) s (fun r s' => match r with Value x => has c (YNode NSuffix) x /\ len s' < len s | NotFound => s' = s | LexerMoved => len s' < len s end).
Proof.
  intros G H. unfold parse_suffix. go; fin;
    (eapply W_conseq; [eapply dot_suffix_spec; [eassumption|noeof|dot_feature]|]; intros [x| |] ? ? ?; fin; tauto).
Qed.
#[export] Hint Resolve parse_suffix_spec : spec.

Definition chain_ok (c : cfg) (x : prefix * list tree) : Prop := prefix_ok c (fst x) /\ Forall (has c (YNode NSuffix)) (snd x).
Lemma parse_prefix_and_suffixes_spec c U n p s : good c U n p -> len s <= S n ->
  W c U (parse_prefix_and_suffixes c p) s (fun r s' => match r with
    | Value x => prefix_ok c (fst x) /\ Forall (has c (YNode NSuffix)) (snd x) /\ len s' < len s
    | NotFound => s' = s /\ starts_prefix (hd_tok s) = false
    | LexerMoved => len s' < len s end).
Proof.
  intros G H. unfold parse_prefix_and_suffixes. go; fin.
  eapply (W_loop (fun l (_ : pstate) => Forall (has c (YNode NSuffix)) l)); [constructor|]. intros l s2 L2 El. go; fin.
  apply Forall_app. auto.
Qed.
#[export] Hint Resolve parse_prefix_and_suffixes_spec : spec.

Lemma expect_if_else_expression_spec c U n p q s : good c U n p -> has_luau c = true -> len s <= n ->
  W c U (expect_if_else_expression p q) s (ov0 (has c (YNode NIfExpression))).
Proof.
  intros G L H. unfold expect_if_else_expression. go; fin.
  loop_post (fun l (_ : pstate) => Forall (has c (YNode NElseIfExpression)) l) (fun r (_ : pstate) => opt_is (Forall (has c (YNode NElseIfExpression))) r); [constructor| |].
  - intros l s5 L5 El. go; fin. apply Forall_app. split; [assumption|]. apply Forall_cons; [typ|apply Forall_nil].
  - intros r s5 L5 Hr. go; fin.
Qed.
#[export] Hint Resolve expect_if_else_expression_spec : spec.

Lemma expect_interpolated_string_spec c U n p q s : good c U n p -> has_luau c = true -> len s <= n ->
  W c U (expect_interpolated_string p q) s (fun t _ => has c (YNode NInterpolatedString) t).
Proof.
  intros G L H. unfold expect_interpolated_string. apply W_bind.
  loop_post (fun (a : list tree * tokref) (_ : pstate) => Forall (has c (YNode NInterpolatedStringSegment)) (fst a))
    (fun (r : list tree * option tokref) (_ : pstate) => Forall (has c (YNode NInterpolatedStringSegment)) (fst r)); [constructor| |].
  - intros [l cur] s1 L1 El. cbn [fst] in El.
    assert (K : forall e, has c (YNode NExpression) e -> Forall (has c (YNode NInterpolatedStringSegment)) (l ++ [Nd KInterpolatedStringSegment [Tok cur; e]])).
    { intros e He. apply Forall_app. split; [assumption|]. apply Forall_cons; [typ|apply Forall_nil]. }
    go; fin.
  - intros [l o] s1 L1 Hr. cbn [fst] in Hr. go; fin.
Qed.
#[export] Hint Resolve expect_interpolated_string_spec : spec.

Definition unary_token (c : cfg) (r : tokref) : Prop :=
  is_symbol r SMinus || is_symbol r SNot || is_symbol r SHash || (f_lua53 (c_feat c) && is_symbol r STilde) = true /\ (is_symbol r STilde = true -> has_lua53 c = true).
Lemma unop_spec c U r s : unary_token c r -> W c U (unop c r) s (fun t s' => has c (YNode NUnOp) t /\ s' = s).
Proof.
  intros [H1 H2]. unfold unop. go; fin.
  repeat match goal with H : ?b = false |- _ => rewrite H in * ; clear H end. cbn in H1. apply andb_true_iff in H1 as [H3 H4].
  rewrite (H2 H4), H4 in *. discriminate.
Qed.
#[export] Hint Resolve unop_spec : spec.

Lemma parse_unary_expression_spec c U n p r s : good c U n p -> unary_token c r -> len s <= n ->
  W c U (parse_unary_expression c p r) s (fun r s' => match r with Value t => has c (YNode NExpression) t | _ => True end).
Proof. intros G T H. unfold parse_unary_expression. go; fin. Qed.
#[export] Hint Resolve parse_unary_expression_spec : spec.

Lemma anonymous_function_spec c U n p l t s : good c U n p -> len s <= S n -> hd_tok s = Some t -> is_symbol t SFunction = true ->
  (l <> [] -> has_luau c = true) -> Forall (has c (YNode NLuauAttribute)) l ->
  W c U (anonymous_function c p l) s (pv (has c (YNode NExpression)) s).
Proof. intros G H E1 E2 L Hl. unfold anonymous_function. go; fin. Qed.
#[export] Hint Resolve anonymous_function_spec : spec.

Lemma last_of_in {A} (l : list A) x : last_of l = Some x -> In x l.
Proof. unfold last_of. intros H. apply in_rev. destruct (rev l); [discriminate|]. injection H as ->. now left. Qed.

Lemma primary_arm_spec c U n p s : good c U n p -> len s <= S n ->
  W c U (primary_arm c p) s (fun r s' => match r with (Value t, _) => has c (YNode NExpression) t /\ len s' < len s | _ => True end).
Proof.
  intros G H. apply W_inv. intros I.
  assert (K1 : forall t, hd_tok s = Some t -> is_symbol t SAtSign = true -> has_luau c = true) by (intros t E1 E2; exact (head_enabled _ _ _ _ _ I E1 E2)).
  assert (K2 : forall t, hd_tok s = Some t -> is_symbol t SMinus || is_symbol t SNot || is_symbol t SHash || (f_lua53 (c_feat c) && is_symbol t STilde) = true -> unary_token c t).
  { intros t E1 E2. split; [assumption|]. intros E3. exact (head_enabled _ _ _ _ _ I E1 E3). }
  unfold primary_arm. go; fin;
    (apply W_panic; intros _; exfalso; rewrite E in *; cbn [starts_prefix] in *; destruct (is_identifier t), (is_symbol t SLeftParen); discriminate).
Qed.
#[export] Hint Resolve primary_arm_spec : spec.

Lemma parse_primary_expression_spec c U n p s : good c U n p -> len s <= S n ->
  W c U (parse_primary_expression c p) s (pv (has c (YNode NExpression)) s).
Proof. intros G H. unfold parse_primary_expression. go; fin. Qed.
#[export] Hint Resolve parse_primary_expression_spec : spec.

Lemma binop_at c U s t k : inv c U s -> hd_tok s = Some t -> precedence_of_token c t = Some k ->
  exists y, t_type (r_token t) = TSymbol y /\ is_symbol t y = true /\ kind_allowed c (KBinOp y) = binop_enabled c y /\ (binop_enabled c y = true \/ U).
Proof.
  intros I E P. assert (F : forall y, t_type (r_token t) = TSymbol y -> is_symbol t y = true).
  { intros y Ey. unfold is_symbol. rewrite Ey. unfold symbol_eqb. now destruct (symbol_eq_dec y y). }
  unfold precedence_of_token in P. destruct (t_type (r_token t)) as [| | | | | | |y| | |] eqn:Ey; try discriminate. exists y.
  specialize (F y eq_refl). split; [reflexivity|]. split; [assumption|]. pose proof (head_enabled _ _ _ _ _ I E F) as En.
  destruct y; try discriminate; (split; [reflexivity|]); cbn in *; auto;
    destruct (has_lua53 c) eqn:L; auto; destruct (f_lua53 (c_feat c)) eqn:Fe; try discriminate; right; eapply bitop_unsafe; eauto.
Qed.

Lemma consume_binop_spec c U s t k : hd_tok s = Some t -> precedence_of_token c t = Some k ->
  W c U (consume_binop c) s (fun r s' => has c (YNode NBinOp) (fst r) /\ len s' < len s).
Proof.
  intros E P. apply W_inv. intros I. destruct (binop_at _ _ _ _ _ I E P) as (y & Ey & Iy & A & B). unfold consume_binop.
  apply W_bind, W_current. intros _. rewrite E, Ey, P.
  destruct (binop_enabled c y) eqn:B'; [|apply W_panic; now destruct B]. go; fin.
  apply has_nd; [reflexivity| |repeat (apply Forall2_cons; [typ|]); apply Forall2_nil].
  unfold node_ok. rewrite A. cbn [fitting_node filled_node operator_node feature_node andb]. now rewrite andb_true_r.
Qed.
#[export] Hint Resolve consume_binop_spec : spec.

Lemma climb_right_spec c U n p r k e s : good c U n p -> len s <= n -> has c (YNode NExpression) e ->
  W c U (climb_right c p r k e) s (ov0 (has c (YNode NExpression))).
Proof.
  intros G H He. unfold climb_right. eapply (W_loop (fun x (_ : pstate) => has c (YNode NExpression) x)); [assumption|].
  intros x s1 L1 Hx. go; fin; match goal with K : forall _ _, _ -> _ -> _ -> len _ < len _ |- _ => eapply K; eauto end.
  - apply Nat.ltb_lt in E1. lia.
  - match goal with H : Nat.eqb _ _ = true |- _ => apply Nat.eqb_eq in H end. lia.
Qed.
#[export] Hint Resolve climb_right_spec : spec.

Lemma parse_expression_with_precedence_spec c U n p lhs q s : good c U n p -> len s <= S n -> has c (YNode NExpression) lhs ->
  W c U (parse_expression_with_precedence c p lhs q) s (fun r s' => match r with
      | Value t => has c (YNode NExpression) t /\
                   (forall t k, hd_tok s = Some t -> precedence_of_token c t = Some k -> q <= k -> len s' < len s)
      | _ => True
      end).
Proof.
  intros G H He. unfold parse_expression_with_precedence.
  eapply (W_loop (fun x s1 => has c (YNode NExpression) x /\ (s1 = s \/ len s1 < len s))); [auto|].
  intros x s1 L1 [Hx Hs]. go; fin.
  all: try (right; arith).
  all: intros t1 k1 T1 P1 Q1; try arith.
  all: destruct Hs as [->|Hs]; [|assumption]; rewrite T1 in *.
  - injection E as ->. rewrite P1 in E0. injection E0 as ->. apply Nat.ltb_lt in E1. lia.
  - injection E as ->. congruence.
  - discriminate.
Qed.
#[export] Hint Resolve parse_expression_with_precedence_spec : spec.

Lemma parse_expression_spec c U n p s : good c U n p -> len s <= S n ->
  W c U (parse_expression c p) s (pv (has c (YNode NExpression)) s).
Proof. intros G H. unfold parse_expression. go; fin. Qed.
#[export] Hint Resolve parse_expression_spec : spec.
