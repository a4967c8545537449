(** Specifications of the parser functions: statements. *)
From Verif Require Import PunctuatedProofs.
From Verif Require Export ParserSafe4.
From Coq Require Import Lia ZifyBool ZifyNat ZifyN.
Local Open Scope nat_scope.

Definition sv (c : cfg) (v : stmt_variant) : Prop :=
  match v with VStmt t => has c (YNode NStmt) t | VLastStmt t => has c (YNode NLastStmt) t end.
Definition var_ok (c : cfg) (v : var) : Prop :=
  match v with VarExpression x l => prefix_ok c x /\ Forall (has c (YNode NSuffix)) l | VarName _ => True end.
Lemma var_has c v : var_ok c v -> has c (YNode NVar) (var_tree v).
Proof. destruct v as [x l|r]; cbn [var_ok var_tree]; [intros [H1 H2]|intros _]; typ. Qed.
Lemma vars_has c l : each (var_ok c) l -> has c (YPunctuated (YNode NVar)) (punct var_tree l).
Proof. apply has_punct. apply var_has. Qed.
#[export] Hint Resolve var_has vars_has : core.

Definition moved {A} (V : A -> Prop) (s : pstate) (r : pres A) (s' : pstate) : Prop :=
  match r with Value a => V a | LexerMoved => True | NotFound => False end.

Lemma existsb_find {A} (f : A -> bool) l : existsb f l = true -> exists x, find f l = Some x.
Proof. intros H. destruct (find f l) eqn:E; [eauto|]. apply existsb_exists in H as (x & I & F). pose proof (find_none _ _ E x I). congruence. Qed.

Lemma compound_has c r y : is_symbol r y = true -> kind_allowed c (KCompoundOp y) = true -> has c (YNode NCompoundOp) (Nd (KCompoundOp y) [Tok r]).
Proof.
  intros H K. apply has_nd; [reflexivity| |cbn [fields]; repeat (apply Forall2_cons; [typ|]); apply Forall2_nil].
  unfold node_ok. rewrite K. cbn [fitting_node filled_node operator_node feature_node andb]. now rewrite andb_true_r.
Qed.
Lemma is_symbol_type r y : is_symbol r y = true -> t_type (r_token r) = TSymbol y.
Proof. unfold is_symbol. destruct (t_type (r_token r)); try discriminate. unfold symbol_eqb. destruct (symbol_eq_dec _ _) in *; congruence. Qed.
Lemma luau_feature c : has_luau c = true -> f_luau (c_feat c) = true.
Proof. unfold has_luau. intros H. now apply andb_true_iff in H. Qed.
Lemma cfxlua_feature c : has_cfxlua c = true -> f_cfxlua (c_feat c) = true.
Proof. unfold has_cfxlua. intros H. now apply andb_true_iff in H. Qed.

Lemma compound_op_spec c U r s : is_compound c r = true ->
  W c U (compound_op c r) s (fun t s' => has c (YNode NCompoundOp) t /\ s' = s).
Proof.
  intros H.
  assert (K : exists y, t_type (r_token r) = TSymbol y /\ kind_allowed c (KCompoundOp y) = true).
  { unfold is_compound in H. destruct (t_type (r_token r)) as [| | | | | | |y| | |] eqn:E;
      try (unfold is_symbol in H; rewrite E in H; cbn in H; rewrite !andb_false_r in H; discriminate).
    exists y. split; [reflexivity|]. unfold is_symbol in H. rewrite E in H. apply orb_true_iff in H as [H|H]; apply andb_true_iff in H as [L H];
    destruct y; try discriminate H; cbn; rewrite L, ?orb_true_r; reflexivity. }
  destruct K as (y & E & K).
  assert (Ky : is_symbol r y = true) by (unfold is_symbol; rewrite E; unfold symbol_eqb; now destruct (symbol_eq_dec y y)).
  assert (G : compound_op c r = ret (Nd (KCompoundOp y) [Tok r])).
  { unfold compound_op, is_symbol. rewrite E.
    pose proof (luau_feature c) as L. pose proof (cfxlua_feature c) as X.
    cbn in K. destruct y; try discriminate K; cbn; try reflexivity; rewrite ?L, ?X by assumption; cbn; try reflexivity.
    all: now destruct (f_luau (c_feat c)). }
  rewrite G. apply W_ret. split; [now apply compound_has|reflexivity].
Qed.
#[export] Hint Resolve compound_op_spec : spec.

Lemma parse_compound_assignment_spec c U n p v t s : good c U n p -> len s <= S n -> var_ok c v -> hd_tok s = Some t -> is_compound c t = true ->
  W c U (parse_compound_assignment c p v) s (moved (sv c) s).
Proof.
  intros G H Hv E1 E2. assert (Nt : is_eof t = false).
  { unfold is_compound in E2. split_bools; apply existsb_exists in H1 as (y & _ & Hy); eapply symbol_not_eof; eauto. }
  assert (L : has_luau c || has_cfxlua c = true) by (unfold is_compound in E2; split_bools; rewrite H0, ?orb_true_r; reflexivity).
  unfold parse_compound_assignment. go; cbn [moved sv]; fin.
Qed.
#[export] Hint Resolve parse_compound_assignment_spec : spec.

Lemma expect_function_name_spec c U s : W c U expect_function_name s (pv (has c (YNode NFunctionName)) s).
Proof.
  unfold expect_function_name. go; fin.
  eapply (W_loop (fun (l : punctuated tokref) (_ : pstate) => ends_plain l)); [apply ends_plain_push|].
  intros l s2 L2 El.
  assert (K : forall o, opt_is (has c (YTuple YTok YTok)) o -> has c (YNode NFunctionName) (Nd KFunctionName [punct Tok l; opt_tree o])).
  { intros o Ho. apply has_nd; [reflexivity| |cbn [fields]; repeat (apply Forall2_cons; [typ|]); apply Forall2_nil].
    unfold node_ok. cbn [kind_allowed fitting_node filled_node operator_node feature_node andb]. destruct El as (m & w & El). unfold count, punct. cbn [nth_error].
    rewrite El, map_app, app_length, Nat.add_comm. reflexivity. }
  go; fin.
  all: try (apply (K None); exact I).
  all: try (apply (K (Some _)); cbn [opt_is]; typ).
  all: try (eapply (W_push_punctuated _ _ _ _ (fun _ => True)); [assumption|apply Forall_forall; auto|exact I|]; intros; go; fin).
Qed.
#[export] Hint Resolve expect_function_name_spec : spec.

Lemma function_body_new_spec c U s : W c U (function_body_new c) s (fun t s' => has c (YNode NFunctionBody) t /\ s' = s).
Proof. unfold function_body_new. go; fin. Qed.
Lemma if_new_spec c U x o s : has c (YNode NExpression) x -> opt_is (has c (YVec (YNode NElseIf))) o ->
  W c U (if_new c x o) s (fun t s' => has c (YNode NIf) t /\ s' = s).
Proof. intros Hx Ho. unfold if_new. go; fin. Qed.
Lemma while_new_spec c U x s : has c (YNode NExpression) x -> W c U (while_new c x) s (fun t s' => has c (YNode NWhile) t /\ s' = s).
Proof. intros Hx. unfold while_new. go; fin. Qed.
Lemma do_with_block_spec c U x s : has c (YNode NBlock) x -> W c U (do_with_block c x) s (fun t s' => has c (YNode NStmt) t /\ s' = s).
Proof. intros Hx. unfold do_with_block. go; fin. Qed.
#[export] Hint Extern 1 (opt_is _ None) => exact I : spec.
#[export] Hint Resolve function_body_new_spec if_new_spec while_new_spec do_with_block_spec : spec.

Lemma expect_function_declaration_spec c U n p l q s : good c U n p -> len s <= S n -> Forall (has c (YNode NLuauAttribute)) l ->
  W c U (expect_function_declaration c p l q) s (ov0 (has c (YNode NFunctionDeclaration))).
Proof. intros G H Hl. unfold expect_function_declaration. go; fin. Qed.
#[export] Hint Resolve expect_function_declaration_spec : spec.

Lemma expect_local_function_declaration_spec c U n p l q r s : good c U n p -> len s <= S n -> Forall (has c (YNode NLuauAttribute)) l ->
  W c U (expect_local_function_declaration c p l q r) s (ov0 (has c (YNode NLocalFunction))).
Proof. intros G H Hl. unfold expect_local_function_declaration. go; fin. Qed.
#[export] Hint Resolve expect_local_function_declaration_spec : spec.

Lemma expect_numeric_for_stmt_spec c U n p q x t s : good c U n p -> len s <= S n -> name_ok c x -> hd_tok s = Some t -> is_symbol t SEqual = true ->
  W c U (expect_numeric_for_stmt c p q x) s (ov0 (has c (YNode NNumericFor))).
Proof. intros G H [_ Hx] E1 E2. unfold expect_numeric_for_stmt. go; fin. rewrite E2 in E. discriminate. Qed.
#[export] Hint Resolve expect_numeric_for_stmt_spec : spec.

Lemma generic_for_has c q l i e d b x : each (name_ok c) l -> each (has c (YNode NExpression)) e -> has c (YNode NBlock) b ->
  has c (YNode NGenericFor) (Nd KGenericFor [Tok q; punct Tok (p_from_iter (map (pair_map n_name) (p_pairs l))); Tok i; puncts e; Tok d; b; Tok x;
    vec (map (fun n => opt_tree (n_type_specifier n)) (p_into_iter l))]).
Proof.
  intros Hl He Hb. apply has_nd; [reflexivity| |cbn [fields]; repeat (apply Forall2_cons; [typ|]); try apply Forall2_nil].
  - unfold node_ok. cbn [kind_allowed fitting_node filled_node operator_node feature_node andb]. rewrite !andb_true_r. apply Nat.leb_le.
    unfold count, punct, vec, p_from_iter, p_pairs. cbn [nth_error pairs]. now rewrite !map_length, into_iter_length.
  - apply Forall_map. eapply Forall_impl; [|apply each_into_iter; exact Hl]. intros y [_ Hy]. now apply has_opt.
Qed.
Lemma stmt_generic_for_has c t : has c (YNode NGenericFor) t -> has c (YNode NStmt) (Nd KStmtGenericFor [t]).
Proof. intros H. typ. Qed.
Lemma ends_plain_nonempty {A} (l : punctuated A) : ends_plain l -> p_is_empty l = false /\ p_into_iter l <> [].
Proof.
  intros (m & v & E). rewrite into_iter_eq. unfold p_is_empty, p_len. rewrite E, app_length, map_app, Nat.add_comm. split; [reflexivity|]. cbn. now destruct (map pair_value m).
Qed.

Lemma expect_for_stmt_spec c U n p q s : good c U n p -> len s <= S n ->
  W c U (expect_for_stmt c p q) s (ov0 (has c (YNode NStmt))).
Proof.
  intros G H. unfold expect_for_stmt. step. eapply W_conseq; [eapply parse_name_list_spec; eauto|]. intros [l| |] s1 L1 HQ _; [|destruct HQ|clear HQ; go; exact I].
  destruct HQ as (Hl & El & Ls). destruct (ends_plain_nonempty _ El) as [N1 N2]. rewrite N1. pose proof (each_into_iter _ _ Hl) as Hi.
  destruct (p_into_iter l) as [|x xs] eqn:Ei; [congruence|]. inversion_clear Hi as [|? ? Hx _]. rewrite <- Ei.
  go; fin; try (apply stmt_generic_for_has, generic_for_has; fin).
  destruct a; cbn; [cbn in H3; typ|exact I].
Qed.
#[export] Hint Resolve expect_for_stmt_spec : spec.

Lemma else_ifs_has c l : Forall (has c (YNode NElseIf)) l -> opt_is (has c (YVec (YNode NElseIf))) (else_if_optional l).
Proof. intros H. destruct l; cbn; [exact I|now apply has_vec]. Qed.
#[export] Hint Resolve else_ifs_has : core.

Lemma expect_if_stmt_spec c U n p q s : good c U n p -> len s <= n ->
  W c U (expect_if_stmt c p q) s (ov0 (has c (YNode NIf))).
Proof.
  intros G H. unfold expect_if_stmt. go; fin.
  loop_post (fun l (_ : pstate) => Forall (has c (YNode NElseIf)) l)
    (fun (r : tree + list tree) (_ : pstate) => match r with inl t => has c (YNode NIf) t | inr l => Forall (has c (YNode NElseIf)) l end); [constructor| |].
  - intros l s5 L5 El. pose proof (else_ifs_has c l El) as Eo. go; fin. apply Forall_app. split; [assumption|]. apply Forall_cons; [typ|apply Forall_nil].
  - intros [r|l] s5 L5 Hr; [go; fin|]. assert (Eo : has c (YOpt (YVec (YNode NElseIf))) (opt_tree (else_if_optional l))) by (apply has_opt; auto).
    generalize dependent (opt_tree (else_if_optional l)). intros o Ho. go; fin.
Qed.
#[export] Hint Resolve expect_if_stmt_spec : spec.

Lemma local_assignment_has c q l e x : (forall t, e = Some t -> negb (is_symbol t SIn) || f_cfxlua (c_feat c) = true) -> each (name_ok c) l -> each (has c (YNode NExpression)) x ->
  has c (YNode NLocalAssignment) (Nd KLocalAssignment [Tok q; vec (map (fun n => opt_tree (n_type_specifier n)) (p_into_iter l));
    punct Tok (p_from_iter (map (pair_map n_name) (p_pairs l))); vec (map (fun n => opt_tree (n_attribute n)) (p_into_iter l)); opt_tok e; puncts x]).
Proof.
  intros Hs Hl He. pose proof (each_into_iter _ _ Hl) as Hi. apply has_nd; [reflexivity| |cbn [fields]; repeat (apply Forall2_cons; [typ|]); try apply Forall2_nil].
  - unfold node_ok. cbn [kind_allowed fitting_node filled_node operator_node feature_node andb]. rewrite !andb_true_r. apply andb_true_iff. split; [|destruct e; cbn [opt_tok option_map opt_tree]; auto]. apply andb_true_iff.
    unfold count, punct, vec, p_from_iter, p_pairs. cbn [nth_error pairs]. rewrite !map_length, into_iter_length. split; now apply Nat.leb_le.
  - apply Forall_map. eapply Forall_impl; [|exact Hi]. intros y [_ Hy]. now apply has_opt.
  - apply Forall_map. eapply Forall_impl; [|exact Hi]. intros y [Hy _]. now apply has_opt.
Qed.
Lemma sign_feature c t : existsb (is_symbol t) (if f_cfxlua (c_feat c) then [SEqual; SIn] else [SEqual]) = true -> negb (is_symbol t SIn) || f_cfxlua (c_feat c) = true.
Proof.
  destruct (f_cfxlua (c_feat c)); [intros _; apply orb_true_r|]. cbn [existsb]. rewrite orb_false_r. intros H. now rewrite (is_symbol_other t SEqual SIn H ltac:(discriminate)).
Qed.
Lemma expect_local_assignment_spec c U n p q t s : good c U n p -> len s <= S n -> hd_tok s = Some t -> is_identifier t = true ->
  W c U (expect_local_assignment c p q) s (ov0 (has c (YNode NLocalAssignment))).
Proof.
  intros G H E1 E2. unfold expect_local_assignment. step.
  eapply W_conseq; [eapply (one_or_more_spec c U (S n) (name_ok c) (fun s => is_ident (hd_tok s) = false)); [|exact H]|].
  { intros s1 H1. eapply W_conseq; [eapply parse_name_attr_spec; eauto|]. intros [x| |] s2 L2 HQ; intuition. }
  intros [l| |] s1 L1 HQ _; [|destruct HQ|clear G; rewrite E1 in HQ; cbn in HQ; congruence].
  destruct HQ as (Hl & El & Ls). go; try (apply local_assignment_has; [intros ? [= <-]; now apply sign_feature|auto using each_new..]); try (apply local_assignment_has; [discriminate|auto using each_new..]).
Qed.
#[export] Hint Resolve expect_local_assignment_spec : spec.

Lemma expect_repeat_stmt_spec c U n p q s : good c U n p -> len s <= n -> W c U (expect_repeat_stmt c p q) s (ov0 (has c (YNode NStmt))).
Proof. intros G H. unfold expect_repeat_stmt. go; fin. Qed.
Lemma expect_while_stmt_spec c U n p q s : good c U n p -> len s <= n -> W c U (expect_while_stmt c p q) s (ov0 (has c (YNode NWhile))).
Proof. intros G H. unfold expect_while_stmt. go; fin. Qed.
Lemma expect_type_declaration_spec c U n p q s : good c U n p -> has_luau c = true -> len s <= n ->
  W c U (expect_type_declaration c p q) s (ov0 (has c (YNode NTypeDeclaration))).
Proof. intros G L H. unfold expect_type_declaration. go; fin. Qed.
Lemma expect_type_function_spec c U n p q r s : good c U n p -> has_luau c = true -> len s <= n ->
  W c U (expect_type_function c p q r) s (ov0 (has c (YNode NTypeFunction))).
Proof. intros G L H. unfold expect_type_function. go; fin. Qed.
#[export] Hint Resolve expect_repeat_stmt_spec expect_while_stmt_spec expect_type_declaration_spec expect_type_function_spec : spec.

Lemma stmt_or_moved_spec c k n o s s' : ov0 (has c (YNode n)) o s -> kind_type k = NStmt -> fields k = [YNode n] ->
  (forall t, node_ok c k [t] = true) -> moved (sv c) s (stmt_or_moved k o) s'.
Proof.
  intros H E F N. destruct o as [t|]; cbn in *; [|exact I]. apply has_nd; [assumption|apply N|]. rewrite F. apply Forall2_cons; [assumption|apply Forall2_nil].
Qed.

Lemma local_stmt_spec c U n p t s : good c U n p -> len s <= S n -> hd_tok s = Some t -> is_symbol t SLocal = true ->
  W c U (local_stmt c p) s (fun r s' => moved (sv c) s r s' /\ len s' < len s).
Proof.
  intros G H E1 E2. unfold local_stmt. go; fin; try exact I; eapply stmt_or_moved_spec; eauto; reflexivity.
Qed.
#[export] Hint Resolve local_stmt_spec : spec.
