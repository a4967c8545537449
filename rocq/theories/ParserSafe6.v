(** Specifications of the parser functions: assignments, statements, blocks, and the recursive functions on fuel. *)
From Verif Require Import TokenSpec LexerCases SymbolProofs PunctuatedProofs.
From Verif Require Export ParserSafe5.
From Coq Require Import Lia ZifyBool ZifyNat ZifyN.
Local Open Scope nat_scope.

Definition opt_moved (c : cfg) (s : pstate) (r : option (pres stmt_variant)) (s' : pstate) : Prop :=
  match r with Some r => moved (sv c) s r s' | None => True end.
Lemma contextual_stmt_spec c U n p v s : good c U n p -> len s <= n -> W c U (contextual_stmt c p v) s (opt_moved c s).
Proof.
  intros G H. unfold contextual_stmt. destruct (has_luau c) eqn:L; [|step; exact I].
  destruct v as [x l|r]; [step; exact I|]. destruct (t_type (r_token r)); try (step; exact I).
  go; cbn [opt_moved]; fin; try exact I; try (eapply stmt_or_moved_spec; eauto; try reflexivity; intros; nok).
  all: cbn [moved sv]; fin.
Qed.
#[export] Hint Resolve contextual_stmt_spec : spec.

Lemma call_shape c t : has c (YNode NSuffix) t -> is_call t = true -> exists x, t = Nd KSuffixCall [x] /\ has c (YNode NCall) x.
Proof.
  intros H E. destruct t as [r|k cs|k cs]; try discriminate. destruct k; try discriminate. apply nd_has in H as (_ & _ & H). cbn [fields] in H.
  inversion H as [|? a ? cs' Ha H' ]; subst. inversion H'; subst. eauto.
Qed.

Lemma var_loop_spec c U n p v s : good c U n p -> len s <= n -> var_ok c v ->
  W c U (var_loop c p v) s (ov0 (each (var_ok c))).
Proof.
  intros G H Hv. unfold var_loop.
  eapply (W_loop (fun l (_ : pstate) => ends_plain l /\ each (var_ok c) l)).
  { split; [apply ends_plain_push|]. apply each_push_end; [apply each_new|assumption]. }
  intros l s1 L1 [El Hl].
  assert (P : forall x q s2, var_ok c x -> len s2 < len s1 -> W c U (let! m := push_punctuated l x q in ret (inl m)) s2
     (fun (r : punctuated var + option (punctuated var)) s2 => match r with inl a => len s2 < len s1 /\ ends_plain a /\ each (var_ok c) a | inr b => ov0 (each (var_ok c)) b s2 end)).
  { intros x q s2 Hx L2. step. eapply (W_push_punctuated _ _ _ _ (var_ok c)); auto. intros m M1 M2 _ _. step. auto. }
  step. step. norm. intros _. destruct (hd_tok s1) as [t|] eqn:E; [|go; fin]. destruct (is_symbol t SComma) eqn:E0; [|go; fin].
  step. step. norm. intros _. step. eapply W_conseq; [eapply parse_prefix_and_suffixes_spec; eauto; arith|]. intros [[x l0]| |] s2 L2 HQ _; [|go; fin|go; fin].
  norm. destruct (last_of l0) as [y|] eqn:E1; [destruct (is_call y) eqn:E2|].
  - apply last_of_in in E1. match goal with H : Forall (has c (YNode NSuffix)) l0 |- _ => rewrite Forall_forall in H; specialize (H _ E1); apply call_shape in H as (z & -> & Hz); [|assumption] end. go; fin.
  - apply P; [cbn; auto|arith].
  - apply P; [destruct x; cbn in *; auto|arith].
Qed.
#[export] Hint Resolve var_loop_spec : spec.

Lemma assignment_spec c U n p v s : good c U n p -> len s <= n -> var_ok c v -> W c U (assignment c p v) s (moved (sv c) s).
Proof. intros G H Hv. unfold assignment. go; cbn [moved sv]; fin. Qed.
#[export] Hint Resolve assignment_spec : spec.

Lemma call_stmt_has c x l : prefix_ok c x -> Forall (has c (YNode NSuffix)) l -> has c (YNode NStmt) (Nd KStmtFunctionCall [Nd KFunctionCall [prefix_tree x; vec l]]).
Proof. intros. typ. Qed.

Lemma expression_stmt_spec c U n p t s : good c U n p -> len s <= S n -> hd_tok s = Some t -> is_symbol t SLeftParen || is_identifier t = true ->
  W c U (expression_stmt c p) s (fun r s' => moved (sv c) s r s' /\ len s' < len s).
Proof.
  intros G H E1 E2. unfold expression_stmt. step. eapply W_conseq; [eapply parse_prefix_and_suffixes_spec; eauto|].
  intros [[x l]| |] s1 L1 HQ _; norm; cbv zeta.
  - assert (K : forall v, var_ok c v -> W c U (let! o := current in
         match o with
         | None => ret LexerMoved
         | Some t =>
             if is_compound c t then parse_compound_assignment c p v
             else if is_symbol t SComma || is_symbol t SEqual then assignment c p v
             else
               let! r := contextual_stmt c p v in
               match r with
               | Some r => ret r
               | None => token_error t (str "unexpected expression when looking for a statement") ;; ret LexerMoved
               end
         end) s1 (fun r s' => moved (sv c) s r s' /\ len s' < len s)).
    { intros v Hv. step. step. intros _. destruct (hd_tok s1) as [t1|] eqn:E; [|step; split; [exact I|assumption]].
      destruct (is_compound c t1) eqn:C.
      { eapply W_conseq; [eapply parse_compound_assignment_spec; eauto; arith|]. intros [y| |] s2 L2 HQ; cbn in *; (split; [assumption|arith]). }
      destruct (is_symbol t1 SComma || is_symbol t1 SEqual).
      { eapply W_conseq; [eapply assignment_spec; eauto; arith|]. intros [y| |] s2 L2 HQ; cbn in *; (split; [assumption|arith]). }
      step. eapply W_conseq; [eapply contextual_stmt_spec; eauto; arith|]. intros [[y| |]|] s2 L2 HQ _; cbn in HQ; try tauto.
      - step. split; [exact HQ|arith].
      - step. split; [exact I|arith].
      - go. split; [exact I|arith]. }
    destruct (last_of l) as [y|] eqn:E; [destruct (is_call y) eqn:E3|].
    + step. split; [|assumption]. now apply call_stmt_has.
    + apply K. cbn. auto.
    + destruct x; apply K; cbn; auto.
  - step. split; [exact I|assumption].
  - subst s1. rewrite E1 in *. cbn in *. congruence.
Qed.
#[export] Hint Resolve expression_stmt_spec : spec.

Lemma goto_stmt_spec c U t s : hd_tok s = Some t -> is_symbol t SGoto = true -> W c U (goto_stmt c) s (fun r s' => moved (sv c) s r s' /\ len s' < len s).
Proof.
  intros E1 E2. apply W_inv. intros I. assert (K : has_lua52 c || has_luajit c = true) by exact (head_enabled _ _ _ _ _ I E1 E2).
  unfold goto_stmt. rewrite K. cbn [negb]. go; cbn [moved sv]; fin; exact Logic.I.
Qed.
#[export] Hint Resolve goto_stmt_spec : spec.

Lemma two_colons_spec c U s : has_lua52 c || has_luajit c = true -> W c U (two_colons c) s (fun r s' => s' = s).
Proof.
  intros H. apply W_done; [|auto].
  destruct (symbol_leading_complete (S (S (List.length (str "::")))) (mkCfg (c_feat c) lv_new) (str "::") (str "::") []) with (a := @nil N) (l := new_lazy (str "::")) (ld := @nil token) as (r & E); try reflexivity.
  - unfold cfx53, has_cfxlua. cbn. rewrite andb_false_r. discriminate.
  - apply in_app_iff. right. unfold operators. apply in_app_iff. right. apply in_app_iff. left.
    assert (K : has_luau (mkCfg (c_feat c) lv_new) || has_lua52 (mkCfg (c_feat c) lv_new) || has_luajit (mkCfg (c_feat c) lv_new) = true).
    { unfold has_lua52, has_luajit in *. cbn [c_feat c_ver]. split_bools; rewrite H, ?orb_true_r; reflexivity. }
    rewrite K. now left.
  - cbn. lia.
  - exists r. unfold two_colons, bind, lift, token_reference_symbol, symbol_specific_lua_version. rewrite E. reflexivity.
Qed.
#[export] Hint Resolve two_colons_spec : spec.

Lemma label_stmt_spec c U t s : has_lua52 c || has_luajit c = true -> hd_tok s = Some t -> is_symbol t STwoColons = true ->
  W c U (label_stmt c) s (fun r s' => moved (sv c) s r s' /\ len s' < len s).
Proof. intros K E1 E2. unfold label_stmt. go; cbn [moved sv]; fin; exact I. Qed.
#[export] Hint Resolve label_stmt_spec : spec.

Lemma attribute_stmt_spec c U n p t s : good c U n p -> len s <= S n -> has_luau c = true -> hd_tok s = Some t -> is_symbol t SAtSign = true ->
  W c U (attribute_stmt c p) s (fun r s' => moved (sv c) s r s' /\ len s' < len s).
Proof. intros G H L E1 E2. unfold attribute_stmt. go; fin; try exact I; eapply stmt_or_moved_spec; eauto; reflexivity. Qed.
#[export] Hint Resolve attribute_stmt_spec : spec.

Definition stmt_post (c : cfg) (s : pstate) (r : pres stmt_variant) (s' : pstate) : Prop :=
  match r with Value v => sv c v /\ len s' < len s | LexerMoved => len s' < len s | NotFound => s' = s end.
Lemma moved_post c s r s' : moved (sv c) s r s' -> len s' < len s -> stmt_post c s r s'.
Proof. destruct r; cbn; tauto. Qed.
Lemma parse_stmt_spec c U n p s : good c U n p -> len s <= S n -> W c U (parse_stmt c p) s (stmt_post c s).
Proof.
  intros G H. unfold parse_stmt. step. step. intros _. destruct (hd_tok s) as [t|] eqn:E; [|step; reflexivity].
  repeat match goal with |- W _ _ (if ?b then _ else _) _ _ => destruct b eqn:?; norm end;
    try (eapply W_conseq; [solve [eauto with spec]|]; intros ? ? ? [? ?]; now apply moved_post).
  - go. destruct a; cbn; [split; [assumption|arith]|arith].
  - go. destruct a as [[b e]|]; cbn in *; [split; [typ|arith]|arith].
  - go. apply moved_post; [|arith]. eapply stmt_or_moved_spec; eauto; reflexivity.
  - go. apply moved_post; [|arith]. eapply stmt_or_moved_spec; eauto; reflexivity.
  - go. destruct a; cbn; [split; [assumption|arith]|arith].
  - go. apply moved_post; [|arith]. eapply stmt_or_moved_spec; eauto; reflexivity.
  - step. reflexivity.
Qed.
#[export] Hint Resolve parse_stmt_spec : spec.

Lemma parse_last_stmt_spec c U n p s : good c U n p -> len s <= S n -> W c U (parse_last_stmt p) s (fun r s' => match r with
  | Value x => has c (YNode NLastStmt) (fst x) /\ len s' < len s | NotFound => s' = s | LexerMoved => False end).
Proof. intros G H. unfold parse_last_stmt. go; fin. Qed.
#[export] Hint Resolve parse_last_stmt_spec : spec.

Lemma stmt_pair_has c t o n : has c (YNode n) t -> has c (YTuple (YNode n) (YOpt YTok)) (stmt_pair t o).
Proof. intros H. unfold stmt_pair. typ. Qed.
Lemma block_tree_has c l o : Forall (has c (YTuple (YNode NStmt) (YOpt YTok))) l -> opt_is (fun x => has c (YNode NLastStmt) (fst x)) o -> has c (YNode NBlock) (block_tree l o).
Proof.
  intros Hl Ho. unfold block_tree. typ. destruct o as [[t r]|]; cbn; [now apply stmt_pair_has|exact I].
Qed.
Lemma block_tree_stmts l o : block_stmts (block_tree l o) = l.
Proof. reflexivity. Qed.

Lemma parse_block_spec c U n p s : good c U n p -> len s <= S n -> W c U (parse_block c p) s (fun r s' => match r with
  | Value t => has c (YNode NBlock) t /\ (block_stmts t <> [] -> len s' < len s)
  | LexerMoved => len s' < len s
  | NotFound => False end).
Proof.
  intros G H. unfold parse_block. step.
  loop_post (fun l s1 => Forall (has c (YTuple (YNode NStmt) (YOpt YTok))) l /\ (l <> [] -> len s1 < len s))
    (fun r s1 => match r with
      | inl (Value t) => has c (YNode NBlock) t /\ (block_stmts t <> [] -> len s1 < len s)
      | inl LexerMoved => len s1 < len s
      | inl NotFound => False
      | inr l => Forall (has c (YTuple (YNode NStmt) (YOpt YTok))) l /\ (l <> [] -> len s1 < len s) end).
  - split; [constructor|congruence].
  - intros l s1 L1 [Hl Pl]. step. eapply W_conseq; [eapply parse_stmt_spec; eauto; arith|]. intros [[t|t]| |] s2 L2 HQ _; cbn in HQ.
    + destruct HQ as [Ht Lt]. go; (split; [arith|]); (split; [apply Forall_app; split; [assumption|]; apply Forall_cons; [now apply stmt_pair_has|apply Forall_nil]|intros _; arith]).
    + destruct HQ as [Ht Lt]. go; (split; [apply block_tree_has; auto|intros _; arith]).
    + destruct l; step; [arith|]. split; [assumption|intros _; arith].
    + subst. step. auto.
  - intros [[t| |]|l] s1 L1 HQ _; try (step; exact HQ). destruct HQ as [Hl Pl].
    step. eapply W_conseq; [eapply parse_last_stmt_spec; eauto; arith|]. intros r s2 L2 HQ _. step. rewrite block_tree_stmts.
    split; [apply block_tree_has; [assumption|]|intros N; specialize (Pl N); arith]. destruct r; cbn; tauto.
Qed.

(** The functions on fuel [n] do what they should on at most [n] results. *)
Lemma good_at c U n : good c U n (parsers_at c n).
Proof.
  assert (Z : forall A (m : M A) s Q, len s <= 0 -> W c U m s Q).
  { intros A m s Q H I. destruct (inv_head _ _ _ I) as (r & rest & T). unfold len in H. rewrite T in H. cbn in H. lia. }
  induction n as [|n IH]; [constructor; intros; now apply Z|]. constructor; intros; cbn [parsers_at parsers_step p_block p_expression p_primary p_precedence p_type p_type_or_pack].
  - eapply W_conseq; [eapply parse_block_spec; eauto|]. intros [t| |] s' L' HQ; tauto.
  - now apply parse_expression_spec with (n := n).
  - now apply parse_primary_expression_spec with (n := n).
  - now apply parse_expression_with_precedence_spec with (n := n).
  - now apply parse_type_spec with (n := n).
  - now apply parse_type_or_pack_spec with (n := n).
Qed.
Lemma block_at c U n s : len s <= n -> W c U (p_block (parsers_at c n)) s (fun r s' => match r with
  | Value t => has c (YNode NBlock) t /\ (block_stmts t <> [] -> len s' < len s)
  | LexerMoved => len s' < len s
  | NotFound => False end).
Proof.
  destruct n as [|n]; intros H.
  - intros I. destruct (inv_head _ _ _ I) as (r & rest & T). unfold len in H. rewrite T in H. cbn in H. lia.
  - cbn [parsers_at parsers_step p_block]. eapply parse_block_spec; [apply good_at|assumption].
Qed.
