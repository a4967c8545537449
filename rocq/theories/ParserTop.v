(** The whole parser: the loop over blocks, the end of file, and the connection with the lexer. *)
From Verif Require Import LexerSpec LexerCases LexerProofs LexerTheorems LexerTheorems3 TokenSpec TokenProofs TokenTheorems SymbolProofs PunctuatedProofs.
From Verif Require Export ParserSafe6.
From Coq Require Import Lia ZifyBool ZifyNat ZifyN.
Local Open Scope nat_scope.

Definition block_post (c : cfg) (s : pstate) (r : pres tree) (s' : pstate) : Prop :=
  match r with
  | Value t => has c (YNode NBlock) t /\ (block_stmts t <> [] -> len s' < len s)
  | LexerMoved => len s' < len s
  | NotFound => False end.

Lemma merge_has c a b : has c (YNode NBlock) a -> has c (YNode NBlock) b -> has c (YNode NBlock) (merge_blocks a b).
Proof.
  intros Ha Hb. apply block_shape in Ha as (l & o & -> & Hl & Ho). apply block_shape in Hb as (m & q & -> & Hm & Hq).
  unfold merge_blocks, vec. apply has_nd; [reflexivity|nok|cbn [fields]; repeat (apply Forall2_cons; [typ|]); try apply Forall2_nil].
  - apply has_vec. apply Forall_app. auto.
  - apply opt_shape in Ho as [->|(x & -> & Hx)]; [assumption|]. now apply has_some.
Qed.

Lemma first_stmt c b s : has c (YNode NBlock) b -> block_stmts b <> [] -> exists r, first_token b s = Done (r, s).
Proof.
  intros H N. apply first_token_done. apply block_shape in H as (l & o & -> & Hl & Ho). cbn in N. destruct l as [|x l]; [congruence|].
  inversion_clear Hl as [|? ? Hx _]. cbn. intros E. apply app_eq_nil in E as [E _]. apply app_eq_nil in E as [E _].
  revert E. eapply leaves_tight; [exact Hx|reflexivity].
Qed.

Lemma next_block_spec c U m b blk s : W c U m s (block_post c s) -> has c (YNode NBlock) blk ->
  (match hd_tok s with Some t => is_eof t = false \/ True | None => True end) ->
  W c U (next_block m b blk) s (fun r s' => match r with
    | inl x => has c (YNode NBlock) x /\ len s' < len s
    | inr x => has c (YNode NBlock) x /\ exists t, hd_tok s' = Some t /\ is_eof t = true end).
Proof.
  intros Hm Hb _. unfold next_block. step. eapply W_conseq; [exact Hm|]. intros [t| |] s1 L1 HQ _; cbn in HQ.
  - destruct HQ as [Ht Pt]. destruct (block_stmts t) as [|x l] eqn:E.
    + step. step. intros _. destruct (match hd_tok s1 with Some t0 => is_eof t0 | None => false end) eqn:Eo.
      * step. split; [assumption|]. destruct (hd_tok s1) as [te|]; [eauto|discriminate].
      * step. apply W_consume_any. { destruct (hd_tok s1); auto. }
        intros [te| |] s2 L2 N _; [|step; split; [assumption|lia]|congruence].
        apply W_bind. intros I2. unfold wp, errors. split; [apply ext_refl|]. intros _. destruct (last_error_unexpected _); [step; split; [assumption|lia]|].
        step. step. step. step. split; [assumption|lia].
    + step. assert (L2 : len s1 < len s) by (apply Pt; discriminate).
      apply (W_conseq (P := fun _ s2 => len s2 = len s1)).
      * destruct b; [|step; reflexivity]. step. apply W_done; [eapply first_stmt; [exact Ht|now rewrite E]|]. intros r _. apply W_error. auto.
      * intros [] s2 L3 E3 _. step. split; [now apply merge_has|lia].
  - step. split; [assumption|lia].
  - destruct HQ.
Qed.

Lemma fallible_loop_spec c U n m b blk s : (forall s1, len s1 <= n -> W c U m s1 (block_post c s1)) -> len s <= n -> has c (YNode NBlock) blk ->
  W c U (fallible_loop m b blk) s (fun x s' => has c (YNode NBlock) x /\ exists t, hd_tok s' = Some t /\ is_eof t = true).
Proof.
  intros Hm H Hb. unfold fallible_loop. eapply (W_loop (fun x (_ : pstate) => has c (YNode NBlock) x)); [assumption|].
  intros x s1 L1 Hx. apply W_bind. intros I. destruct (inv_head _ _ _ I) as (r & rest & T). unfold wp, lexer_current. split; [apply ext_refl|]. intros _. rewrite T. cbn [hd_error].
  assert (N : W c U (next_block m b x) s1 (fun r s2 => match r with inl a' => len s2 < len s1 /\ has c (YNode NBlock) a'
     | inr b0 => has c (YNode NBlock) b0 /\ exists t, hd_tok s2 = Some t /\ is_eof t = true end)).
  { eapply W_conseq; [eapply next_block_spec; [apply Hm; lia|assumption|destruct (hd_tok s1); auto]|]. intros [y|y] s2 L2 HQ; tauto. }
  destruct r as [t|es|t es]; [destruct (is_eof t) eqn:E| |]; try exact N.
  - step. split; [assumption|]. exists t. unfold hd_tok. now rewrite T.
  - step. apply W_consume_fatal; [unfold hd_tok; now rewrite T|]. intros s2 L2 _. step. auto.
Qed.

(** A stream with one end of file, which is last. *)
Definition one_eof (toks : list (lexres tokref)) (e : tokref) : Prop :=
  exists pre x, toks = pre ++ [x] /\ tok_of x = Some e /\ is_eof e = true /\ Forall not_eof pre.

Definition stream_post (c : cfg) (e : tokref) (s : pstate) (a : ast) (s' : pstate) : Prop :=
  has c (YNode NBlock) (a_nodes a) /\ a_eof a = e /\ st_toks s' = [] /\
  exists es, st_errors s' = st_errors s ++ es /\ forall r x, In r (st_toks s) -> In x (errs_of r) -> In (TokenizerError x) es.

Lemma parse_stream_spec c U e s : one_eof (st_toks s) e -> Forall (enabled c) (st_toks s) -> (U \/ Forall (safe c) (st_toks s)) ->
  match parse_stream c s with Done (a, s') => stream_post c e s a s' | Panic => U | OutOfFuel => False end.
Proof.
  intros (pre & x & T & X & Eof & N) En Sf.
  assert (I : inv c U s). { split; [exists pre, x, e; auto|]. split; assumption. }
  set (n := S (List.length (st_toks s))). set (m := p_block (parsers_at c n)).
  assert (Hm : forall s1, len s1 <= n -> W c U m s1 (block_post c s1)) by (intros; now apply block_at).
  assert (Ls : len s <= n) by (unfold len, n; lia).
  set (prog := let! r := m in let block := match r with Value block => block | _ => block_new end in
    let block_has_last_stmt := match block_last_stmt block with Some _ => true | None => false end in fallible_loop m block_has_last_stmt block).
  assert (P : W c U prog s (fun b s' => has c (YNode NBlock) b /\ exists t, hd_tok s' = Some t /\ is_eof t = true)).
  { unfold prog. step. eapply W_conseq; [apply Hm, Ls|]. intros r s1 L1 HQ _. cbv zeta. eapply fallible_loop_spec; [exact Hm|lia|].
    destruct r as [t| |]; cbn in HQ; [apply HQ|auto|auto]. }
  specialize (P I). unfold wp in P.
  assert (E : parse_stream c s = (let! block := prog in let! eof := final_token in ret (mkAst block eof)) s).
  { unfold parse_stream. fold n. fold m. unfold prog, bind. destruct (m s) as [[r s1]| |]; reflexivity. }
  rewrite E. clear E. unfold bind at 1. destruct (prog s) as [[b s1]| |]; try assumption.
  destruct P as ((u & es & T1 & Er & Nu & Lu) & Hb & t & Ht & Et).
  assert (Q : st_toks s1 = [x]).
  { unfold hd_tok in Ht. destruct (st_toks s1) as [|y ys] eqn:Ey; [discriminate|]. rewrite T in T1.
    destruct ys as [|z ys] using rev_ind.
    - change (pre ++ [x] = u ++ [y]) in T1. apply app_inj_tail in T1 as [_ ->]. reflexivity.
    - exfalso. rewrite app_comm_cons, app_assoc in T1. apply app_inj_tail in T1 as [T1 _]. rewrite T1 in N. apply Forall_app in N as [_ N].
      inversion_clear N as [|? ? Ny _]. unfold not_eof in Ny. rewrite Ht in Ny. congruence. }
  assert (Tt : t = e) by (unfold hd_tok in Ht; rewrite Q in Ht; congruence). subst t.
  unfold bind, final_token, bind, consume, ret. rewrite Q.
  destruct x as [y|ys|y ys]; cbn in X; try discriminate; injection X as ->; cbn; rewrite Eof; cbn.
  - split; [assumption|]. split; [reflexivity|]. split; [reflexivity|]. exists es. split; [assumption|].
    intros r z Hr Hz. rewrite T1, Q in Hr. apply in_app_iff in Hr as [Hr|[<-|[]]]; [eauto|destruct Hz].
  - split; [assumption|]. split; [reflexivity|]. split; [reflexivity|]. exists (es ++ map TokenizerError ys). rewrite Er, app_assoc. split; [reflexivity|].
    intros r z Hr Hz. rewrite T1, Q in Hr. apply in_app_iff. apply in_app_iff in Hr as [Hr|[<-|[]]]; [eauto|]. right. now apply in_map.
Qed.

(** ** The lexer *)
Lemma lexer_results_drain fuel c x : lexer_results fuel c x = drain fuel c x.
Proof. revert x. induction fuel as [|fuel IH]; intros x; reflexivity. Qed.
Lemma lex_all_tokenize c source : lex_all c source = tokenize c source.
Proof. unfold lex_all, tokenize. destruct (lexer_new c source); auto using lexer_results_drain. Qed.

Lemma ref_of_tok_of r : ref_of r = tok_of r.
Proof. now destruct r. Qed.
Lemma in_tokens rs r t : In r rs -> tok_of r = Some t -> In (r_token t) (tokens_of rs).
Proof.
  intros I E. unfold tokens_of, refs_of. apply in_flat_map. exists t. split; [|unfold ref_tokens; apply in_app_iff; right; now left].
  apply in_flat_map. exists r. split; [assumption|]. rewrite ref_of_tok_of, E. now left.
Qed.
Lemma is_eof_type t : is_eof t = true <-> t_type (r_token t) = TEof.
Proof. unfold is_eof. destruct (t_type (r_token t)); split; congruence. Qed.
Lemma tokenize_eof c source rs : tokenize c source = Done rs -> rs <> [] ->
  exists e, one_eof rs e /\ r_token e = mkToken (pos_of source) (pos_of source) TEof.
Proof.
  intros H N. assert (K : exists rs0 r tr, rs = rs0 ++ [r] /\ ref_of r = Some tr /\
    r_token tr = mkToken (pos_of source) (pos_of source) TEof /\ r_trailing tr = [] /\
    Forall (fun t => t_type t <> TEof) (tokens_of rs0 ++ r_leading tr)).
  { destruct (shebang_test source) as [(r & _ & S)|[S _]]; [now apply (one_eof_last_shebang c)|now apply (one_eof_last c)]. }
  destruct K as (rs0 & r & tr & -> & R & E & _ & F). exists tr. split; [|assumption]. exists rs0, r. split; [reflexivity|].
  rewrite <- ref_of_tok_of. split; [assumption|]. split; [apply is_eof_type; now rewrite E|]. apply Forall_app in F as [F _]. rewrite Forall_forall in F.
  apply Forall_forall. intros x Hx. unfold not_eof. destruct (tok_of x) as [t|] eqn:Et; [|exact I].
  specialize (F _ (in_tokens _ _ _ Hx Et)). destruct (is_eof t) eqn:Ee; [|reflexivity]. now apply is_eof_type in Ee.
Qed.
Lemma tokenize_enabled c source rs : cfg_ok c -> tokenize c source = Done rs -> Forall (enabled c) rs.
Proof.
  intros K H. apply Forall_forall. intros r Hr. unfold enabled. destruct (tok_of r) as [t|] eqn:Et; [|exact I].
  destruct (t_type (r_token t)) as [| | | | | | |y| | |] eqn:Ey; try exact I. pose proof (in_tokens _ _ _ Hr Et) as Hi.
  destruct (sym_table c y) as [S1 S2]. destruct (is_op y) eqn:Eo.
  - apply S1; [reflexivity|]. assert (Nw : ~ is_word (sym_text y)) by (intros Hw; apply is_op_word in Hw; congruence).
    destruct (operators_longest _ _ _ _ _ H Hi Ey Nw) as (u & v & _ & _ & O & _). auto.
  - apply S2; [reflexivity|]. now apply (keywords_are_words _ _ _ _ _ H Hi Ey), is_op_word.
Qed.

Lemma empty_stream_panics c : parse_stream c (mkState [] []) = Panic.
Proof. reflexivity. Qed.

(** What [parse_fallible] does on the results of the lexer. *)
Lemma parse_fallible_spec c source (U : Prop) : cfg_ok c ->
  (forall rs, tokenize c source = Done rs -> rs = [] -> U) -> (tokenize c source = Panic -> U) ->
  (forall rs, tokenize c source = Done rs -> U \/ Forall (safe c) rs) ->
  match parse_fallible c source with
  | Done r => exists rs e s', tokenize c source = Done rs /\ rs <> [] /\ one_eof rs e /\ r_token e = mkToken (pos_of source) (pos_of source) TEof /\
      parse_stream c (mkState rs []) = Done (ar_ast r, s') /\ ar_errors r = st_errors s' /\ stream_post c e (mkState rs []) (ar_ast r) s'
  | Panic => U
  | OutOfFuel => False
  end.
Proof.
  intros K H0 H1 H2. unfold parse_fallible. rewrite lex_all_tokenize. pose proof (lexing_terminates c source) as Tm.
  destruct (tokenize c source) as [rs| |] eqn:T; [|now apply H1|congruence].
  destruct rs as [|r0 rs0] eqn:Er; [rewrite empty_stream_panics; eauto|]. rewrite <- Er in *.
  assert (N : rs <> []) by (rewrite Er; discriminate).
  destruct (tokenize_eof _ _ _ T N) as (e & O & Pe).
  pose proof (parse_stream_spec c U e (mkState rs []) O (tokenize_enabled _ _ _ K T) (H2 _ eq_refl)) as P.
  destruct (parse_stream c (mkState rs [])) as [[a s']| |] eqn:Ps; try assumption. exists rs, e, s'. cbn [ar_ast ar_errors]. split; [reflexivity|]. do 4 (split; [assumption|]). split; [reflexivity|exact P].
Qed.
