(** Whole sources follow the lexical grammar, and the lexer reads all texts of the grammar (C52). Proof file. *)
From Verif Require Import Lexer LexerFacts LexerFacts2 LexerCases LexerStep LexerStream LexerSpec LexerProofs LexerTheorems LexerTheorems2 LexerTheorems3 TokenSpec TokenProofs TokenTheorems StringProofs StringProofs2 Relex Relex2.
From Verif Require Export Scan4.
From Coq Require Import Lia ZifyBool ZifyNat ZifyN.
Local Open Scope N_scope.
Arguments ch a : simpl never.
Arguments advance p c : simpl never.

Lemma spelling_show tt : spelling tt = show_type tt.
Proof.
  destruct tt; try reflexivity; try (match goal with q : quote_type |- _ => destruct q | k : istr_kind |- _ => destruct k end; try reflexivity).
  all: cbn [spelling show_type]; unfold long_bracket_open, long_bracket_close; rewrite <- !app_assoc; reflexivity.
Qed.

Lemma turns_fun c s t s1 s2 : turns c s t s1 -> turns c s t s2 -> s1 = s2.
Proof.
  intros [s0|s0| |s0 w|s0 w|s0 w|s0 w|s0 t0 N1 N2 N3] T2; inversion T2; subst; try reflexivity; try congruence; exfalso; eauto.
  all: try (eapply N3; reflexivity); try (match goal with H : forall w k, TInterpolatedString _ _ <> _ |- _ => eapply H; reflexivity end).
Qed.
Lemma no_luau_turns c tt v s : has_luau c = false -> token_then c tt v -> turns c [] tt s -> s = [].
Proof. intros HL T U. inversion U; subst; try reflexivity; [now rewrite HL|]. inversion T; congruence. Qed.

Lemma eof_step c l t l' : process_next c l = Done (Some (LOk t), l') -> s_rest (l_src l) = [] -> t_type t = TEof /\ ended l' /\ l_sent_eof l = false.
Proof.
  intros P R. unfold process_next, src_next in P. rewrite R in P. destruct (l_sent_eof l); [discriminate|]. unfold yield, create in P. injection P as <- <-.
  split; [reflexivity|]. split; [|reflexivity]. split; [exact R|reflexivity].
Qed.
Lemma ended_psteps c l ts es l' : ended l -> psteps c l ts es l' -> ts = [] /\ l' = l.
Proof. intros E P. destruct P as [|l t es l1 ts es' l' P _]; [auto|]. exfalso. eapply ended_pstep; eassumption. Qed.

Lemma token_spelled c tt v : token_then c tt v -> spelling tt <> [].
Proof.
  intros T E. destruct T as [w v W _ _|s v I _|s v O|w v Nb|w q x v Hq Hb A|w n v F|w v N Hv L|w n v F|w v Hc F|w v Sp|w k v HL Se]; cbn in E; try discriminate E.
  - subst w. destruct W as (x & r & W & _). discriminate.
  - destruct s; discriminate E.
  - destruct s; discriminate E.
  - subst w. inversion Nb.
  - destruct q; try discriminate.
  - subst w. inversion Sp.
Qed.

(** ** Soundness *)
Lemma psteps_sound c l ts es l' : psteps c l ts es l' -> es = [] -> cfx53 c -> (has_luau c = false -> l_braces l = []) -> l_sent_eof l = false -> ended l' ->
  exists tts, map t_type ts = tts ++ [TEof] /\ tokens_in c (stack l) tts /\ s_rest (l_src l) = written tts.
Proof.
  induction 1 as [l|l t es l1 ts es' l' P Ps IH]; intros Ees HC HB Se En.
  - destruct En as [_ En]. congruence.
  - apply app_eq_nil in Ees as [-> ->]. destruct P as [[P _]|[_ P]]; [|contradiction].
    destruct (step_sound c l t l1 HC HB P) as [[R Et]|(E & T & U & Se')].
    + destruct (eof_step _ _ _ _ P R) as (_ & En1 & _). destruct (ended_psteps _ _ _ _ _ En1 Ps) as [-> _]. exists []. cbn. rewrite Et. split; [reflexivity|]. split; [constructor|exact R].
    + destruct IH as (tts & Em & Ti & Ew); auto.
      * intros HL. specialize (HB HL). assert (S0 : stack l1 = []) by (eapply no_luau_turns; [eassumption|exact T|]; unfold stack in U at 1; rewrite HB in U; exact U).
        unfold stack in S0. destruct (l_braces l1); [reflexivity|discriminate].
      * congruence.
      * exists (t_type t :: tts). cbn [map app]. rewrite Em. split; [reflexivity|]. split.
        -- eapply ti_cons; [|exact U|exact Ti]. rewrite <- Ew. exact T.
        -- rewrite E, Ew. reflexivity.
Qed.

(** ** Completeness *)
Inductive good (c : cfg) : lexer -> list token_type -> Prop :=
| g_end l : ended l -> good c l []
| g_step l t l' ts : process_next c l = Done (Some (LOk t), l') -> good c l' ts -> good c l (t_type t :: ts).
Lemma tokens_good c st ts : tokens_in c st ts -> cfx53 c -> forall l, stack l = st -> (has_luau c = false -> l_braces l = []) -> l_sent_eof l = false -> s_rest (l_src l) = written ts ->
  good c l (ts ++ [TEof]).
Proof.
  induction 1 as [s|s tt s' ts T U _ IH]; intros HC l Es HB Se R.
  - assert (P : exists t l', process_next c l = Done (Some (LOk t), l')) by (unfold process_next, src_next; rewrite R, Se; do 2 eexists; reflexivity).
    destruct P as (t & l' & P). destruct (eof_step _ _ _ _ P R) as (Et & En & _). cbn [app]. rewrite <- Et. eapply g_step; [exact P|]. now apply g_end.
  - subst s. cbn [written flat_map] in R. fold (written ts) in R. destruct (step_complete c l tt (written ts) s' HC T U R) as (t & l' & P & Et & Rl).
    destruct (step_sound c l t l' HC HB P) as [[R0 _]|(E & T' & U' & Se')].
    { exfalso. rewrite R in R0. apply app_eq_nil in R0 as [R0 _]. eapply token_spelled; eassumption. }
    rewrite Et in U', T'. pose proof (turns_fun _ _ _ _ _ U U') as Es. cbn [app]. rewrite <- Et. eapply g_step; [exact P|]. apply IH; auto; [|congruence].
    intros HL. specialize (HB HL). assert (S0 : stack l' = []) by (eapply no_luau_turns; [eassumption|exact T'|]; unfold stack in U' at 1; rewrite HB in U'; exact U').
    unfold stack in S0. destruct (l_braces l'); [reflexivity|discriminate].
Qed.
Lemma good_psteps c l ts es l' : psteps c l ts es l' -> forall tts, good c l tts -> es = [] /\ exists tts', tts = map t_type ts ++ tts' /\ good c l' tts'.
Proof.
  induction 1 as [l|l t es l1 ts es' l' P Ps IH]; intros tts G; [split; [reflexivity|exists tts; auto]|]. inversion G as [l0 En|l0 t1 l2 tts0 P1 G0]; subst.
  { exfalso. eapply ended_pstep; eassumption. }
  destruct P as [[P ->]|[P _]]; rewrite P1 in P; [|discriminate]. injection P as -> ->. destruct (IH tts0 G0) as [-> (tts1 & -> & G1)]. split; [reflexivity|]. exists tts1. auto.
Qed.
Lemma good_here c l tts : good c l tts -> ended l /\ tts = [] \/ exists t l', process_next c l = Done (Some (LOk t), l').
Proof. intros [l0 E|l0 t l' ts P G]; [left; auto|right; eauto]. Qed.
Lemma good_no_panic c l : panics c l -> forall tts, good c l tts -> False.
Proof.
  induction 1 as [l E|l r l' E P IH]; intros tts G.
  - pose proof (process_next_with_trivia_spec c l) as S. rewrite E in S. destruct S as (ts & es & l1 & Ps & B). destruct (good_psteps _ _ _ _ _ Ps _ G) as [_ (tts' & _ & G')].
    destruct B as ((r & R) & H1 & H2). destruct (good_here _ _ _ G') as [[[R0 _] _]|(t & l' & P)]; [congruence|].
    unfold process_next, src_next in P. rewrite R in P. cbn -[has_luau] in P. rewrite H1, H2 in P. discriminate.
  - pose proof (process_next_with_trivia_spec c l) as S. rewrite E in S. inversion S as [|l0 ts es l1 e l2 Ps F Pf|l0 ld es l1 t es1 l2 tr l3 r0 P1 F P2 Nt P3 T1 T2 ER]; subst.
    + destruct (good_psteps _ _ _ _ _ Ps _ G) as [_ (tts' & _ & G')]. destruct (good_here _ _ _ G') as [[En _]|(t & l2 & Q)]; [rewrite ended_next in Pf by assumption; discriminate|congruence].
    + destruct (good_psteps _ _ _ _ _ P1 _ G) as [_ (tts1 & _ & G1)]. assert (P2' : psteps c l1 [t] (es1 ++ []) l2) by (econstructor; [exact P2|constructor]).
      destruct (good_psteps _ _ _ _ _ P2' _ G1) as [_ (tts2 & _ & G2)]. destruct (good_psteps _ _ _ _ _ P3 _ G2) as [_ (tts3 & _ & G3)]. eauto.
Qed.
Lemma good_clean c l rs : stream c l rs -> forall tts, good c l tts -> clean rs.
Proof.
  induction 1 as [l E|l r l' rs E S IH]; intros tts G; [constructor|].
  pose proof (process_next_with_trivia_spec c l) as RS. rewrite E in RS. inversion RS as [|l0 ts es l1 e l2 Ps F Pf|l0 ld es l1 t es1 l2 tr l3 r0 P1 F P2 Nt P3 T1 T2 ER]; subst.
  - destruct (good_psteps _ _ _ _ _ Ps _ G) as [_ (tts' & _ & G')]. destruct (good_here _ _ _ G') as [[En _]|(t & l2 & Q)]; [rewrite ended_next in Pf by assumption; discriminate|congruence].
  - destruct (good_psteps _ _ _ _ _ P1 _ G) as [-> (tts1 & _ & G1)]. assert (P2' : psteps c l1 [t] (es1 ++ []) l2) by (econstructor; [exact P2|constructor]).
    destruct (good_psteps _ _ _ _ _ P2' _ G1) as [E1 (tts2 & _ & G2)]. apply app_eq_nil in E1 as [-> _]. destruct (good_psteps _ _ _ _ _ P3 _ G2) as [_ (tts3 & _ & G3)].
    constructor; [eexists; reflexivity|exact (IH _ G3)].
Qed.
Lemma good_stream c l tts : inv l -> good c l tts -> exists rs, stream c l rs /\ clean rs /\ map t_type (tokens_of rs) = tts.
Proof.
  intros I G. destruct (stream_total c _ l I (Nat.lt_succ_diag_r _)) as [P|(rs & S & _)].
  { exfalso. eapply good_no_panic; eassumption. }
  pose proof (good_clean _ _ _ S _ G) as C. exists rs. split; [exact S|]. split; [exact C|]. destruct (stream_clean _ _ _ S C) as (l' & Ps & En).
  destruct (good_psteps _ _ _ _ _ Ps _ G) as [_ (tts' & -> & G')]. destruct (good_here _ _ _ G') as [[_ ->]|(t & l2 & Q)]; [now rewrite app_nil_r|rewrite ended_next in Q by assumption; discriminate].
Qed.

(** ** Sources *)
Lemma shebang_tokenize c r line s x rs : read_line r (advance (advance pos0 (ch "#")) (ch "!")) (str "#!") = (line, s) -> stream c (mkLexer s false []) (LOk x :: rs) ->
  tokenize c (str "#!" ++ r) = Done (LOk (add_shebang (mkToken pos0 (s_pos s) (TShebang line)) x) :: rs).
Proof.
  intros RL S. assert (SB : shebang (str "#!" ++ r)) by (exists r; reflexivity). pose proof RL as RL'. apply read_line_shebang in RL as (u & El & M & F & HN). subst line.
  assert (R : run c (str "#!" ++ r) (LOk (add_shebang (mkToken pos0 (s_pos s) (TShebang (str "#!" ++ u))) x) :: rs)).
  { apply (run_shebang_ok c _ (str "#!" ++ u) s); try exact S; try exact HN; try exact SB; [|exact F|reflexivity|discriminate]. destruct M as [M1 M2]. cbn [s_rest s_pos] in *. split; [cbn; now rewrite M1|exact M2]. }
  apply run_length in R. destruct (stream_step _ _ _ S) as (l1 & E1 & S1). destruct (stream_step _ _ _ S1) as (l2 & E2 & S2). cbn [hd_error tl] in *.
  unfold tokenize, lexer_new. assert (Ef : process_first_with_trivia c (new_lazy (str "#!" ++ r)) =
      let '(line, s) := read_line r (advance (advance pos0 (ch "#")) (ch "!")) (str "#!") in
      match process_next_with_trivia c (mkLexer s false []) with
      | Panic => Panic
      | OutOfFuel => OutOfFuel
      | Done (Some (LOk r), l) => Done (Some (LOk (add_shebang (mkToken pos0 (s_pos s) (TShebang line)) r)), l)
      | Done (_, l) => process_next_with_trivia c l
      end) by reflexivity.
  rewrite Ef, RL', E1, E2. apply (drain_stream c _ (LOk (add_shebang (mkToken pos0 (s_pos s) (TShebang (str "#!" ++ u))) x) :: rs)); [lia|exact S2].
Qed.

Lemma file_exact c source ts : cfg_ok c ->
  (exists rs, tokenize c source = Done rs /\ clean rs /\ shebang_kept source rs /\ map t_type (tokens_of rs) = ts) <-> file c ts source.
Proof.
  intros HC. apply cfg_ok_cfx53 in HC. split.
  - intros (rs & H & C & K & <-). apply tokenize_done in H. destruct H as [rs NS S|line s sb r rs SB M F HN Esb Ln S|line s r rs SB M F HN Ln S Nk].
    + destruct (stream_clean _ _ _ S C) as (l' & Ps & En). destruct (psteps_sound _ _ _ _ _ Ps eq_refl HC) as (tts & Em & Ti & Ew); auto.
      rewrite Em. cbn [new_lazy l_src s_rest] in Ew. rewrite Ew in NS |- *. now apply fi_plain.
    + inversion C as [|? ? _ C']; subst. assert (C2 : clean (LOk r :: rs)) by (constructor; [eauto|exact C']).
      destruct (stream_clean _ _ _ S C2) as (l' & Ps & En). destruct (psteps_sound _ _ _ _ _ Ps eq_refl HC) as (tts & Em & Ti & Ew); auto.
      change (tokens_of (LOk (add_shebang (mkToken pos0 (s_pos s) (TShebang line)) r) :: rs)) with (mkToken pos0 (s_pos s) (TShebang line) :: tokens_of (LOk r :: rs)).
      cbn [map t_type]. rewrite Em. destruct M as [M _]. cbn [s_rest l_src] in M, Ew. destruct SB as (q & SB).
      assert (L : exists w, line = str "#!" ++ w).
      { rewrite M, Ew in SB. destruct line as [|a [|b w]]; [contradiction| |cbn in SB; injection SB as -> -> _; exists w; reflexivity].
        exfalso. cbn in SB. injection SB as -> SB. rewrite Ew in HN. destruct (written tts); [discriminate|]. cbn in HN. injection SB as -> _. discriminate HN. }
      destruct L as (w & ->). rewrite M, Ew. rewrite <- app_assoc. apply fi_shebang; [| |exact Ti].
      * intros I. rewrite forallb_app in F. apply andb_true_iff in F as [_ F]. rewrite forallb_forall in F. apply F in I. discriminate.
      * rewrite <- Ew. now apply head_not_continued.
    + exfalso. destruct (K SB) as (t & ts & w & E & Et).
      inversion S as [|l0 r0 l1 rs0 P S']; subst. eapply run_lost_no_shebang; [exact S'|exact E|exact Et].
  - intros [tts Ti NS|w tts Nw Nc Ti].
    + assert (G : good c (new_lazy (written tts)) (tts ++ [TEof])) by (eapply tokens_good; try exact Ti; auto).
      destruct (good_stream c _ _ (inv_unsent _ _) G) as (rs & S & C & E). exists rs. split; [now apply stream_tokenize|]. split; [exact C|]. split; [now apply no_shebang_kept|exact E].
    + destruct (read_line (w ++ written tts) (advance (advance pos0 (ch "#")) (ch "!")) (str "#!")) as [line s] eqn:RL.
      pose proof RL as RL'. apply read_line_shebang in RL as (u & El & [M _] & F & HN). cbn [s_rest] in M.
      destruct (span_unique (fun x => negb (x =? 10)) w (written tts) u (s_rest s)) as [-> Es]; [|exact Nc|exact F|now apply head_not_continued|exact M|].
      { apply forallb_forall. intros x I. apply negb_true_iff, N.eqb_neq. intros ->. contradiction. }
      assert (G : good c (mkLexer s false []) (tts ++ [TEof])) by (eapply tokens_good; try exact Ti; auto).
      destruct (good_stream c _ _ (inv_unsent _ _) G) as (rs & S & C & E).
      destruct rs as [|r rs]; [exfalso; cbn in E; destruct tts; discriminate|]. inversion C as [|? ? [x ->] C']; subst.
      eexists. split; [exact (shebang_tokenize c _ _ _ _ _ RL' S)|]. split; [constructor; [eauto|exact C']|]. split.
      * intros _. do 3 eexists. split; reflexivity.
      * rewrite <- E. reflexivity.
Qed.
