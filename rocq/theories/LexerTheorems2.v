(** More facts about whole runs: Eof, error ranges, trivia, words, operators. Proof file. *)
From Verif Require Import Lexer LexerFacts LexerFacts2 LexerCases LexerStep LexerStream LexerSpec LexerProofs LexerTheorems.
From Coq Require Import Lia ZifyBool ZifyNat ZifyN.
Local Open Scope N_scope.
Arguments ch a : simpl never.
Arguments advance p c : simpl never.

Lemma pos_new source : adv (s_pos (l_src (new_lazy source))) (s_rest (l_src (new_lazy source))) = pos_of source.
Proof. apply adv_pos0. Qed.

Lemma eof_end_add_shebang p sb r rs :
  t_type sb <> TEof -> eof_end p (LOk r :: rs) -> eof_end p (LOk (add_shebang sb r) :: rs).
Proof.
  intros Hs (rs0 & r1 & tr & E & Hr & H1 & H2 & H3). destruct rs0 as [|x rs0]; cbn [app] in E; injection E as <- ->.
  - exists [], (LOk (add_shebang sb r)), (add_shebang sb r). split; [reflexivity|]. split; [reflexivity|].
    cbn in Hr. injection Hr as ->. split; [assumption|]. split; [assumption|]. cbn. constructor; assumption.
  - exists (LOk (add_shebang sb r) :: rs0), r1, tr. split; [reflexivity|]. split; [assumption|]. split; [assumption|]. split; [assumption|].
    rewrite tokens_of_cons in *. cbn in *. constructor; assumption.
Qed.

Lemma run_eof c source rs : run c source rs ->
  eof_end (pos_of source) rs \/ (shebang source /\ rs = []).
Proof.
  intros [rs' NS S|line s sb r rs' SB M F HN -> Nl S|line s r rs' SB M F HN Nl S NO].
  - left. apply stream_eof in S; [|discriminate]. destruct S as [[_ [_ S]]|S]; [discriminate|]. now rewrite pos_new in S.
  - left. apply stream_eof in S; [|discriminate]. destruct S as [[_ [_ S]]|S]; [discriminate|].
    apply eof_end_add_shebang; [discriminate|]. cbn [l_src] in S. rewrite <- (adv_moved _ _ _ M) in S. now rewrite <- adv_pos0.
  - apply stream_next in S as (l' & E & S). apply pnwt_inv in E as E2; [|discriminate]. destruct E2 as [I RS].
    apply stream_eof in S; [|assumption]. destruct S as [[-> _]|S]; [auto|]. left.
    apply ref_step_moved in RS as (u & M2). rewrite <- (adv_moved _ _ _ M2) in S. cbn [l_src] in S.
    rewrite <- (adv_moved _ _ _ M) in S. now rewrite <- adv_pos0.
Qed.

Lemma run_length c source rs : run c source rs -> (List.length rs <= S (List.length source))%nat.
Proof.
  assert (B : forall l rs, inv l -> stream c l rs -> (List.length rs <= todo l)%nat).
  { intros l rs0 I S. induction S as [l E|l r l' rs0 E S IH]; [cbn; lia|].
    pose proof (pnwt_todo _ _ _ _ I E) as T. apply pnwt_inv in E as [I' _]; [|assumption]. specialize (IH I'). cbn in *. lia. }
  assert (T : forall line s, moved (mkSrc source pos0) line s -> (todo (mkLexer s false []) <= S (List.length source))%nat).
  { intros line s M. apply moved_length in M. unfold todo. cbn in *. lia. }
  intros [rs' NS S|line s sb r rs' SB M F HN -> Nl S|line s r rs' SB M F HN Nl S NO].
  - apply B in S; [|discriminate]. exact S.
  - apply B in S; [|discriminate]. specialize (T _ _ M). cbn [List.length] in *. lia.
  - apply B in S; [|discriminate]. specialize (T _ _ M). cbn [List.length] in *. lia.
Qed.

(** ** Errors *)

Definition error_in (source : text) (e : tok_error) : Prop :=
  exists a b d, source = a ++ b ++ d /\ b <> [] /\ te_range e = (pos_of a, pos_of (a ++ b)).

Definition error_from (s : src) (e : tok_error) : Prop :=
  exists a b d, s_rest s = a ++ b ++ d /\ b <> [] /\ te_range e = (adv (s_pos s) a, adv (s_pos s) (a ++ b)).

Lemma error_from_moved s u s' e : moved s u s' -> error_from s' e -> error_from s e.
Proof.
  intros [M1 M2] (a & b & d & E & N & R). exists (u ++ a), b, d. rewrite M1, E, R, M2, <- !adv_app.
  now rewrite <- !app_assoc.
Qed.

Lemma bad_step_error l es l' e : bad_step l es l' -> In e es -> error_from (l_src l) e.
Proof.
  intros (txt & e0 & [M1 M2] & N & _ & ->) [<-|[]]. exists [], txt, (s_rest (l_src l')).
  split; [exact M1|]. split; [assumption|]. cbn. now rewrite M2.
Qed.

Lemma pstep_errors c l t es l' e : pstep c l t es l' -> In e es -> error_from (l_src l) e.
Proof.
  intros [[_ ->]|[H _]] Hi; [destruct Hi|]. apply process_next_recovered in H as (B & _). eapply bad_step_error; eassumption.
Qed.

Lemma psteps_errors c l ts es l' e : psteps c l ts es l' -> In e es -> error_from (l_src l) e.
Proof.
  induction 1 as [l|l t es l1 ts es' l' P PS IH]; intros Hi; [destruct Hi|].
  apply in_app_or in Hi as [Hi|Hi]; [eapply pstep_errors; eassumption|].
  apply pstep_moved in P as (u & M & _). eapply error_from_moved; [eassumption|auto].
Qed.

Lemma ref_step_errors c l r l' e : ref_step c l (Some r) l' -> In e (errors_of r) -> error_from (l_src l) e.
Proof.
  intros H Hi. inversion H as [|l0 ts es l1 e0 l2 P F R|l0 ld es l1 t es1 l2 tr l3 r0 P F P2 Nt P3 T1 T2 ER]; subst.
  - cbn in Hi. apply process_next_fatal in R. apply psteps_moved in P as (u & M). eapply error_from_moved; [eassumption|].
    eapply bad_step_error; eassumption.
  - assert (Hi' : In e (es ++ es1)) by (destruct (es ++ es1); exact Hi).
    apply in_app_or in Hi' as [Hi'|Hi']; [eapply psteps_errors; eassumption|].
    apply psteps_moved in P as (u & M). eapply error_from_moved; [eassumption|]. eapply pstep_errors; eassumption.
Qed.

Lemma stream_errors c l rs : stream c l rs -> forall e, In e (all_errors rs) -> error_from (l_src l) e.
Proof.
  induction 1 as [l E|l r l' rs E S IH]; intros e Hi; [destruct Hi|].
  pose proof (process_next_with_trivia_spec c l) as RS. rewrite E in RS.
  apply in_app_or in Hi as [Hi|Hi]; [eapply ref_step_errors; eassumption|].
  apply ref_step_moved in RS as (u & M). eapply error_from_moved; eauto.
Qed.

Lemma error_from_in source e : error_from (mkSrc source pos0) e -> error_in source e.
Proof. intros (a & b & d & E & N & R). exists a, b, d. split; [exact E|]. split; [exact N|]. cbn [s_pos] in R. now rewrite !adv_pos0 in R. Qed.

Lemma run_errors c source rs : run c source rs -> forall e, In e (all_errors rs) -> error_in source e.
Proof.
  intros [rs' NS S|line s sb r rs' SB M F HN -> Nl S|line s r rs' SB M F HN Nl S NO] e Hi; apply error_from_in.
  - eapply (stream_errors c (new_lazy source)); eassumption.
  - eapply error_from_moved; [eassumption|]. eapply (stream_errors c (mkLexer s false [])); [eassumption|]. exact Hi.
  - eapply error_from_moved; [eassumption|]. eapply (stream_errors c (mkLexer s false [])); [eassumption|].
    apply in_or_app. now right.
Qed.

(** ** Trivia *)

Definition ref_shape (r : tokref) : Prop :=
  is_trivia (t_type (r_token r)) = false /\
  Forall (fun t => is_trivia (t_type t) = true) (r_leading r ++ r_trailing r) /\
  forall a t b w, r_trailing r = a ++ t :: b -> t_type t = TWhitespace w -> In c_nl w -> b = [].

Lemma ref_step_shape c l r l' tr : ref_step c l (Some r) l' -> ref_of r = Some tr -> ref_shape tr.
Proof.
  intros H Hr. inversion H as [|l0 ts es l1 e0 l2 P F R|l0 ld es l1 t es1 l2 tr0 l3 r0 P F P2 Nt P3 T1 T2 ER]; subst; [discriminate|].
  assert (tr = mkRef ld t tr0) as -> by (destruct (es ++ es1); cbn in Hr; congruence).
  split; [assumption|]. cbn [r_leading r_trailing]. split; [apply Forall_app; split; [assumption|apply T1]|].
  intros a t' b w E Ht Hn. destruct T1 as [_ T1]. apply (T1 a t' b E). unfold is_newline_ws. rewrite Ht.
  apply existsb_exists. exists c_nl. split; [assumption|reflexivity].
Qed.

Lemma stream_shape c l rs : stream c l rs -> forall tr, In tr (refs_of rs) -> ref_shape tr.
Proof.
  induction 1 as [l E|l r l' rs E S IH]; intros tr Hi; [destruct Hi|].
  pose proof (process_next_with_trivia_spec c l) as RS. rewrite E in RS.
  unfold refs_of in Hi. cbn [flat_map] in Hi. apply in_app_or in Hi as [Hi|Hi]; [|auto].
  destruct (ref_of r) eqn:Er; [|destruct Hi]. destruct Hi as [->|[]]. eapply ref_step_shape; eassumption.
Qed.

Lemma run_shape c source rs : run c source rs -> forall tr, In tr (refs_of rs) -> ref_shape tr.
Proof.
  intros [rs' NS S|line s sb r rs' SB M F HN -> Nl S|line s r rs' SB M F HN Nl S NO] tr Hi.
  - eapply stream_shape; eassumption.
  - assert (H := stream_shape _ _ _ S). destruct Hi as [<-|Hi]; [|apply H; now right].
    destruct (H r) as (H1 & H2 & H3); [now left|]. split; [assumption|]. split; [|assumption]. constructor; [reflexivity|assumption].
  - apply (stream_shape _ _ _ S). unfold refs_of. cbn [flat_map]. apply in_or_app. now right.
Qed.

(** ** Origin of the tokens of a run *)

(** [t] was cut out of [source] between the prefix [u] and the suffix [v] by the lexer in some state. *)
Definition cut (c : cfg) (source : text) (t : token) (u v : text) : Prop :=
  exists l l', s_rest (l_src l) = show_token t ++ v /\ s_pos (l_src l) = pos_of u /\ source = u ++ show_token t ++ v /\
    l_src l' = mkSrc v (adv (pos_of u) (show_token t)) /\ process_next c l = Done (Some (LOk t), l').

Lemma moved_pos source u s : moved (mkSrc source pos0) u s -> source = u ++ s_rest s /\ s_pos s = pos_of u.
Proof. intros [M1 M2]. split; [exact M1|]. now rewrite M2, <- adv_pos0. Qed.

Lemma pstep_cut c source u l t l' : moved (mkSrc source pos0) u (l_src l) -> pstep c l t [] l' -> cut c source t u (s_rest (l_src l')).
Proof.
  intros M P. assert (P' := pstep_ok_good _ _ _ _ P). destruct P' as ([M1 M2] & _).
  apply moved_pos in M as [E1 E2]. exists l, l'. split; [assumption|]. split; [assumption|]. split; [congruence|].
  split; [|destruct P as [[P _]|[_ P]]; [assumption|congruence]]. rewrite <- E2, <- M2. now destruct (l_src l').
Qed.

(** Every token of an error-free reference is a shebang or was cut out of the source. *)
Lemma run_cut c source rs : run c source rs -> forall tr t, In (LOk tr) rs -> In t (ref_tokens tr) ->
  (exists w, t_type t = TShebang w) \/ exists u v, cut c source t u v.
Proof.
  intros R tr t Hi Ht.
  assert (G : forall l rs, stream c l rs -> (exists u, moved (mkSrc source pos0) u (l_src l)) -> In (LOk tr) rs -> exists u v, cut c source t u v).
  { intros l rs0 S (u & M) Hin. destruct (stream_origin _ _ _ S _ _ _ Hin eq_refl Ht) as (u' & l1 & l2 & es & M' & P & E).
    rewrite (E eq_refl) in P. exists (u ++ u'), (s_rest (l_src l2)). apply (pstep_cut c source _ l1); [|assumption]. eapply moved_app; eassumption. }
  destruct R as [rs' NS S|line s sb r rs' SB M F HN -> Nl S|line s r rs' SB M F HN Nl S NO].
  - right. eapply G; [eassumption| |eassumption]. exists []. apply moved_nil.
  - destruct Hi as [Hi|Hi].
    + injection Hi as <-. destruct Ht as [<-|Ht]; [left; eexists; reflexivity|]. right.
      destruct (stream_origin _ _ _ S _ _ t (or_introl eq_refl) eq_refl Ht) as (u' & l1 & l2 & es & M' & P & E).
      rewrite (E eq_refl) in P. exists (line ++ u'), (s_rest (l_src l2)). apply (pstep_cut c source _ l1); [|assumption]. eapply moved_app; eassumption.
    + right. eapply G; [eassumption| |right; eassumption]. eexists. exact M.
  - right. eapply G; [eassumption| |right; eassumption]. eexists. exact M.
Qed.
