(** From single steps to whole runs: words, operators, long brackets, strings, numerals. Proof file. *)
From Verif Require Import Lexer LexerFacts LexerFacts2 LexerCases LexerStep LexerStream LexerSpec LexerProofs LexerTheorems LexerTheorems2 LexerTheorems3 TokenSpec TokenProofs.
From Coq Require Import Lia ZifyBool ZifyNat ZifyN.
Local Open Scope N_scope.
Arguments ch a : simpl never.
Arguments advance p c : simpl never.

Lemma errors_of_new {A} (a : A) es : (match lexres_new a es with LOk _ => [] | LRecovered _ e => e | LFatal e => e end) = es.
Proof. destruct es; reflexivity. Qed.

Lemma ref_step_origin c l r l' t : ref_step c l (Some r) l' -> forall tr, ref_of r = Some tr -> In t (ref_tokens tr) ->
  exists u l1 l2 es, moved (l_src l) u (l_src l1) /\ pstep c l1 t es l2 /\ incl es (errors_of r).
Proof.
  intros H tr Hr Hi. inversion H as [|l0 ts es l1 e l2 P F R|l0 ld es l1 t0 es1 l3 tr0 l4 r0 P1 F P2 Nt P3 T1 T2 ER]; subst; [discriminate|].
  assert (tr = mkRef ld t0 tr0) by (destruct (es ++ es1); cbn in Hr; congruence). subst tr.
  unfold errors_of. rewrite errors_of_new. clear Hr H.
  unfold ref_tokens in Hi. cbn [r_leading r_token r_trailing] in Hi.
  apply in_app_or in Hi as [Hi|[Hi|Hi]].
  - apply in_split in Hi as (a & b & ->). apply psteps_split in P1 as (e1 & e2 & e3 & l5 & l6 & -> & PA & PT & PB).
    apply psteps_moved in PA as (u & M). exists u, l5, l6, e2. split; [exact M|]. split; [exact PT|].
    intros x Hx. apply in_or_app. left. apply in_or_app. right. apply in_or_app. now left.
  - subst t0. apply psteps_moved in P1 as (u & M). exists u, l1, l3, es1. split; [exact M|]. split; [exact P2|].
    intros x Hx. apply in_or_app. now right.
  - apply in_split in Hi as (a & b & ->). apply psteps_split in P3 as (e1 & e2 & e3 & l5 & l6 & E & PA & PT & PB).
    symmetry in E. apply app_eq_nil in E as [-> E]. apply app_eq_nil in E as [-> ->].
    apply psteps_moved in P1 as (u1 & M1). apply pstep_moved in P2 as (u2 & M2 & _). apply psteps_moved in PA as (u3 & M3).
    exists (u1 ++ u2 ++ u3), l5, l6, []. split; [|split; [exact PT|intros x []]].
    eapply moved_app; [eassumption|]. eapply moved_app; eassumption.
Qed.

Lemma stream_origin2 c l rs : stream c l rs -> forall r tr t, In r rs -> ref_of r = Some tr -> In t (ref_tokens tr) ->
  exists u l1 l2 es, moved (l_src l) u (l_src l1) /\ pstep c l1 t es l2 /\ incl es (errors_of r).
Proof.
  induction 1 as [l E|l r0 l' rs E S IH]; intros r tr t Hi Hr Ht; [destruct Hi|].
  pose proof (process_next_with_trivia_spec c l) as RS. rewrite E in RS.
  destruct Hi as [->|Hi].
  - eapply ref_step_origin; eassumption.
  - destruct (IH r tr t Hi Hr Ht) as (u & l1 & l2 & es & M & P & C). apply ref_step_moved in RS as (v & Mv).
    exists (v ++ u), l1, l2, es. split; [eapply moved_app; eassumption|]. auto.
Qed.

Lemma stream_fatal c l rs : stream c l rs -> forall e, In (LFatal e) rs ->
  exists u l1 l2, moved (l_src l) u (l_src l1) /\ process_next c l1 = Done (Some (LFatal e), l2).
Proof.
  induction 1 as [l E|l r0 l' rs E S IH]; intros e Hi; [destruct Hi|].
  pose proof (process_next_with_trivia_spec c l) as RS. rewrite E in RS.
  destruct Hi as [->|Hi].
  - inversion RS as [|l0 ts es l1 e' l2 P F R|l0 ld es l1 t0 es1 l3 tr0 l4 r0 P1 F P2 Nt P3 T1 T2 ER]; subst.
    + apply psteps_moved in P as (u & M). eauto.
    + destruct (es ++ es1); discriminate ER.
  - destruct (IH e Hi) as (u & l1 & l2 & M & P). apply ref_step_moved in RS as (v & Mv).
    exists (v ++ u), l1, l2. split; [eapply moved_app; eassumption|]. auto.
Qed.

(** A token of a run: either the shebang, or produced by one step at a prefix [u] of the source. *)
Definition produced (c : cfg) (source : text) (rs : list (lexres tokref)) (t : token) : Prop :=
  exists u l l' es, source = u ++ s_rest (l_src l) /\ t_start t = pos_of u /\ pcase c l l' (t_type t) es /\
    incl es (all_errors rs) /\ (forall e, In e es -> fst (te_range e) = t_start t).

Lemma pstep_error_start c l t es l' e : pstep c l t es l' -> In e es -> fst (te_range e) = s_pos (l_src l).
Proof.
  intros [[_ ->]|[H _]]; [intros []|]. apply process_next_recovered in H as ((txt & k & M & _ & _ & ->) & _). intros [<-|[]]. reflexivity.
Qed.

Lemma run_case c source rs t : run c source rs -> In t (tokens_of rs) -> (exists w, t_type t = TShebang w) \/ produced c source rs t.
Proof.
  intros R Hi.
  assert (G : forall l rs0 rs1, stream c l rs0 -> (exists u, moved (mkSrc source pos0) u (l_src l)) -> In t (tokens_of rs0) ->
     incl (all_errors rs0) (all_errors rs1) -> produced c source rs1 t).
  { intros l rs0 rs1 S (u & M) Ht Hinc. unfold tokens_of in Ht. apply in_flat_map in Ht as (r & Hr & Ht). apply in_refs_of in Hr as (x & Hx & Hr).
    destruct (stream_origin2 _ _ _ S _ _ _ Hx Hr Ht) as (u' & l1 & l2 & es & M' & P & Ei).
    assert (M2 := moved_app _ _ _ _ _ M M'). apply moved_pos in M2 as [E1 E2].
    destruct (pstep_case _ _ _ _ _ P) as [E3 PC].
    exists (u ++ u'), l1, l2, es. repeat split; auto; [congruence| |].
    - intros e He. apply Hinc. unfold all_errors. apply in_flat_map. exists x. auto.
    - intros e He. rewrite E3. eapply pstep_error_start; eassumption. }
  destruct R as [rs' NS S|line s sb r rs' SB M F HN -> Nl S|line s r rs' SB M F HN Nl S NO].
  - right. eapply G; [eassumption| |eassumption|apply incl_refl]. exists []. apply moved_nil.
  - change (tokens_of (LOk (add_shebang (mkToken pos0 (s_pos s) (TShebang line)) r) :: rs')) with
      (mkToken pos0 (s_pos s) (TShebang line) :: tokens_of (LOk r :: rs')) in Hi.
    destruct Hi as [<-|Hi]; [left; eexists; reflexivity|]. right. eapply G; [eassumption| |eassumption|apply incl_refl]. eexists. exact M.
  - apply stream_next in S as (l' & E & S). right. eapply G; [eassumption| |eassumption|apply incl_refl].
    pose proof (process_next_with_trivia_spec c (mkLexer s false [])) as RS. rewrite E in RS.
    apply ref_step_moved in RS as (v & M2). eexists. eapply moved_app; eassumption.
Qed.

Ltac origin H Hi Ht := let E := fresh "E" in
  apply tokenize_done in H; destruct (run_case _ _ _ _ H Hi) as [(? & E)|(u & l & l' & es & Hs & Hp & PC & Hinc & Hst)];
  [rewrite E in Ht; discriminate|]; rewrite Ht in PC.

Ltac not_word := try match goal with H : match sym_from_str ?c ?w with _ => _ end = _ |- _ => destruct (sym_from_str c w); discriminate H end.

(** ** C07 *)
Lemma identifiers_are_words c source rs t w : tokenize c source = Done rs -> In t (tokens_of rs) -> t_type t = TIdentifier w ->
  is_word w /\ ~ In w (reserved_words c) /\
  exists u v, source = u ++ w ++ v /\ t_start t = pos_of u /\ not_continued word_part v.
Proof.
  intros H Hi Ht. origin H Hi Ht.
  inversion PC as [|w0 W E NC E2 E3| | | | | | | | | | | | | |]; subst.
  destruct (sym_from_str c w0) as [sy|] eqn:ES; [discriminate|]. injection E2 as ->.
  split; [assumption|]. split.
  - intros Hin. apply reserved_sym in Hin as (sy & E1 & E2 & _). eapply sym_from_str_none; eassumption.
  - exists u, (s_rest (l_src l')). rewrite <- E. auto.
Qed.

Lemma keywords_are_words c source rs t sy : tokenize c source = Done rs -> In t (tokens_of rs) -> t_type t = TSymbol sy ->
  is_word (sym_text sy) ->
  In (sym_text sy) (reserved_words c) /\
  exists u v, source = u ++ sym_text sy ++ v /\ t_start t = pos_of u /\ not_continued word_part v.
Proof.
  intros H Hi Ht Hw. origin H Hi Ht. pose proof (proj2 (is_op_word sy) Hw) as Hop.
  inversion PC as [|w0 W E NC E2 E3| | | | | | | | | | | | | |sy0 Hop' E HL HE]; subst; [|congruence].
  destruct (sym_from_str c w0) as [sy0|] eqn:ES; [|discriminate]. injection E2 as ->.
  apply sym_from_str_text in ES as [E1 E2]. split.
  - now apply (proj2 (sym_table c sy)).
  - exists u, (s_rest (l_src l')). rewrite E1, <- E. auto.
Qed.

Lemma read_word_complete w : forall v pos acc, forallb word_part w = true -> not_continued word_part v ->
  read_word (w ++ v) pos acc = (acc ++ w, mkSrc v (adv pos w)).
Proof.
  induction w as [|x w IH]; intros v pos acc F N; cbn [app].
  - rewrite app_nil_r. destruct v as [|x v]; [reflexivity|]. cbn [read_word].
    specialize (N x v eq_refl). fold (word_char x). rewrite word_part_is, N. reflexivity.
  - cbn in F. apply andb_true_iff in F as [F1 F2]. cbn [read_word]. fold (word_char x). rewrite word_part_is, F1, IH by assumption.
    rewrite <- app_assoc. reflexivity.
Qed.

Lemma process_next_word c l w v : s_rest (l_src l) = w ++ v -> is_word w -> not_continued word_part v ->
  process_next c l = Done (Some (LOk (mkToken (s_pos (l_src l)) (adv (s_pos (l_src l)) w)
     (match sym_from_str c w with Some sy => TSymbol sy | None => TIdentifier w end))),
     with_src l (mkSrc v (adv (s_pos (l_src l)) w))).
Proof.
  intros E (x & r & -> & L & F) N. unfold process_next, src_next. rewrite E. cbn [app s_rest s_pos].
  rewrite letter_ident, L, read_word_complete by assumption. cbn [app]. reflexivity.
Qed.

Lemma word_is_one_token c l w v : s_rest (l_src l) = w ++ v -> is_word w -> not_continued word_part v ->
  exists t l', process_next c l = Done (Some (LOk t), l') /\ s_rest (l_src l') = v /\
    ((In w (reserved_words c) /\ exists sy, t_type t = TSymbol sy /\ sym_text sy = w) \/
     (~ In w (reserved_words c) /\ t_type t = TIdentifier w)).
Proof.
  intros E W N. rewrite (process_next_word c l w v E W N). do 2 eexists. split; [reflexivity|]. split; [reflexivity|]. cbn [t_type].
  destruct (sym_from_str c w) as [sy|] eqn:ES.
  - left. apply sym_from_str_text in ES as [E1 E2]. split; [|eauto]. rewrite <- E1.
    apply (proj2 (sym_table c sy)); [|assumption]. apply is_op_word. now rewrite E1.
  - right. split; [|reflexivity]. intros Hin. apply reserved_sym in Hin as (sy & E1 & E2 & _). eapply sym_from_str_none; eassumption.
Qed.

(** ** C08 *)
Lemma operators_longest c source rs t sy : tokenize c source = Done rs -> In t (tokens_of rs) -> t_type t = TSymbol sy ->
  ~ is_word (sym_text sy) ->
  exists u v, source = u ++ sym_text sy ++ v /\ t_start t = pos_of u /\
    (cfg_ok c -> In (sym_text sy) (operators c)) /\
    forall op v', In op (operators c) -> sym_text sy ++ v = op ++ v' -> (List.length op <= List.length (sym_text sy))%nat.
Proof.
  intros H Hi Ht Hw. origin H Hi Ht.
  assert (Hop : is_op sy = true) by (destruct (is_op sy) eqn:E0; [reflexivity|]; now apply is_op_word in E0).
  inversion PC as [|w0 W E NC E2 E3| | | | | | | | | | | | | |sy0 Hop' E HL HE]; subst.
  - destruct (sym_from_str c w0) as [sy0|] eqn:ES; [|discriminate]. injection E2 as ->.
    apply sym_from_str_text in ES as [E1 E2]. subst. contradiction.
  - exists u, (s_rest (l_src l')). rewrite <- E. split; [reflexivity|]. split; [assumption|]. split.
    + intros CO. apply (proj1 (sym_table c sy) Hop). apply HE. now apply cfg_ok_cfx53.
    + intros op v' Hin Eop. apply operator_sym in Hin as (sy' & <- & En & _). eapply HL; eassumption.
Qed.

Lemma fatal_only_unknown c source rs e : tokenize c source = Done rs -> In (LFatal e) rs ->
  exists u x v k, source = u ++ x :: v /\ e = [mkTokError k (pos_of u, pos_of (u ++ [x]))] /\
    (forall op v', In op (operators c) \/ In op (reserved_words c) -> x :: v <> op ++ v').
Proof.
  intros H Hi. apply tokenize_done in H.
  assert (G : forall l rs0, stream c l rs0 -> (exists u, moved (mkSrc source pos0) u (l_src l)) -> In (LFatal e) rs0 ->
    exists u x v k, source = u ++ x :: v /\ e = [mkTokError k (pos_of u, pos_of (u ++ [x]))] /\
    (forall op v', In op (operators c) \/ In op (reserved_words c) -> x :: v <> op ++ v')).
  { intros l rs0 S (u & M) Hf. destruct (stream_fatal _ _ _ S _ Hf) as (u' & l1 & l2 & M' & P).
    assert (M2 := moved_app _ _ _ _ _ M M'). pose proof (process_next_cases c l1) as HC. rewrite P in HC. cbn [next_ok] in HC.
    remember (Some (LFatal e)) as o eqn:Ho.
    destruct HC as [ | | | | | d r0 res s HR Hx R0 | d r0 res s HR Hx Hv R0
    | d r0 res s HR Hx Hv R0 | d r0 res s HR Hx R0 | r0 res l3 HR Hv R0 | r0 bs res l3 HR Hv Hb R0
    | q r0 qt lit rec s HR Hq Hv R0 | r0 n b s HR R0 | r0 n b s HR R0 | r0 tt rec s HR R0 | r0 tt rec s HR Hv R0
    | | d s k M3 He HN ]; try discriminate.
    - injection Ho as ->. apply read_hex_number_spec in R0 as (? & _ & [(R0 & _)|R0]); [discriminate|discriminate|cbn; lia].
    - injection Ho as ->. apply read_binary_number_spec in R0 as (? & _ & [(R0 & _)|R0]); [discriminate|discriminate|cbn; lia].
    - injection Ho as ->. apply read_number_spec in R0 as (? & _ & [(R0 & _)|R0]); discriminate.
    - injection Ho as ->. apply read_number_spec in R0 as (? & _ & [(R0 & _)|R0]); discriminate.
    - injection Ho as ->. apply istr_type in R0 as (? & ? & ? & ? & [R0|[R0 _]]); discriminate.
    - injection Ho as ->. apply istr_type in R0 as (? & ? & ? & ? & [R0|[R0 _]]); discriminate.
    - destruct rec; discriminate.
    - destruct rec; discriminate.
    - destruct rec; discriminate.
    - injection Ho as <-. pose proof (moved_app _ _ _ _ _ M2 M3) as M4.
      apply moved_pos in M2 as [E1 E2]. destruct M3 as [M3 _]. apply moved_pos in M4 as [_ E4].
      exists (u ++ u'), d, (s_rest s), k. cbn [app] in M3. split; [congruence|]. rewrite E2, E4. split; [reflexivity|].
      intros op v' Hin Eop. assert (exists sy, sym_text sy = op /\ sym_enabled c sy = true) as (sy & <- & En).
      { destruct Hin as [Hin|Hin]; [apply operator_sym in Hin|apply reserved_sym in Hin]; destruct Hin as (sy & ? & ? & _); eauto. }
      apply (HN sy v' En). congruence. }
  destruct H as [rs' NS S|line s sb r rs' SB M F HN -> Nl S|line s r rs' SB M F HN Nl S NO].
  - eapply G; [eassumption| |eassumption]. exists []. apply moved_nil.
  - destruct Hi as [Hi|Hi]; [discriminate|]. eapply G; [eassumption| |right; eassumption]. eexists. exact M.
  - eapply G; [eassumption| |right; eassumption]. eexists. exact M.
Qed.

(** ** C10 *)
Lemma symbol_text_round_trip c :
  (forall sy, sym_from_str c (sym_text sy) = if sym_enabled c sy then Some sy else None) /\
  (forall a b, sym_text a = sym_text b -> a = b) /\
  (forall w sy, sym_from_str c w = Some sy -> sym_text sy = w) /\
  (forall w, (exists sy, sym_from_str c w = Some sy) <-> In w (reserved_words c) \/ In w (operators c)).
Proof.
  split; [|split; [apply sym_text_inj|split]].
  - intros sy. destruct (sym_enabled c sy) eqn:E; [now apply sym_from_str_complete|now apply sym_from_str_disabled].
  - intros w sy H. now apply sym_from_str_text in H.
  - intros w. split.
    + intros (sy & H). apply sym_from_str_text in H as [<- H]. destruct (is_op sy) eqn:E; [right|left]; now apply sym_table.
    + intros [H|H]; [apply reserved_sym in H|apply operator_sym in H]; destruct H as (sy & <- & H & _);
      exists sy; now apply sym_from_str_complete.
Qed.

(** ** C13 *)
Lemma long_string_first_close c source rs t b n : tokenize c source = Done rs -> In t (tokens_of rs) ->
  t_type t = TStringLiteral b n QBrackets ->
  exists u full, source = u ++ long_bracket_open n ++ full /\ t_start t = pos_of u /\
    ((exists v, closes_first n full b v) \/
     (never_closes n full /\ b = full /\ exists e, In e (all_errors rs) /\ te_error e = UnclosedString /\ fst (te_range e) = pos_of u)).
Proof.
  intros H Hi Ht. origin H Hi Ht.
  inversion PC as [| | | | | |q qt b0 Hq|q qt b0 e Hq|n0 full b0 E F|n0 b0 e E F G K| | | | | |]; subst; not_word; try discriminate Hq.
  - exists u, full. split; [congruence|]. split; [assumption|]. left. eauto.
  - exists u, b. split; [congruence|]. split; [assumption|]. right. split; [assumption|]. split; [reflexivity|].
    exists e. split; [apply Hinc; now left|]. split; [assumption|]. rewrite <- Hp. apply Hst. now left.
Qed.

Lemma long_comment_first_close c source rs t b n : tokenize c source = Done rs -> In t (tokens_of rs) ->
  t_type t = TMultiLineComment n b ->
  exists u full, source = u ++ str "--" ++ long_bracket_open n ++ full /\ t_start t = pos_of u /\
    ((exists v, closes_first n full b v) \/
     (never_closes n full /\ b = full /\ exists e, In e (all_errors rs) /\ te_error e = UnclosedComment /\ fst (te_range e) = pos_of u)).
Proof.
  intros H Hi Ht. origin H Hi Ht.
  inversion PC as [| | | | | | | | | |n0 full b0 E F|n0 b0 e E F G K| | | |]; subst; not_word.
  - exists u, full. split; [congruence|]. split; [assumption|]. left. eauto.
  - exists u, b. split; [congruence|]. split; [assumption|]. right. split; [assumption|]. split; [reflexivity|].
    exists e. split; [apply Hinc; now left|]. split; [assumption|]. rewrite <- Hp. apply Hst. now left.
Qed.

Lemma line_comment_to_line_end c source rs t b : tokenize c source = Done rs -> In t (tokens_of rs) ->
  t_type t = TSingleLineComment b ->
  exists u v, source = u ++ str "--" ++ b ++ v /\ t_start t = pos_of u /\ ~ In 10 b /\ not_continued (fun x => negb (x =? 10)) v /\
    (forall n w, b ++ v <> long_bracket_open n ++ w).
Proof.
  intros H Hi Ht. origin H Hi Ht.
  inversion PC as [| | | | | | | | | | | |b0 E F G K| | |]; subst; not_word.
  exists u, (s_rest (l_src l')). split; [congruence|]. split; [assumption|]. split; [|auto].
  intros Hin. rewrite forallb_forall in F. specialize (F _ Hin). discriminate.
Qed.

Lemma closes_first_app n b r : closes_first n (b ++ long_bracket_close n ++ r) b r <->
  forall u v, b ++ long_bracket_close n ++ r = u ++ long_bracket_close n ++ v -> (List.length b <= List.length u)%nat.
Proof. split; [intros [_ H]; exact H|intros H; split; [reflexivity|exact H]]. Qed.

Lemma eqs_bracket_inj n : forall m (x y : text), eqs n ++ 91 :: x = eqs m ++ 91 :: y -> n = m /\ x = y.
Proof.
  induction n as [|n IH]; intros [|m] x y E; cbn [eqs repeat app] in E.
  - injection E as ->. auto.
  - discriminate.
  - discriminate.
  - injection E as E. apply IH in E as [-> ->]. auto.
Qed.
Lemma long_bracket_open_inj n m (x y : text) : long_bracket_open n ++ x = long_bracket_open m ++ y -> n = m /\ x = y.
Proof.
  unfold long_bracket_open. rewrite <- !app_assoc. cbn [app]. intros [= E]. now apply eqs_bracket_inj.
Qed.

Lemma app_length_eq {A} (a b x y : list A) : List.length a = List.length b -> a ++ x = b ++ y -> a = b /\ x = y.
Proof.
  revert b. induction a as [|h a IH]; intros [|k b] L E; try discriminate; [auto|].
  cbn in *. injection E as -> E. injection L as L. destruct (IH b L E) as [-> ->]. auto.
Qed.

Lemma closes_first_unique n full b r b' r' : closes_first n full b r -> closes_first n full b' r' -> b = b' /\ r = r'.
Proof.
  intros [E H] [E' H']. pose proof (H _ _ E'). pose proof (H' _ _ E).
  rewrite E in E'. apply app_length_eq in E' as [-> E']; [|lia]. apply app_inv_head in E'. auto.
Qed.

(** The reader finds the first closer whatever the text is. *)
Lemma read_multi_line_body_long n full s res s' : s_rest s = eqs n ++ 91 :: full -> read_multi_line_body s = (res, s') ->
  (exists b r, closes_first n full b r /\ res = MOk n b /\ s_rest s' = r) \/ (never_closes n full /\ res = MUnclosed n full /\ s_rest s' = []).
Proof.
  intros E R. apply read_multi_line_body_spec in R as (m & R). destruct res as [k b|k|k b].
  - destruct R as (-> & full' & E2 & F & _). rewrite E in E2. apply eqs_bracket_inj in E2 as [-> <-]. left. eauto.
  - exfalso. destruct R as (-> & [E2 _] & Hd). rewrite E in E2. clear E.
    assert (C : forall a b x y, eqs a ++ 91 :: x = repeat_eq b ++ y -> head_not (fun c => (c =? ch "=") || (c =? ch "[")) y -> False).
    { induction a as [|a IH]; intros [|b] x y Q Hy; cbn [eqs repeat repeat_eq app] in Q.
      - subst y. discriminate Hy.
      - discriminate.
      - subst y. discriminate Hy.
      - injection Q as Q. eapply IH; eassumption. }
    eapply C; eassumption.
  - destruct R as (-> & E2 & F & E3 & _). rewrite E in E2. apply eqs_bracket_inj in E2 as [-> <-]. right. auto.
Qed.

Lemma long_string_step c l n full : s_rest (l_src l) = long_bracket_open n ++ full ->
  (forall b v, closes_first n full b v -> exists t l', process_next c l = Done (Some (LOk t), l') /\
     t_type t = TStringLiteral b n QBrackets /\ s_rest (l_src l') = v) /\
  (never_closes n full -> exists t e l', process_next c l = Done (Some (LRecovered t [e]), l') /\
     t_type t = TStringLiteral full n QBrackets /\ te_error e = UnclosedString /\ s_rest (l_src l') = []).
Proof.
  intros E. unfold long_bracket_open in E. rewrite <- !app_assoc in E. cbn [app] in E.
  assert (P : exists s res s', s_rest s = eqs n ++ 91 :: full /\ read_multi_line_body s = (res, s') /\
    process_next c l = match res with
      | MOk blocks body => Done (Some (LOk (mkToken (s_pos (l_src l)) (s_pos s') (TStringLiteral body blocks QBrackets))), with_src l s')
      | MUnclosed blocks body => Done (Some (LRecovered (mkToken (s_pos (l_src l)) (s_pos s') (TStringLiteral body blocks QBrackets))
           [mkTokError UnclosedString (s_pos (l_src l), s_pos s')]), with_src l s')
      | MNotMultiLine _ => yield_symbol l (s_pos (l_src l)) s SLeftBracket
      end).
  { assert (C : exists d r, eqs n ++ 91 :: full = d :: r /\ (d =? ch "[") || (d =? ch "=") = true).
    { destruct n; cbn [eqs repeat app]; do 2 eexists; (split; [reflexivity|reflexivity]). }
    destruct C as (d & r & C1 & C2). assert (E' : s_rest (l_src l) = 91 :: d :: r) by (rewrite E; f_equal; exact C1).
    destruct (read_multi_line_body (mkSrc (d :: r) (advance (s_pos (l_src l)) 91))) as [res s'] eqn:R.
    exists (mkSrc (d :: r) (advance (s_pos (l_src l)) 91)), res, s'. split; [symmetry; exact C1|]. split; [exact R|].
    unfold process_next, src_next. rewrite E'.
    change (is_identifier_start 91) with false. change (91 =? c_space) with false. change (91 =? c_tab) with false.
    change (91 =? c_cr) with false. change (91 =? c_dquote) with false. change (91 =? c_squote) with false.
    change (91 =? c_backtick) with false. change (91 =? c_nl) with false.
    change (91 =? ch "0") with false. change (in_range 49 57 91) with false. change (91 =? ch "=") with false.
    change (91 =? ch "~") with false. change (91 =? ch "(") with false. change (91 =? ch ")") with false. change (91 =? ch "[") with true.
    cbn [orb]. unfold src_current. cbn [s_rest]. rewrite C2, R. destruct res; reflexivity. }
  destruct P as (s & res & s' & Es & R & ->).
  destruct (read_multi_line_body_long n full s res s' Es R) as [(b & r & F & -> & E3)|(F & -> & E3)]; split.
  - intros b' v F'. destruct (closes_first_unique _ _ _ _ _ _ F F') as [<- <-]. do 2 eexists. split; [reflexivity|]. split; [reflexivity|exact E3].
  - intros N. destruct F as [F _]. exfalso. exact (N _ _ F).
  - intros b' v [F' _]. exfalso. exact (F _ _ F').
  - intros _. do 3 eexists. split; [reflexivity|]. split; [reflexivity|]. split; [reflexivity|exact E3].
Qed.

(** ** C14 *)
Lemma quoted_string_ends_at_quote c source rs t b qt q n : tokenize c source = Done rs -> In t (tokens_of rs) ->
  t_type t = TStringLiteral b n qt -> quote_char qt = Some q ->
  exists u, t_start t = pos_of u /\
    ((exists v, source = u ++ q :: b ++ q :: v /\ string_body q true b /\
        (has_lua52 c = false -> has_luau c = false -> has_luajit c = false -> string_body q false b)) \/
     (exists e, In e (all_errors rs) /\ te_error e = UnclosedString /\ fst (te_range e) = pos_of u /\
        (source = u ++ q :: b \/ exists d v, (d = 10 \/ d = 13) /\ source = u ++ q :: b ++ d :: v /\ string_body q true b))).
Proof.
  intros H Hi Ht Hq. origin H Hi Ht.
  inversion PC as [| | | | | |q0 qt0 b0 Hq0 E S1 S2|q0 qt0 b0 e Hq0 K E|n0 full b0 E F|n0 b0 e E F G K| | | | | |]; subst; not_word; try discriminate Hq.
  - rewrite Hq in Hq0. injection Hq0 as <-. exists u. split; [assumption|]. left. exists (s_rest (l_src l')). rewrite <- E. auto.
  - rewrite Hq in Hq0. injection Hq0 as <-. exists u. split; [assumption|]. right. exists e.
    split; [apply Hinc; now left|]. split; [assumption|]. split; [rewrite <- Hp; apply Hst; now left|].
    destruct E as [[E _]|(d & Hd & E & S)]; [left; now rewrite E|right; exists d, (s_rest (l_src l')); now rewrite E].
Qed.

Lemma string_step c l q qt b v : s_rest (l_src l) = q :: b ++ q :: v -> quote_char qt = Some q -> qt <> QBacktick -> string_body q false b ->
  exists t l', process_next c l = Done (Some (LOk t), l') /\ t_type t = TStringLiteral b O qt /\ s_rest (l_src l') = v.
Proof.
  intros E Hq Hb S. assert (Q : q = 34 /\ qt = QDouble \/ q = 39 /\ qt = QSingle).
  { destruct qt; try discriminate; [left|right|contradiction]; injection Hq as <-; auto. }
  assert (Q2 : q <> 92) by (destruct Q as [[-> _]|[-> _]]; discriminate).
  apply (string_escaped q false b Q2) in S as [S1 S2]. specialize (S2 eq_refl).
  assert (P : process_next c l = (let '(literal, recovered, s) := read_string_loop c q (b ++ q :: v) (advance (s_pos (l_src l)) q) [] false false in
              yield (create_recovered s (s_pos (l_src l)) (TStringLiteral literal O qt)
                       (recovered_errs recovered UnclosedString (s_pos (l_src l)) s)) (with_src l s))).
  { unfold process_next, src_next. rewrite E. cbn [s_rest s_pos]. destruct Q as [[-> ->]|[-> ->]];
    cbn -[read_string_loop process_next yield create_recovered with_src]; rewrite ?andb_false_r; cbn iota; reflexivity. }
  rewrite P, read_string_loop_complete; try assumption; [|destruct Q as [[-> _]|[-> _]]; discriminate|destruct Q as [[-> _]|[-> _]]; discriminate].
  cbn [app]. do 2 eexists. split; [reflexivity|]. split; reflexivity.
Qed.

(** ** C15 *)
Lemma numbers_are_loose_numerals c source rs t w : tokenize c source = Done rs -> In t (tokens_of rs) -> t_type t = TNumber w ->
  exists u v, source = u ++ w ++ v /\ t_start t = pos_of u /\
    (loose_numeral c w \/ exists e, In e (all_errors rs) /\ te_error e = InvalidNumber /\ fst (te_range e) = pos_of u).
Proof.
  intros H Hi Ht. origin H Hi Ht.
  inversion PC as [| | |w0 E W|w0 e E W| | | | | | | | | | |]; subst; not_word; exists u, (s_rest (l_src l')); rewrite <- E; (split; [reflexivity|]; split; [assumption|]).
  - now left.
  - right. exists e. split; [apply Hinc; now left|]. split; [assumption|]. rewrite <- Hp; apply Hst; now left.
Qed.

Lemma count_dots_app a b : count_occ N.eq_dec (a ++ b) 46%N = (count_occ N.eq_dec a 46%N + count_occ N.eq_dec b 46%N)%nat.
Proof. apply count_occ_app. Qed.

Lemma tail_head c ms e : incl ms [112; 80] -> tail c ms e ->
  e = [] \/ exists x r, e = x :: r /\ x <> 95 /\ x <> 46 /\ hexdigit x = false.
Proof.
  intros Hms [|t [m sg d ds Hm _ _ _]|t _ J].
  - now left.
  - right. do 2 eexists. split; [reflexivity|]. destruct (Hms m Hm) as [<-|[<-|[]]]; (split; [discriminate|split; [discriminate|reflexivity]]).
  - right. destruct J as [i [->| ->]|a b [->| ->] _|u a b [->| ->] _ _]; do 2 eexists; (split; [reflexivity|]); (split; [discriminate|split; [discriminate|reflexivity]]).
Qed.

(** A digit that is preceded by fillers only is found before the tail. *)
Lemma digit_before_tail (fill real : char -> bool) (m e a b : text) d :
  m ++ e = a ++ d :: b -> forallb fill a = true -> real d = true ->
  (e = [] \/ exists x r, e = x :: r /\ fill x = false /\ real x = false) -> existsb real m = true.
Proof.
  revert m. induction a as [|y a IH]; intros m E F D T; destruct m as [|x m]; cbn [app] in E.
  - destruct T as [->|(x & r & -> & _ & T)]; [discriminate|]. injection E as -> _. congruence.
  - injection E as -> _. cbn. now rewrite D.
  - cbn in F. apply andb_true_iff in F as [F _]. destruct T as [->|(x & r & -> & T & _)]; [discriminate|]. injection E as -> _. congruence.
  - injection E as -> E. cbn in F. apply andb_true_iff in F as [_ F]. cbn. rewrite (IH m E F D T). apply orb_true_r.
Qed.

Lemma loose_is_numeral c w : loose_numeral c w -> at_most_one_dot w -> has_radix_digit w -> numeral c w.
Proof.
  intros L D R. destruct L as [d m e Hd Hm Ht|d m e Hd Hm Ht|x m e Hx Hm Ht He|b m e Hv Hb Hm Ht He].
  - apply (num_dec c (d :: m) e); [|exists d, m; auto|assumption]. destruct Hm as [a Ha|a b0 _ Ha Hb].
    + apply wd_int; [|cbn; now rewrite Hd]. unfold digits in *. cbn. unfold digit_of at 1. now rewrite Hd.
    + apply (wd_dot _ _ _ (d :: a) b0); [reflexivity| |assumption|cbn; now rewrite Hd].
      unfold digits in *. cbn. unfold digit_of at 1. now rewrite Hd.
  - apply (num_dec c (46 :: d :: m) e); [|exists d, m; auto|assumption].
    remember (d :: m) as k eqn:Ek. destruct Hm as [a Ha|a b0 _ Ha Hb].
    + apply (wd_dot _ _ _ [] a); [reflexivity|reflexivity|assumption|]. subst a. cbn. now rewrite Hd.
    + exfalso. unfold at_most_one_dot in D.
      assert (E : 46 :: d :: m ++ e = [46] ++ a ++ [46] ++ b0 ++ e).
      { change (46 :: (d :: m) ++ e = [46] ++ a ++ [46] ++ b0 ++ e). rewrite <- Ek. cbn [app]. now rewrite <- app_assoc. }
      rewrite E, !count_dots_app in D. cbn in D. lia.
  - destruct (R x (m ++ e) eq_refl) as [R1 _]. specialize (R1 Hx) as (a & d & b & E & Fa & Hd).
    apply num_hex; [assumption| |assumption].
    assert (Real : existsb hexdigit m = true).
    { eapply digit_before_tail; [exact E|exact Fa|exact Hd|].
      apply tail_head in Ht; [|destruct (has_lua52 c); [apply incl_refl|intros ? []]].
      destruct Ht as [->|(y & r & -> & H1 & H2 & H3)]; [now left|right]. exists y, r. apply N.eqb_neq in H1, H2. rewrite H1, H2. auto. }
    destruct Hm as [a0 Ha|a0 b0 Hdot Ha Hb0]; [now apply wd_int|apply wd_dot; auto].
    rewrite existsb_app in *. cbn in Real. exact Real.
  - destruct (R b (m ++ e) eq_refl) as [_ R1]. specialize (R1 Hb) as (a & d & b0 & E & Fa & Hd).
    apply num_bin; try assumption.
    eapply digit_before_tail; [exact E|exact Fa|destruct Hd as [->| ->]; reflexivity|].
    apply tail_head in Ht; [|intros ? []].
    destruct Ht as [->|(y & r & -> & H1 & H2 & H3)]; [now left|right]. exists y, r. split; [reflexivity|]. split; [now apply N.eqb_neq|].
    destruct (y =? 48) eqn:E1; [apply N.eqb_eq in E1; subst; discriminate|]. destruct (y =? 49) eqn:E2; [apply N.eqb_eq in E2; subst; discriminate|]. reflexivity.
Qed.

(** Under plain Lua 5.1 nothing is missing after a prefix, and only the second dot is wrong. *)
Lemma loose_is_numeral_51 c w : has_lua52 c = false -> has_luau c = false -> has_luajit c = false ->
  loose_numeral c w -> at_most_one_dot w -> numeral c w.
Proof.
  intros H52 Hu Hj L D. apply loose_is_numeral; [assumption|assumption|].
  intros x r E. split; intros Hx.
  - assert (Hnd : digit x = false /\ x <> 46 /\ x <> 101 /\ x <> 69) by (destruct Hx as [->| ->]; repeat split; discriminate).
    destruct Hnd as (N1 & N2 & N3 & N4).
    destruct L as [d m e Hd Hm Ht|d m e Hd Hm Ht|x0 m e Hx0 Hm Ht He|b m e Hv Hb Hm Ht He].
    + exfalso. injection E as -> E.
      assert (Hh : m = [] \/ exists y k, m = y :: k /\ (digit y = true \/ y = 46)).
      { destruct Hm as [[|y a] Ha|[|y a] b _ Ha _]; [now left| | |]; right; do 2 eexists; (split; [reflexivity|]); auto;
        unfold digits in Ha; cbn in Ha; apply andb_true_iff in Ha as [Ha _]; unfold digit_of in Ha; rewrite Hu, orb_false_r in Ha; auto. }
      destruct Hh as [->|(y & k & -> & Hy)]; cbn [app] in E.
      * subst e. inversion Ht as [|t0 [m sg d ds Hm' _ _ _] E|t0 Hj' _]; subst; [|congruence].
        destruct Hm' as [<-|[<-|[]]]; congruence.
      * injection E as -> _. destruct Hy; congruence.
    + discriminate.
    + injection E as -> <-. destruct m as [|y m]; [destruct (He eq_refl); congruence|].
      exists [], y, (m ++ e). split; [reflexivity|]. split; [reflexivity|].
      inversion Hm as [a Ha Ea|a b Hdot _ _ Ea]; [|rewrite H52 in Hdot; discriminate]. subst a.
      unfold digits in Ha. cbn in Ha. apply andb_true_iff in Ha as [Ha _]. unfold hexdigit_of in Ha. now rewrite Hu, orb_false_r in Ha.
    + destruct Hv; congruence.
  - exfalso. assert (Hnd : digit x = false /\ x <> 46 /\ x <> 101 /\ x <> 69 /\ x <> 120 /\ x <> 88) by (destruct Hx as [->| ->]; repeat split; discriminate).
    destruct Hnd as (N1 & N2 & N3 & N4 & N5 & N6).
    destruct L as [d m e Hd Hm Ht|d m e Hd Hm Ht|x0 m e Hx0 Hm Ht He|b m e Hv Hb Hm Ht He].
    + injection E as -> E.
      assert (Hh : m = [] \/ exists y k, m = y :: k /\ (digit y = true \/ y = 46)).
      { destruct Hm as [[|y a] Ha|[|y a] b _ Ha _]; [now left| | |]; right; do 2 eexists; (split; [reflexivity|]); auto;
        unfold digits in Ha; cbn in Ha; apply andb_true_iff in Ha as [Ha _]; unfold digit_of in Ha; rewrite Hu, orb_false_r in Ha; auto. }
      destruct Hh as [->|(y & k & -> & Hy)]; cbn [app] in E.
      * subst e. inversion Ht as [|t0 [m sg d ds Hm' _ _ _] E|t0 Hj' _]; subst; [|congruence].
        destruct Hm' as [<-|[<-|[]]]; congruence.
      * injection E as -> _. destruct Hy; congruence.
    + discriminate.
    + injection E as -> _. destruct Hx0; congruence.
    + destruct Hv; congruence.
Qed.

(** ** C11 *)
Lemma has_bit_or a b k : has_bit (N.lor a b) (2 ^ k) = has_bit a (2 ^ k) || has_bit b (2 ^ k).
Proof. rewrite !has_bit_testbit. apply N.lor_spec. Qed.

Definition bit_of (d : dialect) : N :=
  match d with Luau => 0 | Lua52 => 1 | Lua53 => 2 | Lua54 => 3 | LuaJIT => 4 | CfxLua => 5 end.
Lemma has_is d f v : has d f v = feature f d && has_bit v (2 ^ bit_of d).
Proof. destruct d; reflexivity. Qed.
Lemma has_or d f a b : has d f (lv_or a b) = has d f a || has d f b.
Proof. rewrite !has_is. unfold lv_or. rewrite has_bit_or. destruct (feature f d); reflexivity. Qed.
Lemma has_version x d f : has x f (version_of d) = feature f x && mem x (includes d).
Proof. rewrite has_is. f_equal. destruct x, d; reflexivity. Qed.
Lemma with_is d v : with_dialect d v = lv_or v (version_of d).
Proof. destruct d; reflexivity. Qed.

Lemma version_sets f :
  (forall x, has x f lv_lua51 = false) /\
  (forall x d, has x f (version_of d) = feature f x && mem x (includes d)) /\
  (forall x d v, has x f (with_dialect d v) = has x f v || (feature f x && mem x (includes d))) /\
  (forall x a b, has x f (lv_or a b) = has x f a || has x f b) /\
  (forall x, has x f lv_new = feature f x && mem x [Luau; Lua52; Lua53; Lua54; LuaJIT]) /\
  (forall x v, feature f x = false -> has x f v = false).
Proof.
  split; [|split; [|split; [|split; [|split]]]].
  - intros x. rewrite has_is. destruct x; apply andb_false_r.
  - intros x d. apply has_version.
  - intros x d v. now rewrite with_is, has_or, has_version.
  - intros. apply has_or.
  - intros x. rewrite has_is. f_equal. destruct x; reflexivity.
  - intros x v H. now rewrite has_is, H.
Qed.

(** ** Texts that are not numerals *)
Lemma digits_no_dot P t : (forall x, P x = true -> x <> 46) -> digits P t -> count_occ N.eq_dec t 46%N = O.
Proof.
  intros HP. induction t as [|x t IH]; intros H; [reflexivity|]. unfold digits in H. cbn in H. apply andb_true_iff in H as [H1 H2].
  cbn. destruct (N.eq_dec x 46) as [E|_]; [now apply HP in H1|auto].
Qed.
Lemma digit_of_not_dot c x : digit_of c x = true -> x <> 46.
Proof. intros H ->. unfold digit_of in H. cbn in H. rewrite andb_false_r in H. discriminate. Qed.
Lemma hexdigit_of_not_dot c x : hexdigit_of c x = true -> x <> 46.
Proof. intros H ->. unfold hexdigit_of in H. cbn in H. rewrite andb_false_r in H. discriminate. Qed.
Lemma with_dot_count P real ok m : (forall x, P x = true -> x <> 46) -> with_dot P real ok m -> (count_occ N.eq_dec m 46%N <= 1)%nat.
Proof.
  intros HP [a Ha _|a b _ Ha Hb _].
  - rewrite (digits_no_dot P a HP Ha). lia.
  - rewrite count_dots_app. cbn. rewrite (digits_no_dot P a HP Ha), (digits_no_dot P b HP Hb). lia.
Qed.
Lemma tail_no_dot c ms e : ~ In 46 ms -> tail c ms e -> count_occ N.eq_dec e 46%N = O.
Proof.
  intros Hm [|t [m sg d ds Hi Hs Hd Hds]|t _ J]; [reflexivity| |].
  - change (count_occ N.eq_dec ([m] ++ sg ++ [d] ++ ds) 46%N = O). rewrite !count_dots_app, (digits_no_dot _ ds (digit_of_not_dot c) Hds).
    assert (m <> 46) by (intros ->; contradiction). assert (d <> 46) by (intros ->; discriminate).
    cbn. destruct (N.eq_dec m 46); [contradiction|]. destruct (N.eq_dec d 46); [contradiction|].
    destruct Hs as [->|[->| ->]]; reflexivity.
  - destruct J as [i [->| ->]|a b [->| ->] [->| ->]|u a b [->| ->] [->| ->] [->| ->]]; reflexivity.
Qed.

Lemma numeral_one_dot c w : numeral c w -> at_most_one_dot w.
Proof.
  unfold at_most_one_dot. intros [m e Hm _ Ht|x m e Hx Hm Ht|b m e Hv Hb Hm Hr Ht].
  - apply tail_no_dot in Ht; [|intros [H|[H|[]]]; discriminate]. rewrite count_dots_app, Ht.
    pose proof (with_dot_count _ _ _ _ (digit_of_not_dot c) Hm). lia.
  - change ((count_occ N.eq_dec ([48%N; x] ++ m ++ e) 46%N <= 1)%nat). rewrite !count_dots_app.
    apply tail_no_dot in Ht; [|destruct (has_lua52 c); [intros [H|[H|[]]]; discriminate|intros []]]. rewrite Ht.
    pose proof (with_dot_count _ _ _ _ (hexdigit_of_not_dot c) Hm).
    assert (count_occ N.eq_dec [48; x] 46%N = O) by (destruct Hx as [->| ->]; reflexivity). lia.
  - change ((count_occ N.eq_dec ([48%N; b] ++ m ++ e) 46%N <= 1)%nat). rewrite !count_dots_app.
    apply tail_no_dot in Ht; [|intros []]. rewrite Ht.
    rewrite (digits_no_dot bindigit m); [|intros ? H ->; discriminate|assumption].
    assert (count_occ N.eq_dec [48; b] 46%N = O) by (destruct Hb as [->| ->]; reflexivity). lia.
Qed.

Lemma numeral_prefix_digit c x r : ci 120 88 x \/ ci 98 66 x -> numeral c (48 :: x :: r) -> existsb hexdigit r = true.
Proof.
  intros Hx H. remember (48 :: x :: r) as w eqn:E. 
  assert (Hnd : digit_of c x = false /\ x <> 46 /\ x <> 101 /\ x <> 69 /\ x <> 105 /\ x <> 73 /\ x <> 108 /\ x <> 76 /\ x <> 117 /\ x <> 85)
    by (unfold digit_of; destruct Hx as [[->| ->]|[->| ->]]; cbn; rewrite andb_false_r; repeat split; discriminate).
  destruct Hnd as (N1 & N2 & N3 & N4 & N5 & N6 & N7 & N8 & N9 & N10).
  destruct H as [m e Hm _ Ht|y m e Hy Hm Ht|b m e Hv Hb Hm Hr Ht].
  - exfalso.
    assert (TH : forall k, e = x :: k -> False).
    { intros k ->. inversion Ht as [|t0 [m0 sg d ds Hm' _ _ _] E0|t0 _ J]; subst.
      - destruct Hm' as [<-|[<-|[]]]; congruence.
      - inversion J as [i H1|a b H1 H2|u a b H1 H2 H3]; subst; destruct H1; congruence. }
    destruct m as [|z m]; [|destruct m as [|z' m]].
    + inversion Hm as [a Ha Hr E0|a b _ _ _ Hr E0]; subst; [discriminate|destruct a; discriminate].
    + cbn [app] in E. injection E as -> E. eapply TH; eassumption.
    + cbn [app] in E. injection E as -> -> E.
      assert (Hz : digit_of c x = true \/ x = 46).
      { inversion Hm as [a Ha Hr E0|a b _ Ha Hb Hr E0]; subst.
        - unfold digits in Ha. cbn in Ha. rewrite !andb_true_iff in Ha. now left.
        - destruct a as [|a1 [|a2 a]]; cbn [app] in E0; injection E0; intros; subst; [discriminate|now right|].
          unfold digits in Ha. cbn in Ha. rewrite !andb_true_iff in Ha. now left. }
      destruct Hz; congruence.
  - injection E as -> <-. rewrite existsb_app. destruct Hm as [a _ Hr|a b _ _ _ Hr]; rewrite ?existsb_app in *; cbn [existsb] in *;
    rewrite ?Hr; try reflexivity. apply orb_true_iff in Hr as [Hr|Hr]; rewrite Hr; rewrite ?orb_true_r; reflexivity.
  - injection E as -> <-. rewrite existsb_app. assert (existsb hexdigit m = true); [|now rewrite H].
    apply existsb_exists in Hr as (d & Hi & Hd). apply existsb_exists. exists d. split; [assumption|].
    apply orb_true_iff in Hd as [Hd|Hd]; apply N.eqb_eq in Hd; subst; reflexivity.
Qed.

(** ** Refutations *)
Lemma two_dots_accepted : exists rs t, tokenize cfg_lua51 (str ".1.2") = Done rs /\ clean rs /\ In t (tokens_of rs) /\
  t_type t = TNumber (str ".1.2") /\ ~ numeral cfg_lua51 (str ".1.2").
Proof.
  eexists. eexists. split; [vm_compute; reflexivity|]. split; [unfold clean; repeat (constructor; [eexists; reflexivity|]); constructor|].
  split; [left; reflexivity|]. split; [reflexivity|]. intros H. apply numeral_one_dot in H. unfold at_most_one_dot in H. vm_compute in H. lia.
Qed.
Lemma no_digit_accepted : 
  (exists rs t, tokenize cfg_lua54 (str "0x.") = Done rs /\ clean rs /\ In t (tokens_of rs) /\
     t_type t = TNumber (str "0x.") /\ ~ numeral cfg_lua54 (str "0x.")) /\
  (exists rs t, tokenize cfg_luau (str "0b_") = Done rs /\ clean rs /\ In t (tokens_of rs) /\
     t_type t = TNumber (str "0b_") /\ ~ numeral cfg_luau (str "0b_")) /\
  (exists rs t, tokenize cfg_all (str "0xll") = Done rs /\ clean rs /\ In t (tokens_of rs) /\
     t_type t = TNumber (str "0xll") /\ ~ numeral cfg_all (str "0xll")).
Proof.
  split; [|split]; (eexists; eexists; split; [vm_compute; reflexivity|]; split; [unfold clean; repeat (constructor; [eexists; reflexivity|]); constructor|];
    split; [left; reflexivity|]; split; [reflexivity|]; intros H;
    apply numeral_prefix_digit in H; [discriminate H|]).
  - left. now left.
  - right. now left.
  - left. now left.
Qed.

Lemma raw_newline_accepted : exists rs t, tokenize cfg_lua54 [34; 92; 116; 10; 34] = Done rs /\ clean rs /\ In t (tokens_of rs) /\
  t_type t = TStringLiteral [92; 116; 10] O QDouble /\ ~ string_body 34 false [92; 116; 10].
Proof.
  eexists. eexists. split; [vm_compute; reflexivity|]. split; [unfold clean; repeat (constructor; [eexists; reflexivity|]); constructor|].
  split; [left; reflexivity|]. split; [reflexivity|]. intros H. inversion H as [|x t H1 H2 H3 H4 E|x t H1 E]; subst; [congruence|].
  inversion H1 as [|x t H2 H3 H4 H5 E|x t H2 E]; subst. destruct (H4 eq_refl) as [H6 _]. now apply H6.
Qed.
