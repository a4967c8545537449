(** Streams: the lexer object as a queue, and facts about whole runs. Proof file. *)
From Verif Require Import Lexer LexerFacts LexerFacts2 LexerCases LexerStep LexerStream LexerSpec.
From Coq Require Import Lia ZifyBool ZifyNat ZifyN.
Local Open Scope N_scope.
Arguments ch a : simpl never.
Arguments advance p c : simpl never.

(** ** Positions *)

Lemma len_utf8_length c : len_utf8 c = N.of_nat (List.length (utf8 c)).
Proof.
  unfold len_utf8, utf8. destruct (N.ltb_spec c 128), (N.leb_spec c 127), (N.ltb_spec c 2048), (N.leb_spec c 2047), (N.ltb_spec c 65536), (N.leb_spec c 65535); try lia; reflexivity.
Qed.
Lemma bytes_of_nil : bytes_of [] = 0.
Proof. reflexivity. Qed.
Lemma bytes_of_cons c u : bytes_of (c :: u) = len_utf8 c + bytes_of u.
Proof. unfold bytes_of. cbn [flat_map]. rewrite app_length, Nat2N.inj_add, len_utf8_length. reflexivity. Qed.
Lemma bytes_of_app a b : bytes_of (a ++ b) = bytes_of a + bytes_of b.
Proof. unfold bytes_of. now rewrite flat_map_app, app_length, Nat2N.inj_add. Qed.
Lemma newlines_app a b : newlines (a ++ b) = newlines a + newlines b.
Proof. induction a as [|x a IH]; cbn [app newlines]; lia. Qed.

Lemma last_line_snoc u x : last_line (u ++ [x]) = if x =? c_nl then [] else last_line u ++ [x].
Proof.
  unfold text, char in *. induction u as [|y u IH]; cbn [app last_line].
  - cbn. destruct (x =? c_nl); reflexivity.
  - rewrite existsb_app. cbn [existsb]. rewrite orb_false_r, (N.eqb_sym c_nl x), IH.
    destruct (x =? c_nl) eqn:E; [now rewrite orb_true_r|]. rewrite orb_false_r.
    destruct (existsb (N.eqb c_nl) u); [reflexivity|]. destruct (y =? c_nl); reflexivity.
Qed.

Lemma adv_pos0 u : adv pos0 u = pos_of u.
Proof.
  induction u as [|x u IH] using rev_ind; [reflexivity|].
  rewrite adv_app, IH. cbn [adv fold_left]. unfold advance, pos_of.
  rewrite bytes_of_app, bytes_of_cons, bytes_of_nil, newlines_app, last_line_snoc. cbn [newlines p_bytes p_line p_char].
  destruct (x =? c_nl); [|rewrite app_length]; cbn [List.length]; f_equal; lia.
Qed.

Lemma end_pos_of u t : end_pos (pos_of u) t = end_of u t.
Proof.
  unfold end_pos, end_of, ends_nl. destruct (rev t) as [|c r] eqn:E.
  - apply (f_equal (@rev _)) in E. rewrite rev_involutive in E. subst. reflexivity.
  - assert (Et : t = rev r ++ [c]) by (rewrite <- (rev_involutive t), E; reflexivity).
    rewrite <- adv_pos0, <- !adv_app, !adv_pos0. destruct (c =? c_nl); [|reflexivity].
    rewrite Et, removelast_last. reflexivity.
Qed.

(** ** Streams *)

Definition ended (l : lexer) : Prop := s_rest (l_src l) = [] /\ l_sent_eof l = true.
Definition inv (l : lexer) : Prop := l_sent_eof l = true -> s_rest (l_src l) = [].

Inductive stream (c : cfg) : lexer -> list (lexres tokref) -> Prop :=
| st_nil l : ended l -> stream c l []
| st_cons l r l' rs : process_next_with_trivia c l = Done (Some r, l') -> stream c l' rs -> stream c l (r :: rs).

Lemma ended_next c l : ended l -> process_next c l = Done (None, l).
Proof. intros [H1 H2]. unfold process_next, src_next. now rewrite H1, H2. Qed.

Lemma ended_next_trivia c l : ended l -> process_next_with_trivia c l = Done (None, l).
Proof. intros H. unfold process_next_with_trivia, lexer_fuel. cbn [leading_loop]. now rewrite ended_next. Qed.

Lemma ended_pstep c l t es l' : ended l -> pstep c l t es l' -> False.
Proof. intros H [[P _]|[P _]]; rewrite ended_next in P by assumption; discriminate. Qed.

Lemma ended_psteps c l ts es l' : ended l -> psteps c l ts es l' -> ts = [] /\ es = [] /\ l' = l.
Proof. intros H P. destruct P; [auto|]. exfalso. eapply ended_pstep; eassumption. Qed.

Lemma pstep_ok_good c l t l' : pstep c l t [] l' -> good_step l t l'.
Proof. intros [[H _]|[_ H]]; [now apply process_next_ok in H|congruence]. Qed.

Lemma pstep_eof c l t es l' : pstep c l t es l' -> t_type t = TEof -> es = [] /\ ended l'.
Proof.
  intros [[H ->]|[H _]] Ht.
  - apply process_next_ok in H as (M & _ & _ & [(_ & E & S)|[Hn _]]); [|contradiction].
    split; [reflexivity|]. split; [|apply S]. destruct M as [M _]. unfold show_token in M. rewrite Ht in M. cbn in M. congruence.
  - apply process_next_recovered in H as (_ & _ & _ & Hn). contradiction.
Qed.

Lemma pstep_inv c l t es l' : inv l -> pstep c l t es l' -> inv l'.
Proof.
  intros I P. destruct (t_type t) eqn:Et; try (apply pstep_moved in P as (txt & M & A & _);
    destruct A as [A1 A2]; [congruence|]; intros S; rewrite A2 in S; specialize (I S); destruct M as [M _]; rewrite I in M; symmetry in M; apply app_eq_nil in M; tauto).
  intros _. apply (pstep_eof _ _ _ _ _ P) in Et as [_ [E _]]. exact E.
Qed.

Lemma psteps_inv c l ts es l' : inv l -> psteps c l ts es l' -> inv l'.
Proof. intros I P. induction P; [assumption|]. apply IHP. eapply pstep_inv; eassumption. Qed.

Lemma fatal_moved c l e l' : process_next c l = Done (Some (LFatal e), l') ->
  exists txt, moved (l_src l) txt (l_src l') /\ txt <> [] /\ l_sent_eof l' = l_sent_eof l.
Proof. intros H. apply process_next_fatal in H as (txt & e' & M & N & S & _). eauto. Qed.

Lemma ref_step_inv c l o l' : inv l -> ref_step c l o l' -> inv l'.
Proof.
  intros I H. revert I. destruct H as [l0 ts es l1 P F R S|l0 ts es l1 e l2 P F R|l0 ld es l1 t es1 l2 tr l3 r P F P2 Nt P3 T1 T2 E]; intros I.
  - intros _. exact R.
  - apply psteps_inv in P; [|assumption]. apply fatal_moved in R as (txt & M & N & S). intros Hs. rewrite S in Hs. specialize (P Hs).
    destruct M as [M _]. rewrite P in M. symmetry in M. apply app_eq_nil in M. tauto.
  - eapply psteps_inv; [|eassumption]. eapply pstep_inv; [|eassumption]. eapply psteps_inv; eassumption.
Qed.

(** Progress of one token reference. *)
Lemma ref_step_moved c l o l' : ref_step c l o l' -> exists txt, moved (l_src l) txt (l_src l').
Proof.
  intros [l0 ts es l1 P F R S|l0 ts es l1 e l2 P F R|l0 ld es l1 t es1 l2 tr l3 r P F P2 Nt P3 T1 T2 E].
  - eapply psteps_moved; eassumption.
  - apply psteps_moved in P as (a & Ma). apply fatal_moved in R as (txt & M & _). eexists. eapply moved_app; eassumption.
  - apply psteps_moved in P as (a & Ma). apply pstep_moved in P2 as (b & Mb & _). apply psteps_moved in P3 as (d & Md).
    eexists. eapply moved_app; [eassumption|]. eapply moved_app; eassumption.
Qed.

Lemma psteps_length c l ts es l' : psteps c l ts es l' -> (List.length (s_rest (l_src l')) <= List.length (s_rest (l_src l)))%nat.
Proof. intros H. apply psteps_moved in H as (u & M). apply moved_length in M. lia. Qed.

(** A reference either consumes a character or ends the stream. *)
Lemma ref_step_progress c l r l' : inv l -> ref_step c l (Some r) l' ->
  (List.length (s_rest (l_src l')) < List.length (s_rest (l_src l)))%nat \/ ended l'.
Proof.
  intros I H. inversion H as [|l0 ts es l1 e l2 P F R|l0 ld es l1 t es1 l2 tr l3 r0 P F P2 Nt P3 T1 T2 E]; subst.
  - left. apply psteps_length in P. apply fatal_moved in R as (txt & M & N & _). apply moved_length in M.
    destruct txt; [congruence|]. cbn in M. lia.
  - destruct (t_type t) eqn:Et; try (left; apply psteps_length in P; apply psteps_length in P3;
      apply pstep_moved in P2 as (txt & M & A & _); destruct A as [A _]; [congruence|]; apply moved_length in M;
      destruct txt; [congruence|]; cbn in M; lia).
    right. apply (pstep_eof _ _ _ _ _ P2) in Et as [_ E]. apply (ended_psteps _ _ _ _ _ E) in P3 as (_ & _ & ->). exact E.
Qed.

Lemma pnwt_inv c l o l' : inv l -> process_next_with_trivia c l = Done (o, l') -> inv l' /\ ref_step c l o l'.
Proof. intros I H. pose proof (process_next_with_trivia_spec c l) as S. rewrite H in S. split; [|exact S]. eapply ref_step_inv; eassumption. Qed.

Lemma pnwt_none c l l' : inv l -> process_next_with_trivia c l = Done (None, l') -> ended l /\ l' = l.
Proof.
  intros I H. apply pnwt_inv in H as [_ H]; [|assumption]. inversion H; subst.
  match goal with P : psteps _ _ _ _ _, F : Forall _ _ |- _ => pose proof (psteps_sent _ _ _ _ _ P F) as S end.
  rewrite S in *. assert (E : ended l) by (split; auto).
  match goal with P : psteps _ _ _ _ _ |- _ => apply (ended_psteps _ _ _ _ _ E) in P as (_ & _ & ->) end. auto.
Qed.

(** ** The lexer object is a queue *)
Inductive queue (c : cfg) (x : Lexer) : list (lexres tokref) -> Prop :=
| q_none : lx_next x = None -> lx_peek x = None -> ended (lx x) -> queue c x []
| q_one n : lx_next x = Some n -> lx_peek x = None -> ended (lx x) -> queue c x [n]
| q_more n p rs : lx_next x = Some n -> lx_peek x = Some p -> stream c (lx x) rs -> queue c x (n :: p :: rs).

Lemma stream_next c l r rs : stream c l (r :: rs) -> exists l', process_next_with_trivia c l = Done (Some r, l') /\ stream c l' rs.
Proof. intros H. inversion H; subst. eauto. Qed.

Lemma queue_consume c x rs : queue c x rs ->
  match rs with
  | [] => lexer_consume c x = Done (None, x)
  | r :: rs' => exists x', lexer_consume c x = Done (Some r, x') /\ queue c x' rs'
  end.
Proof.
  intros [H1 H2 H3|n H1 H2 H3|n p rs' H1 H2 H3]; unfold lexer_consume; rewrite H1.
  - reflexivity.
  - rewrite ended_next_trivia by assumption. eexists. split; [reflexivity|]. now constructor.
  - destruct rs' as [|r rs'].
    + inversion H3; subst. rewrite ended_next_trivia by assumption. eexists. split; [reflexivity|]. now constructor.
    + apply stream_next in H3 as (l' & E & S). rewrite E. eexists. split; [reflexivity|]. now constructor.
Qed.

Lemma queue_current c x rs : queue c x rs -> lexer_current x = hd_error rs.
Proof. intros []; assumption. Qed.
Lemma queue_peek c x rs : queue c x rs -> lexer_peek x = hd_error (tl rs).
Proof. intros []; assumption. Qed.

Lemma queue_drain c rs : forall x fuel, queue c x rs -> (List.length rs < fuel)%nat -> drain fuel c x = Done rs.
Proof.
  induction rs as [|r rs IH]; intros x fuel Q Hf; destruct fuel; try (cbn in Hf; lia); cbn [drain]; apply queue_consume in Q.
  - now rewrite Q.
  - destruct Q as (x' & -> & Q). rewrite (IH x' fuel); [reflexivity|assumption|]. cbn in Hf. lia.
Qed.

Lemma drain_queue c fuel : forall x rs, drain fuel c x = Done rs -> forall rs', queue c x rs' -> rs = rs'.
Proof.
  induction fuel as [|fuel IH]; intros x rs H rs' Q; [discriminate|]. cbn [drain] in H. apply queue_consume in Q.
  destruct rs' as [|r rs'].
  - rewrite Q in H. congruence.
  - destruct Q as (x' & E & Q). rewrite E in H. destruct (drain fuel c x') eqn:D; try discriminate.
    injection H as <-. f_equal. eauto.
Qed.

(** Every state has a stream, or a panic is ahead. *)
Inductive panics (c : cfg) : lexer -> Prop :=
| pn_here l : process_next_with_trivia c l = Panic -> panics c l
| pn_later l r l' : process_next_with_trivia c l = Done (Some r, l') -> panics c l' -> panics c l.

Lemma stream_total c : forall n l, inv l -> (List.length (s_rest (l_src l)) < n)%nat ->
  panics c l \/ exists rs, stream c l rs /\ (List.length rs <= S (List.length (s_rest (l_src l))))%nat /\ (ended l -> rs = []).
Proof.
  induction n as [|n IH]; intros l I Hn; [lia|].
  pose proof (process_next_with_trivia_spec c l) as S.
  destruct (process_next_with_trivia c l) as [[[r|] l']| |] eqn:E.
  - assert (I' := ref_step_inv _ _ _ _ I S). destruct (ref_step_progress _ _ _ _ I S) as [L|En].
    + destruct (IH l' I') as [P|(rs & Hs & Hl & _)]; [lia|left; econstructor 2; eassumption|].
      right. exists (r :: rs). split; [econstructor; eassumption|]. split; [cbn; lia|].
      intros En. rewrite ended_next_trivia in E by assumption. discriminate.
    + right. exists [r]. split; [econstructor; [eassumption|now constructor]|]. split; [cbn; lia|].
      intros En'. rewrite ended_next_trivia in E by assumption. discriminate.
  - apply pnwt_none in E as [En ->]; [|assumption]. right. exists []. split; [now constructor|]. split; [cbn; lia|reflexivity].
  - left. now constructor.
  - contradiction.
Qed.

Lemma stream_det c l rs : stream c l rs -> forall rs', stream c l rs' -> rs = rs'.
Proof.
  induction 1 as [l E|l r l' rs E S IH]; intros rs' S'; inversion S' as [|l1 r1 l1' rs1 E1 S1]; subst.
  - reflexivity.
  - rewrite ended_next_trivia in E1 by assumption. discriminate.
  - rewrite ended_next_trivia in E by assumption. discriminate.
  - rewrite E in E1. injection E1 as <- <-. f_equal. auto.
Qed.

Lemma stream_not_panics c l rs : stream c l rs -> panics c l -> False.
Proof.
  induction 1 as [l En|l r l' rs E S IH]; intros P; inversion P; subst.
  - rewrite ended_next_trivia in H by assumption. discriminate.
  - rewrite ended_next_trivia in H by assumption. discriminate.
  - congruence.
  - assert (l'0 = l') by congruence. subst. auto.
Qed.

(** ** The start of the lexer *)

Definition add_shebang (sb : token) (r : tokref) : tokref := mkRef (sb :: r_leading r) (r_token r) (r_trailing r).

(** [fst_out c source rs]: the results of consuming everything, related to the plain streams. *)
Inductive run (c : cfg) (source : text) : list (lexres tokref) -> Prop :=
| run_plain rs : ~ shebang source -> stream c (new_lazy source) rs -> run c source rs
| run_shebang_ok line s sb r rs : shebang source -> moved (mkSrc source pos0) line s -> forallb not_nl line = true ->
    head_not (fun d => negb (d =? c_nl)) (s_rest s) -> sb = mkToken pos0 (s_pos s) (TShebang line) -> line <> [] ->
    stream c (mkLexer s false []) (LOk r :: rs) -> run c source (LOk (add_shebang sb r) :: rs)
| run_shebang_lost line s r rs : shebang source -> moved (mkSrc source pos0) line s -> forallb not_nl line = true ->
    head_not (fun d => negb (d =? c_nl)) (s_rest s) -> line <> [] ->
    stream c (mkLexer s false []) (r :: rs) -> (forall r', r <> LOk r') -> run c source rs.

Lemma inv_unsent s bs : inv (mkLexer s false bs).
Proof. discriminate. Qed.

Lemma shebang_test source : 
  (exists r, source = ch "#" :: ch "!" :: r /\ shebang source) \/
  (~ shebang source /\ forall c, process_first_with_trivia c (new_lazy source) = process_next_with_trivia c (new_lazy source)).
Proof.
  unfold process_first_with_trivia. cbn [new_lazy l_src s_rest].
  destruct source as [|h [|b r]].
  - right. split; [intros (r & E); discriminate E|reflexivity].
  - right. split; [intros (r & E); discriminate E|reflexivity].
  - destruct ((h =? ch "#") && (b =? ch "!")) eqn:E.
    + left. apply andb_true_iff in E as [E1 E2]. apply N.eqb_eq in E1, E2. subst. exists r. split; [reflexivity|]. exists r. reflexivity.
    + right. split; [|reflexivity]. intros (r' & E'). cbn in E'. injection E' as -> -> _. discriminate E.
Qed.


(** ** Draining *)

Definition wf (x : Lexer) : Prop :=
  inv (lx x) /\ (lx_peek x = None -> ended (lx x)) /\ (lx_next x = None -> lx_peek x = None).

Definition todo (l : lexer) : nat := if l_sent_eof l then O else S (List.length (s_rest (l_src l))).
Definition some {A} (o : option A) : nat := match o with Some _ => 1%nat | None => O end.
Definition bound (x : Lexer) : nat := (some (lx_next x) + some (lx_peek x) + todo (lx x))%nat.

Lemma pnwt_todo c l o l' : inv l -> process_next_with_trivia c l = Done (o, l') -> (some o + todo l' <= todo l)%nat.
Proof.
  intros I E. destruct o as [r|].
  - apply pnwt_inv in E as E2; [|assumption]. destruct E2 as [I' S].
    destruct (l_sent_eof l) eqn:Es.
    { assert (En : ended l) by (split; auto). rewrite ended_next_trivia in E by assumption. discriminate. }
    unfold todo. rewrite Es. destruct (ref_step_progress _ _ _ _ I S) as [L|[_ ->]]; [|cbn; lia].
    destruct (l_sent_eof l'); cbn; lia.
  - apply pnwt_none in E as [_ ->]; [|assumption]. reflexivity.
Qed.

Lemma pnwt_peek_ended c l l' p : inv l -> process_next_with_trivia c l = Done (p, l') -> p = None -> ended l'.
Proof. intros I E ->. apply pnwt_none in E as [En ->]; assumption. Qed.

Lemma wf_consume c x r x' : wf x -> lexer_consume c x = Done (Some r, x') -> wf x' /\ (bound x' < bound x)%nat.
Proof.
  intros (I & W1 & W2) H. unfold lexer_consume in H. destruct (lx_next x) as [nx|] eqn:En; [|discriminate].
  destruct (process_next_with_trivia c (lx x)) as [[p l']| |] eqn:E; try discriminate. injection H as <- <-.
  pose proof (pnwt_todo _ _ _ _ I E) as T. apply pnwt_inv in E as E2; [|assumption]. split.
  - split; [apply E2|]. cbn. split; [now apply (pnwt_peek_ended c (lx x))|].
    intros Hp. specialize (W1 Hp). rewrite ended_next_trivia in E by assumption. congruence.
  - unfold bound. rewrite En. cbn [lx lx_next lx_peek some]. lia.
Qed.

Lemma drain_enough c fuel : forall x, wf x -> (bound x < fuel)%nat -> drain fuel c x <> OutOfFuel.
Proof.
  induction fuel as [|fuel IH]; intros x W Hf; [lia|]. cbn [drain].
  destruct (lexer_consume c x) as [[[r|] x']| |] eqn:E; try discriminate.
  - destruct (wf_consume _ _ _ _ W E) as [W' B]. assert (drain fuel c x' <> OutOfFuel) by (apply IH; [assumption|lia]).
    destruct (drain fuel c x'); congruence.
  - unfold lexer_consume in E. destruct (lx_next x); [|discriminate].
    pose proof (process_next_with_trivia_spec c (lx x)) as S. destruct (process_next_with_trivia c (lx x)) as [[? ?]| |]; [discriminate|discriminate|contradiction].
Qed.

Lemma drain_is_queue c fuel : forall x rs, wf x -> drain fuel c x = Done rs -> queue c x rs.
Proof.
  induction fuel as [|fuel IH]; intros x rs W H; [discriminate|]. cbn [drain] in H.
  destruct (lexer_consume c x) as [[[r|] x']| |] eqn:E; try discriminate.
  - destruct (drain fuel c x') as [rs'| |] eqn:D; try discriminate. injection H as <-.
    destruct (wf_consume _ _ _ _ W E) as [W' _]. specialize (IH x' rs' W' D).
    destruct W as (I & W1 & W2). unfold lexer_consume in E. destruct (lx_next x) as [nx|] eqn:En; [|discriminate].
    destruct (process_next_with_trivia c (lx x)) as [[p l]| |] eqn:E2; try discriminate. injection E as <- <-.
    destruct IH as [H1 H2 H3|n H1 H2 H3|n p' rs' H1 H2 H3]; cbn in H1, H2, H3.
    + apply q_one; auto.
    + subst p. apply pnwt_none in E2 as [E2 ->]; [|assumption]. apply q_more; auto. now constructor.
    + subst p. apply q_more; auto. econstructor; eassumption.
  - injection H as <-. destruct W as (I & W1 & W2). unfold lexer_consume in E. destruct (lx_next x) eqn:En.
    + destruct (process_next_with_trivia c (lx x)) as [[p l2]| |]; discriminate.
    + apply q_none; auto.
Qed.

(** Reachable panics come from a backtick. *)
Definition panic_at (c : cfg) (l : lexer) : Prop :=
  exists u l1, moved (l_src l) u (l_src l1) /\ backtick_panic c l1.

Lemma pnwt_panic c l : process_next_with_trivia c l = Panic -> panic_at c l.
Proof.
  intros H. pose proof (process_next_with_trivia_spec c l) as S. rewrite H in S. destruct S as (ts & es & l1 & P & B).
  apply psteps_moved in P as (u & M). exists u, l1. auto.
Qed.

Lemma panic_at_step c l o l' : process_next_with_trivia c l = Done (o, l') -> panic_at c l' -> panic_at c l.
Proof.
  intros E (u & l1 & M & B). pose proof (process_next_with_trivia_spec c l) as S. rewrite E in S.
  apply ref_step_moved in S as (v & M'). exists (v ++ u), l1. split; [eapply moved_app; eassumption|assumption].
Qed.

Lemma drain_panic c fuel : forall x, drain fuel c x = Panic -> panic_at c (lx x).
Proof.
  induction fuel as [|fuel IH]; intros x H; [discriminate|]. cbn [drain] in H. unfold lexer_consume in H.
  destruct (lx_next x) as [n|]; [|discriminate].
  destruct (process_next_with_trivia c (lx x)) as [[p l]| |] eqn:E; try discriminate.
  - destruct (drain fuel c _) eqn:D; try discriminate. apply IH in D. cbn in D. eapply panic_at_step; eassumption.
  - now apply pnwt_panic.
Qed.

Lemma read_line_shebang r s line p :
  read_line r p (str "#!") = (line, s) ->
  exists u, line = str "#!" ++ u /\ moved (mkSrc r p) u s /\ forallb not_nl u = true /\ head_not (fun d => negb (d =? c_nl)) (s_rest s).
Proof. intros H. apply read_line_spec in H as (u & -> & M & F & HN). eauto. Qed.

Lemma queue_head c l n n' p rs : queue c (mkLx l (Some n) p) (n :: rs) -> queue c (mkLx l (Some n') p) (n' :: rs).
Proof. intros H. inversion H; subst; cbn in *; [apply q_one; auto|apply q_more; auto]. Qed.

Lemma queue_stream c l n p l1 l2 rs :
  inv l -> process_next_with_trivia c l = Done (Some n, l1) -> process_next_with_trivia c l1 = Done (p, l2) ->
  queue c (mkLx l2 (Some n) p) (n :: rs) -> stream c l (n :: rs).
Proof.
  intros I E1 E2 Q. apply pnwt_inv in E1 as E3; [|assumption]. destruct E3 as [I' _].
  econstructor; [eassumption|]. inversion Q; subst; cbn in *.
  - subst p. apply pnwt_none in E2 as [E2 ->]; [|assumption]. now constructor.
  - subst p. econstructor; eassumption.
Qed.

Lemma queue_cons_head c l n p rs : queue c (mkLx l (Some n) p) rs -> exists rs', rs = n :: rs'.
Proof. intros H. inversion H; subst; cbn in *; try discriminate; eexists; f_equal; congruence. Qed.

(** Outcome of a lexer started in the state [l]. *)
Lemma start_two c l n l1 : inv l -> process_next_with_trivia c l = Done (Some n, l1) ->
  forall n' k, (todo l < k)%nat ->
  match (match process_next_with_trivia c l1 with
         | Panic => Panic | OutOfFuel => OutOfFuel | Done (p, l2) => Done (mkLx l2 (Some n') p) end) with
  | Done x => match drain k c x with
              | Done rs => exists rs0, stream c l (n :: rs0) /\ rs = n' :: rs0
              | Panic => panic_at c l
              | OutOfFuel => False
              end
  | Panic => panic_at c l
  | OutOfFuel => False
  end.
Proof.
  intros I E1 n' k Hk. apply pnwt_inv in E1 as E3; [|assumption]. destruct E3 as [I1 _].
  pose proof (pnwt_todo _ _ _ _ I E1) as T1. cbn in T1.
  destruct (process_next_with_trivia c l1) as [[p l2]| |] eqn:E2.
  - apply pnwt_inv in E2 as E4; [|assumption]. destruct E4 as [I2 _].
    pose proof (pnwt_todo _ _ _ _ I1 E2) as T2.
    assert (W : wf (mkLx l2 (Some n') p)).
    { split; [assumption|]. cbn. split; [now apply (pnwt_peek_ended c l1)|discriminate]. }
    assert (B : (bound (mkLx l2 (Some n') p) < k)%nat) by (unfold bound; cbn; lia).
    pose proof (drain_enough c k _ W B) as NF.
    destruct (drain k c (mkLx l2 (Some n') p)) as [rs| |] eqn:D; [| |congruence].
    + apply drain_is_queue in D; [|assumption]. destruct (queue_cons_head _ _ _ _ _ D) as (rs0 & ->).
      exists rs0. split; [|reflexivity]. eapply queue_stream; [assumption|eassumption|eassumption|].
      eapply queue_head; eassumption.
    + apply drain_panic in D. cbn in D. eapply panic_at_step; [eassumption|]. eapply panic_at_step; eassumption.
  - eapply panic_at_step; [eassumption|]. now apply pnwt_panic.
  - pose proof (process_next_with_trivia_spec c l1) as S. rewrite E2 in S. exact S.
Qed.

Lemma pnwt_fuel c l : process_next_with_trivia c l <> OutOfFuel.
Proof. intros E. pose proof (process_next_with_trivia_spec c l) as S. rewrite E in S. exact S. Qed.

Lemma tokenize_run c source :
  match tokenize c source with
  | Done rs => run c source rs
  | Panic => panic_at c (new_lazy source)
  | OutOfFuel => False
  end.
Proof.
  unfold tokenize, lexer_new. destruct (shebang_test source) as [(r & E & SB)|[NS E]].
  - assert (Ef : process_first_with_trivia c (new_lazy source) =
      let '(line, s) := read_line r (advance (advance pos0 (ch "#")) (ch "!")) (str "#!") in
      match process_next_with_trivia c (mkLexer s false []) with
      | Panic => Panic
      | OutOfFuel => OutOfFuel
      | Done (Some (LOk r), l) => Done (Some (LOk (add_shebang (mkToken pos0 (s_pos s) (TShebang line)) r)), l)
      | Done (_, l) => process_next_with_trivia c l
      end) by (subst source; reflexivity).
    rewrite Ef. clear Ef. destruct (read_line r _ _) as [line s] eqn:RL. apply read_line_shebang in RL as (u & -> & M & F & HN).
    assert (M0 : moved (mkSrc source pos0) (str "#!") (mkSrc r (advance (advance pos0 (ch "#")) (ch "!")))).
    { split; cbn; [subst source; reflexivity|reflexivity]. }
    assert (M1 := moved_app _ _ _ _ _ M0 M). clear M0 M.
    set (line := str "#!" ++ u) in *. assert (Fl : forallb not_nl line = true) by (unfold line; rewrite forallb_app, F; reflexivity).
    assert (Nl : line <> []) by discriminate.
    assert (Tk : (todo (mkLexer s false []) < S (S (List.length source)))%nat).
    { apply moved_length in M1. unfold todo. cbn [l_sent_eof l_src]. cbn in M1. cbn. lia. }
    assert (PA : panic_at c (mkLexer s false []) -> panic_at c (new_lazy source)).
    { intros (v & l1 & Mv & B). exists (line ++ v), l1. split; [|assumption]. eapply moved_app; eassumption. }
    destruct (process_next_with_trivia c (mkLexer s false [])) as [[o l1]| |] eqn:E1.
    2: { apply PA. now apply pnwt_panic. }
    2: { now apply pnwt_fuel in E1. }
    destruct o as [r0|].
    2: { apply pnwt_none in E1 as [[_ E1] _]; [discriminate|apply inv_unsent]. }
    assert (Lost : (forall r', r0 <> LOk r') ->
      match (match process_next_with_trivia c l1 with
        | Done (n, l) => match process_next_with_trivia c l with Done (p, l0) => Done (mkLx l0 n p) | Panic => Panic | OutOfFuel => OutOfFuel end
        | Panic => Panic | OutOfFuel => OutOfFuel end) with
      | Done x => match drain (S (S (List.length source))) c x with
        | Done rs => run c source rs | Panic => panic_at c (new_lazy source) | OutOfFuel => False end
      | Panic => panic_at c (new_lazy source) | OutOfFuel => False end).
    { intros Hr. apply pnwt_inv in E1 as E3; [|apply inv_unsent]. destruct E3 as [I1 _].
      pose proof (pnwt_todo _ _ _ _ (inv_unsent _ _) E1) as T1.
      destruct (process_next_with_trivia c l1) as [[[n|] l2]| |] eqn:E2.
      - pose proof (start_two c l1 n l2 I1 E2 n (S (S (List.length source))) ltac:(cbn [some] in T1; lia)) as ST.
        destruct (process_next_with_trivia c l2) as [[p l3]| |].
        + destruct (drain _ _ _).
          * destruct ST as (rs0 & ST & ->). eapply run_shebang_lost; try eassumption. econstructor; eassumption.
          * apply PA. eapply panic_at_step; eassumption.
          * assumption.
        + apply PA. eapply panic_at_step; eassumption.
        + assumption.
      - apply pnwt_none in E2 as [E2 ->]; [|assumption]. rewrite ended_next_trivia by assumption.
        cbn [drain lexer_consume lx_next]. eapply run_shebang_lost; try eassumption. econstructor; [eassumption|now constructor].
      - apply PA. eapply panic_at_step; [eassumption|]. now apply pnwt_panic.
      - now apply pnwt_fuel in E2. }
    destruct r0 as [r0|es|r0 es].
    + pose proof (start_two c _ _ l1 (inv_unsent _ _) E1 (LOk (add_shebang (mkToken pos0 (s_pos s) (TShebang line)) r0)) (S (S (List.length source))) Tk) as ST.
      destruct (process_next_with_trivia c l1) as [[p l2]| |].
      * destruct (drain _ _ _).
        -- destruct ST as (rs0 & ST & ->). eapply run_shebang_ok; try eassumption. reflexivity.
        -- auto.
        -- assumption.
      * auto.
      * assumption.
    + specialize (Lost ltac:(discriminate)).
      destruct (process_next_with_trivia c l1) as [[n l2]| |]; [destruct (process_next_with_trivia c l2) as [[p l3]| |]| |]; exact Lost.
    + specialize (Lost ltac:(discriminate)).
      destruct (process_next_with_trivia c l1) as [[n l2]| |]; [destruct (process_next_with_trivia c l2) as [[p l3]| |]| |]; exact Lost.
  - rewrite E. assert (I : inv (new_lazy source)) by discriminate.
    destruct (process_next_with_trivia c (new_lazy source)) as [[[n|] l1]| |] eqn:E1.
    + pose proof (start_two c _ n l1 I E1 n (S (S (List.length source)))) as ST.
      assert (Tk : (todo (new_lazy source) < S (S (List.length source)))%nat) by (unfold todo; cbn; lia). specialize (ST Tk).
      destruct (process_next_with_trivia c l1) as [[p l2]| |].
      * destruct (drain _ _ _).
        -- destruct ST as (rs0 & ST & ->). now constructor.
        -- assumption.
        -- assumption.
      * assumption.
      * assumption.
    + apply pnwt_none in E1 as [[_ E1] _]; [discriminate|assumption].
    + now apply pnwt_panic.
    + now apply pnwt_fuel in E1.
Qed.
