(** The order of tokens is that of the source (C59). Proof file. *)
From Verif Require Import PunctuatedProofs LexerSpec Compare.
From Verif Require Import NodeProofs PrintProofs VisitTheorems VisitTyped UpdateProofs.
From Verif Require Import LexerFacts LexerFacts2 LexerCases LexerStep LexerStream LexerProofs LexerTheorems LexerTheorems2 LexerTheorems3.
From Coq Require Import Lia.
Local Open Scope N_scope.
Import ListNotations.

(** ** Positions *)
Lemma bytes_pos_of u : p_bytes (pos_of u) = bytes_of u.
Proof. reflexivity. Qed.
Lemma bytes_positive u : u <> [] -> 0 < bytes_of u.
Proof. destruct u as [|x u]; [congruence|]. intros _. rewrite bytes_of_cons. pose proof (len_utf8_pos x). lia. Qed.
Lemma prefixes (a b d e : text) : a ++ b = d ++ e -> (exists x, d = a ++ x) \/ (exists x, a = d ++ x).
Proof.
  revert d. induction a as [|x a IH]; intros d E; [left; now exists d|]. destruct d as [|y d]; [right; now exists (x :: a)|]. cbn [app] in E. injection E as -> E.
  destruct (IH d E) as [(z & ->)|(z & ->)]; [left|right]; now exists z.
Qed.
Definition above (p q : position) : Prop := p_line p < p_line q \/ p_line p = p_line q /\ p_char p < p_char q.
Lemma above_trans p q r : above p q -> above q r -> above p r.
Proof. unfold above. lia. Qed.
Lemma pos_snoc u x : above (pos_of u) (pos_of (u ++ [x])).
Proof.
  unfold above, pos_of. rewrite newlines_app, last_line_snoc. cbn [newlines p_line p_char]. destruct (x =? c_nl); [left; lia|right]. rewrite app_length. cbn [List.length]. lia.
Qed.
Lemma pos_longer u v : v <> [] -> above (pos_of u) (pos_of (u ++ v)).
Proof.
  induction v as [|x v IH] using rev_ind; [congruence|]. intros _. rewrite app_assoc. destruct v as [|y v]; [rewrite app_nil_r; apply pos_snoc|].
  eapply above_trans; [apply IH; discriminate|apply pos_snoc].
Qed.
Lemma pos_longer_bytes u v : v <> [] -> compare_position (pos_of u) (pos_of (u ++ v)) = Lt.
Proof. intros H. apply N.compare_lt_iff. rewrite !bytes_pos_of, bytes_of_app. pose proof (bytes_positive v H). lia. Qed.
Lemma compare_opp p q : compare_position q p = CompOpp (compare_position p q).
Proof. apply N.compare_antisym. Qed.
Lemma positions_compared a d a' d' : a ++ d = a' ++ d' ->
  match compare_position (pos_of a) (pos_of a') with Lt => above (pos_of a) (pos_of a') | Eq => a = a' | Gt => above (pos_of a') (pos_of a) end.
Proof.
  intros E. destruct (prefixes _ _ _ _ E) as [(x & ->)|(x & ->)]; (destruct x as [|y x]; [rewrite app_nil_r; unfold compare_position; now rewrite N.compare_refl|]).
  - rewrite pos_longer_bytes by discriminate. now apply pos_longer.
  - rewrite compare_opp, pos_longer_bytes by discriminate. now apply pos_longer.
Qed.

(** ** Tokens of a source *)
Definition rising (ts : list token) : Prop := forall x t y u z, ts = x ++ t :: y ++ u :: z -> p_bytes (t_start t) < p_bytes (t_start u).
Fixpoint climbs (n : N) (ts : list token) (m : N) : Prop :=
  match ts with [] => n <= m | t :: ts => n <= p_bytes (t_start t) /\ exists k, p_bytes (t_start t) <= k /\ (ts <> [] -> p_bytes (t_start t) < k) /\ climbs k ts m end.
Lemma climbs_le ts : forall n m, climbs n ts m -> n <= m.
Proof. induction ts as [|t ts IH]; intros n m; cbn [climbs]; [auto|]. intros (A & k & B & _ & C). apply IH in C. lia. Qed.
Lemma climbs_in ts t : In t ts -> forall n m, climbs n ts m -> n <= p_bytes (t_start t).
Proof. induction ts as [|x ts IH]; intros []; intros n m; cbn [climbs]; intros (A & k & B & _ & C); [now subst|]. apply (IH H) in C. lia. Qed.
Lemma climbs_rising ts : forall n m, climbs n ts m -> rising ts.
Proof.
  induction ts as [|a ts IH]; intros n m C x t y u z E; [now destruct x|]. cbn [climbs] in C. destruct C as (_ & k & _ & S & C). destruct x as [|b x]; injection E as -> ->.
  - apply (climbs_in _ u) in C; [|apply in_or_app; right; now left]. assert (p_bytes (t_start t) < k) by (apply S; now destruct y). lia.
  - now apply (IH k m C x t y u z).
Qed.
Lemma climbs_lower ts n n' m : n' <= n -> climbs n ts m -> climbs n' ts m.
Proof. destruct ts; cbn [climbs]; [lia|]. intros H (A & B). split; [lia|exact B]. Qed.
Lemma climbs_higher ts : forall n m m', m <= m' -> climbs n ts m -> climbs n ts m'.
Proof. induction ts as [|t ts IH]; intros n m m' H; cbn [climbs]; [lia|]. intros (A & k & B & S & C). split; [assumption|]. exists k. eauto. Qed.
Lemma moved_bytes s u s' : moved s u s' -> p_bytes (s_pos s') = p_bytes (s_pos s) + bytes_of u.
Proof. intros [_ ->]. apply adv_bytes. Qed.

(** A step goes forward, or it is the last one. *)
Definition at_ (l : lexer) : N := p_bytes (s_pos (l_src l)).
Lemma pstep_forward c l t es l' : pstep c l t es l' -> t_start t = s_pos (l_src l) /\ at_ l <= at_ l' /\ (at_ l < at_ l' \/ ended l').
Proof.
  unfold at_. intros [[H _]|[H _]].
  - apply process_next_ok in H as (M & S & _ & D). split; [assumption|]. pose proof (moved_bytes _ _ _ M) as B. split; [lia|]. destruct D as [(_ & R & _ & E)|(_ & N & _)].
    + right. split; [|assumption]. destruct M as [M _]. rewrite R in M. symmetry in M. now apply app_eq_nil in M as [_ M].
    + left. pose proof (bytes_positive _ N). lia.
  - apply process_next_recovered in H as ((u & e & M & N & _) & S & _). split; [assumption|]. pose proof (moved_bytes _ _ _ M). pose proof (bytes_positive _ N). lia.
Qed.
(** What follows the tokens of [psteps]. *)
Lemma psteps_climb c l ts es l' : psteps c l ts es l' -> forall us m, climbs (at_ l') us m -> (ended l' -> us = []) -> climbs (at_ l) (ts ++ us) m.
Proof.
  induction 1 as [l|l t es l1 ts es' l' P Ps IH]; intros us m C N; [assumption|]. cbn [app climbs].
  destruct (pstep_forward _ _ _ _ _ P) as (S & A & B). rewrite S. fold (at_ l). split; [lia|]. exists (at_ l1). split; [assumption|]. split; [|now apply IH].
  intros X. destruct B as [B|B]; [assumption|]. apply (ended_psteps c _ _ _ _ B) in Ps as (-> & _ & ->). now rewrite N in X.
Qed.
Lemma psteps_forward c l ts es l' : psteps c l ts es l' -> at_ l <= at_ l'.
Proof. induction 1 as [l|l t es l1 ts es' l' P Ps IH]; [lia|]. apply pstep_forward in P as (_ & A & _). lia. Qed.
Lemma ended_stream c l rs : stream c l rs -> ended l -> rs = [].
Proof. intros [|l0 r l' rs' E S] D; [reflexivity|]. rewrite ended_next_trivia in E by assumption. discriminate. Qed.
Lemma stream_climbs c l rs : stream c l rs -> exists m, climbs (at_ l) (tokens_of rs) m.
Proof.
  induction 1 as [l E|l r l' rs E S IH]; [exists (at_ l); cbn; lia|]. destruct IH as (m & IH).
  pose proof (process_next_with_trivia_spec c l) as RS. rewrite E in RS.
  inversion RS as [|l0 ts es l1 e l2 P F R|l0 ld es l1 t0 es1 l3 tr0 l4 r0 P1 F P2 Nt P3 T1 T2 ER]; subst.
  - exists m. cbn [tokens_of refs_of flat_map ref_of app]. eapply climbs_lower; [|exact IH]. apply psteps_forward in P.
    apply process_next_fatal in R as (u & e' & M & _). apply moved_bytes in M. unfold at_ in *. lia.
  - exists m. replace (tokens_of (lexres_new (mkRef ld t0 tr0) (es ++ es1) :: rs)) with (ld ++ [t0] ++ tr0 ++ tokens_of rs).
    2: { unfold tokens_of, refs_of. cbn [flat_map]. destruct (es ++ es1); cbn [lexres_new ref_of app flat_map ref_tokens r_leading r_token r_trailing]; now rewrite <- !app_assoc. }
    assert (N : ended l' -> tokens_of rs = []) by (intros D; now rewrite (ended_stream _ _ _ S D)).
    pose proof (psteps_climb _ _ _ _ _ P3 _ _ IH N) as C.
    pose proof (psteps_snoc _ _ _ _ _ _ _ _ P1 P2) as P. rewrite app_assoc. apply (psteps_climb _ _ _ _ _ P); [exact C|].
    intros D. apply (ended_psteps c _ _ _ _ D) in P3 as (-> & _ & ->). now rewrite N.
Qed.
Lemma tokens_rising c source rs : tokenize c source = Done rs -> rising (tokens_of rs).
Proof.
  intros H. apply tokenize_done in H. destruct H as [rs NS S|line s sb r rs SB M F HN -> Nl S|line s r rs SB M F HN Nl S NO].
  - destruct (stream_climbs _ _ _ S) as (m & C). exact (climbs_rising _ _ _ C).
  - destruct (stream_climbs _ _ _ S) as (m & C). apply (climbs_rising _ 0 m).
    replace (tokens_of (LOk (add_shebang (mkToken pos0 (s_pos s) (TShebang line)) r) :: rs)) with (mkToken pos0 (s_pos s) (TShebang line) :: tokens_of (LOk r :: rs)) by reflexivity.
    cbn [climbs t_start]. split; [cbn; lia|]. exists (at_ (mkLexer s false [])). apply moved_bytes in M. pose proof (bytes_positive _ Nl). unfold at_ in *. cbn [l_src s_pos p_bytes pos0] in *.
    split; [lia|]. split; [intros _; cbn; lia|exact C].
  - destruct (stream_climbs _ _ _ S) as (m & C). unfold tokens_of, refs_of in C. cbn [flat_map] in C. rewrite flat_map_app in C.
    intros x t y u z E. apply (climbs_rising _ _ _ C (flat_map ref_tokens (match ref_of r with Some t => [t] | None => [] end) ++ x) t y u z).
    rewrite <- app_assoc. f_equal. exact E.
Qed.
Lemma rising_compare ts x t y u z : rising ts -> ts = x ++ t :: y ++ u :: z -> compare_token t u = Lt.
Proof. intros R E. apply N.compare_lt_iff. exact (R x t y u z E). Qed.
Lemma tokens_compared c source rs x t y u z : tokenize c source = Done rs -> tokens_of rs = x ++ t :: y ++ u :: z -> compare_token t u = Lt.
Proof. intros T. apply rising_compare. exact (tokens_rising _ _ _ T). Qed.
Lemma refs_compared c source rs x t y u z : tokenize c source = Done rs -> refs_of rs = x ++ t :: y ++ u :: z -> compare_ref t u = Lt.
Proof.
  intros T E. apply (tokens_compared c source rs (flat_map ref_tokens x ++ r_leading t) (r_token t) (r_trailing t ++ flat_map ref_tokens y ++ r_leading u) (r_token u) (r_trailing u ++ flat_map ref_tokens z) T).
  unfold tokens_of. rewrite E, flat_map_app. cbn [flat_map]. rewrite flat_map_app. cbn [flat_map]. unfold ref_tokens at 2 4. repeat (rewrite <- ?app_assoc; cbn [app]). reflexivity.
Qed.
Lemma token_opp t u : compare_token u t = CompOpp (compare_token t u).
Proof. apply compare_opp. Qed.
Lemma token_same t : compare_token t t = Eq.
Proof. apply N.compare_refl. Qed.
Lemma two_places {A} (t u : A) l : In t l -> In u l -> t = u \/ (exists x y z, l = x ++ t :: y ++ u :: z) \/ (exists x y z, l = x ++ u :: y ++ t :: z).
Proof.
  intros T U. apply in_split in T as (x & y & ->). apply in_app_or in U as [U|[U|U]]; [|now left|].
  - right. right. apply in_split in U as (a & b & ->). exists a, b, y. now rewrite <- app_assoc.
  - right. left. apply in_split in U as (a & b & ->). now exists x, a, b.
Qed.
Lemma tokens_equal c source rs t u : tokenize c source = Done rs -> In t (tokens_of rs) -> In u (tokens_of rs) -> (compare_token t u = Eq <-> t = u).
Proof.
  intros T A B. split; [|intros ->; apply token_same]. destruct (two_places _ _ _ A B) as [E|[(x & y & z & E)|(x & y & z & E)]]; [auto| |].
  - rewrite (tokens_compared _ _ _ _ _ _ _ _ T E). discriminate.
  - rewrite token_opp, (tokens_compared _ _ _ _ _ _ _ _ T E). discriminate.
Qed.
Lemma refs_equal c source rs t u : tokenize c source = Done rs -> In t (refs_of rs) -> In u (refs_of rs) -> (compare_ref t u = Eq <-> t = u).
Proof.
  intros T A B. split; [|intros ->; apply token_same]. destruct (two_places _ _ _ A B) as [E|[(x & y & z & E)|(x & y & z & E)]]; [auto| |].
  - rewrite (refs_compared _ _ _ _ _ _ _ _ T E). discriminate.
  - unfold compare_ref. rewrite token_opp. fold (compare_ref u t). rewrite (refs_compared _ _ _ _ _ _ _ _ T E). discriminate.
Qed.
Lemma updated_compared a x t y u z : well_typed (a_nodes a) -> ast_tokens (update_positions a) = x ++ t :: y ++ u :: z ->
  compare_token t u = if existsb (fun t => match show_token t with [] => false | _ => true end) (t :: y) then Lt else Eq.
Proof.
  intros W E. destruct (update_tiles a x t (y ++ u :: z) W E) as [S _].
  destruct (update_tiles a (x ++ t :: y) u z W) as [S' _]; [now rewrite E, <- app_assoc|].
  unfold compare_token, compare_position. rewrite S, S', !bytes_pos_of. unfold print_tokens. rewrite flat_map_app, bytes_of_app.
  assert (X : forall l, (0 <? bytes_of (flat_map show_token l)) = existsb (fun t => match show_token t with [] => false | _ => true end) l).
  { induction l as [|w l IH]; [reflexivity|]. cbn [flat_map existsb]. rewrite bytes_of_app, <- IH. destruct (show_token w) as [|d v]; [reflexivity|]. apply N.ltb_lt.
    assert (0 < bytes_of (d :: v)) by now apply bytes_positive. unfold text, char in *. lia. }
  rewrite <- X. destruct (0 <? bytes_of (flat_map show_token (t :: y))) eqn:L.
  - apply N.ltb_lt in L. apply N.compare_lt_iff. lia.
  - apply N.ltb_ge in L. apply N.compare_eq_iff. lia.
Qed.
