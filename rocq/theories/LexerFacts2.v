(** Facts about the string, comment and long bracket readers. Proof file. *)
From Verif Require Import Lexer LexerFacts.
From Coq Require Import Lia ZifyBool ZifyNat ZifyN.
Local Open Scope N_scope.
Arguments ch a : simpl never.
Arguments advance p c : simpl never.

(** ** Quoted strings *)

(** Scanner state machine: [t] read from escape state [esc] has no unescaped [q] and no dangling backslash. *)
Fixpoint escaped_from (q : char) (esc : bool) (t : text) : bool :=
  match t with
  | [] => negb esc
  | d :: r => if esc then escaped_from q false r
              else if d =? c_backslash then escaped_from q true r
              else negb (d =? q) && escaped_from q false r
  end.

(** No unescaped line break. *)
Definition is_newline (d : char) : bool := (d =? c_nl) || (d =? c_cr).
Fixpoint no_break_from (esc : bool) (t : text) : bool :=
  match t with
  | [] => true
  | d :: r => if esc then no_break_from false r
              else if d =? c_backslash then no_break_from true r
              else negb (is_newline d) && no_break_from false r
  end.

Lemma read_string_loop_spec c q rest : forall pos lit esc z w rec s,
  q <> c_backslash -> q <> c_nl -> q <> c_cr ->
  read_string_loop c q rest pos lit esc z = (w, rec, s) ->
  exists t, w = lit ++ t /\
    if rec
    then (moved (mkSrc rest pos) t s /\ s_rest s = []) \/
         (exists d, is_newline d = true /\ moved (mkSrc rest pos) (t ++ [d]) s /\ escaped_from q esc t = true)
    else moved (mkSrc rest pos) (t ++ [q]) s /\ escaped_from q esc t = true /\
         (has_lua52 c = false -> has_luau c = false -> has_luajit c = false -> z = false -> no_break_from esc t = true).
Proof.
  intros pos lit esc z w rec s Hq1 Hq2 Hq3. revert pos lit esc z w rec s.
  induction rest as [|d r IH]; intros pos lit esc z w rec s H; cbn [read_string_loop] in H.
  - injection H as <- <- <-. exists []. rewrite app_nil_r. split; [reflexivity|]. left. split; [apply moved_nil|reflexivity].
  - assert (K : forall lit' esc' z',
      read_string_loop c q r (advance pos d) lit' esc' z' = (w, rec, s) -> lit' = lit ++ [d] ->
      (forall t, escaped_from q esc (d :: t) = escaped_from q esc' t) ->
      (forall t, has_lua52 c = false -> has_luau c = false -> has_luajit c = false -> z = false ->
         no_break_from esc' t = true -> no_break_from esc (d :: t) = true) ->
      (has_lua52 c = false -> has_luau c = false -> has_luajit c = false -> z = false -> z' = false) ->
      exists t, w = lit ++ t /\
        if rec
        then (moved (mkSrc (d :: r) pos) t s /\ s_rest s = []) \/
             (exists d', is_newline d' = true /\ moved (mkSrc (d :: r) pos) (t ++ [d']) s /\ escaped_from q esc t = true)
        else moved (mkSrc (d :: r) pos) (t ++ [q]) s /\ escaped_from q esc t = true /\
             (has_lua52 c = false -> has_luau c = false -> has_luajit c = false -> z = false -> no_break_from esc t = true)).
    { intros lit' esc' z' HH -> He Hb Hz. apply IH in HH as (t & -> & R). exists (d :: t).
      rewrite <- app_assoc. split; [reflexivity|]. destruct rec.
      - destruct R as [[M E]|(d' & Hd' & M & E)].
        + left. split; [now apply moved_cons|assumption].
        + right. exists d'. split; [assumption|]. split; [now apply (moved_cons d)|]. now rewrite He.
      - destruct R as (M & E & B). split; [now apply (moved_cons d)|]. split; [now rewrite He|].
        intros. apply Hb; auto. }
    destruct esc.
    + destruct ((d =? ch "z") && (has_lua52 c || has_luau c || has_luajit c)) eqn:Ez.
      * apply andb_true_iff in Ez as [Ez Ev]. apply N.eqb_eq in Ez; subst d.
        eapply K in H; auto.
        intros A1 A2 A3. rewrite A1, A2, A3 in Ev. discriminate.
      * eapply K in H; auto. intros A1 A2 A3 ->. rewrite A1, A2. reflexivity.
    + destruct (d =? c_backslash) eqn:Eb.
      * apply N.eqb_eq in Eb; subst d. eapply K in H; auto.
      * fold (is_newline d) in H. destruct (is_newline d) eqn:En.
        { destruct z.
          - eapply K in H; auto; try congruence.
            intros t. cbn. rewrite Eb. replace (d =? q) with false; [reflexivity|].
            symmetry. apply N.eqb_neq. intros ->. unfold is_newline in En.
            apply N.eqb_neq in Hq2, Hq3. rewrite Hq2, Hq3 in En. discriminate.
          - injection H as <- <- <-. exists []. rewrite app_nil_r. split; [reflexivity|].
            right. exists d. split; [assumption|]. split; [split; reflexivity|]. reflexivity. }
        destruct (d =? q) eqn:Eq.
        { apply N.eqb_eq in Eq; subst d. injection H as <- <- <-. exists []. rewrite app_nil_r.
          split; [reflexivity|]. split; [split; reflexivity|]. split; reflexivity. }
        eapply K in H; auto.
        -- intros t. cbn. rewrite Eb, Eq. reflexivity.
        -- intros t. cbn. rewrite Eb, En. cbn. auto.
Qed.

(** A well-formed literal without unescaped line breaks is always accepted, in every version. *)
Lemma read_string_loop_complete c q t : forall r pos lit esc z,
  q <> c_backslash -> q <> c_nl -> q <> c_cr ->
  escaped_from q esc t = true -> no_break_from esc t = true ->
  read_string_loop c q (t ++ q :: r) pos lit esc z = (lit ++ t, false, mkSrc r (adv pos (t ++ [q]))).
Proof.
  intros r pos lit esc z Hq1 Hq2 Hq3. revert pos lit esc z.
  induction t as [|d t IH]; intros pos lit esc z He Hb.
  - cbn in He. destruct esc; [discriminate|]. cbn [read_string_loop app].
    apply N.eqb_neq in Hq1, Hq2, Hq3. rewrite Hq1, Hq2, Hq3. cbn [orb]. rewrite N.eqb_refl, app_nil_r. reflexivity.
  - cbn [app read_string_loop]. cbn in He, Hb.
    assert (A : forall e' z', escaped_from q e' t = true -> no_break_from e' t = true ->
      read_string_loop c q (t ++ q :: r) (advance pos d) (lit ++ [d]) e' z' = (lit ++ d :: t, false, mkSrc r (adv pos (d :: t ++ [q])))).
    { intros. rewrite IH by assumption. rewrite <- app_assoc. reflexivity. }
    destruct esc.
    + destruct ((d =? ch "z") && (has_lua52 c || has_luau c || has_luajit c)) eqn:Ez.
      * apply andb_true_iff in Ez as [Ez _]. apply N.eqb_eq in Ez; subst d. now apply A.
      * now apply A.
    + destruct (d =? c_backslash) eqn:Eb.
      * apply N.eqb_eq in Eb; subst d. now apply A.
      * fold (is_newline d). apply andb_true_iff in Hb as [Hb1 Hb2]. apply andb_true_iff in He as [He1 He2].
        apply negb_true_iff in Hb1, He1. rewrite Hb1, He1. now apply A.
Qed.

(** ** Long brackets *)

Definition closer (n : nat) : text := ch "]" :: repeat_eq n ++ [ch "]"].

Definition pend_text (p : option nat) : text :=
  match p with Some k => ch "]" :: repeat_eq k | None => [] end.

Lemma repeat_eq_S k : repeat_eq (S k) = ch "=" :: repeat_eq k.
Proof. reflexivity. Qed.

Lemma repeat_eq_snoc k : repeat_eq k ++ [ch "="] = repeat_eq (S k).
Proof. unfold repeat_eq. induction k; [reflexivity|]. cbn [repeat app]. rewrite IHk. reflexivity. Qed.

Lemma repeat_eq_length k : List.length (repeat_eq k) = k.
Proof. apply repeat_length. Qed.

Lemma eq_run_mismatch : forall k n c r v,
  (k <= n)%nat -> ((k < n)%nat -> c <> ch "=") -> (k = n -> c <> ch "]") ->
  repeat_eq k ++ c :: r = repeat_eq n ++ ch "]" :: v -> False.
Proof.
  induction k; intros n c r v Hk H1 H2 E.
  - destruct n; cbn in E; injection E as -> _.
    + now apply H2.
    + apply H1; [lia|reflexivity].
  - destruct n; [lia|]. rewrite !repeat_eq_S in E. cbn [app] in E. injection E as E.
    eapply IHk in E; [assumption|lia|intros; apply H1; lia|intros; apply H2; lia].
Qed.

Lemma eq_run_split : forall k x u w,
  repeat_eq k ++ x = u ++ ch "]" :: w ->
  exists u', u = repeat_eq k ++ u' /\ x = u' ++ ch "]" :: w.
Proof.
  induction k; intros x u w E.
  - exists u. split; [reflexivity|exact E].
  - rewrite repeat_eq_S in E. cbn [app] in E. destruct u as [|y u].
    + discriminate E.
    + injection E as <- E. apply IHk in E as (u' & -> & ->). exists u'. split; reflexivity.
Qed.

Lemma skip_pending k n c r u v :
  (k <= n)%nat -> ((k < n)%nat -> c <> ch "=") -> (k = n -> c <> ch "]") ->
  pend_text (Some k) ++ c :: r = u ++ closer n ++ v ->
  exists u', u = pend_text (Some k) ++ u' /\ c :: r = u' ++ closer n ++ v.
Proof.
  intros Hk H1 H2 E. cbn [pend_text app] in E. unfold closer in *. destruct u as [|y u].
  - cbn [app] in E. injection E as E. rewrite <- app_assoc in E. cbn in E.
    exfalso. eapply eq_run_mismatch in E; eauto.
  - cbn [app] in E. injection E as <- E. apply eq_run_split in E as (u' & -> & ->).
    exists u'. split; reflexivity.
Qed.

(** [b] is the text before the first occurrence of the closing bracket of depth [n] in [full]. *)
Definition first_closer (n : nat) (full b r : text) : Prop :=
  full = b ++ closer n ++ r /\ forall u v, full = u ++ closer n ++ v -> (List.length b <= List.length u)%nat.
Definition no_closer (n : nat) (full : text) : Prop := forall u v, full <> u ++ closer n ++ v.

Definition body_result (n : nat) (body full pend : text) (s0 : src) (res : multi_line_result) (s : src) : Prop :=
  (exists b t, res = MOk n (body ++ b) /\ first_closer n full b (s_rest s) /\ moved s0 t s /\ pend ++ t = b ++ closer n) \/
  (res = MUnclosed n (body ++ full) /\ no_closer n full /\ s_rest s = [] /\ moved s0 (s_rest s0) s).

Lemma first_closer_cons n full b r c : c <> ch "]" -> first_closer n full b r -> first_closer n (c :: full) (c :: b) r.
Proof.
  intros Hc [-> H]. split; [reflexivity|]. intros u v E. destruct u as [|x u].
  - unfold closer in E. cbn [app] in E. injection E as E _. congruence.
  - cbn [app] in E. injection E as <- E. apply H in E. cbn. lia.
Qed.

Lemma no_closer_cons n full c : c <> ch "]" -> no_closer n full -> no_closer n (c :: full).
Proof.
  intros Hc H u v E. destruct u as [|x u].
  - unfold closer in E. cbn [app] in E. injection E as E _. congruence.
  - cbn [app] in E. injection E as <- E. now apply H in E.
Qed.

Lemma first_closer_pend n k c r b rr :
  (k <= n)%nat -> ((k < n)%nat -> c <> ch "=") -> (k = n -> c <> ch "]") ->
  first_closer n (c :: r) b rr -> first_closer n (pend_text (Some k) ++ c :: r) (pend_text (Some k) ++ b) rr.
Proof.
  intros Hk H1 H2 [E H]. split.
  - rewrite E. now rewrite app_assoc.
  - intros u v E'. apply skip_pending in E' as (u' & -> & E'); auto. apply H in E'. rewrite !app_length. lia.
Qed.

Lemma no_closer_pend n k c r :
  (k <= n)%nat -> ((k < n)%nat -> c <> ch "=") -> (k = n -> c <> ch "]") ->
  no_closer n (c :: r) -> no_closer n (pend_text (Some k) ++ c :: r).
Proof. intros Hk H1 H2 H u v E. apply skip_pending in E as (u' & -> & E); auto. now apply H in E. Qed.

Lemma no_closer_pend_nil n k : (k <= n)%nat -> no_closer n (pend_text (Some k)).
Proof.
  intros Hk u v E. assert (L := f_equal (@List.length char) E).
  unfold closer in L. cbn [pend_text] in L. rewrite !app_length in L. cbn in L.
  rewrite app_length, !repeat_eq_length in L. cbn in L. lia.
Qed.

Lemma read_body_spec n rest : forall pos body pending res s,
  match pending with Some k => (k <= n)%nat | None => True end ->
  read_body n rest pos body pending = (res, s) ->
  body_result n body (pend_text pending ++ rest) (pend_text pending) (mkSrc rest pos) res s.
Proof.
  induction rest as [|c r IH]; intros pos body pending res s Hk H; cbn [read_body] in H.
  - injection H as <- <-. right. rewrite app_nil_r. cbn [s_rest].
    split; [destruct pending; cbn [pend_text]; [reflexivity|now rewrite app_nil_r]|]. split; [|split; [reflexivity|apply moved_nil]].
    destruct pending as [k|]; [now apply no_closer_pend_nil|].
    intros u v E. unfold closer in E. destruct u; discriminate E.
  - assert (Plain : forall body' pre,
      (if c =? ch "]" then read_body n r (advance pos c) body' (Some O) else read_body n r (advance pos c) (body' ++ [c]) None) = (res, s) ->
      body' = body ++ pre ->
      (forall b rr, first_closer n (c :: r) b rr -> first_closer n (pre ++ c :: r) (pre ++ b) rr) ->
      (no_closer n (c :: r) -> no_closer n (pre ++ c :: r)) ->
      body_result n body (pre ++ c :: r) pre (mkSrc (c :: r) pos) res s).
    { intros body' pre HH -> HF HN. destruct (c =? ch "]") eqn:Ec.
      - apply N.eqb_eq in Ec; subst c. apply IH in HH; [|lia]. cbn [pend_text repeat_eq repeat app] in HH.
        destruct HH as [(b & t & -> & F & M & E)|(-> & NC & E & M)].
        + left. exists (pre ++ b), (ch "]" :: t). split; [now rewrite app_assoc|]. split; [now apply HF|].
          split; [now apply moved_cons|]. rewrite <- app_assoc, <- E. reflexivity.
        + right. split; [now rewrite <- app_assoc|]. split; [now apply HN|]. split; [assumption|]. now apply (moved_cons (ch "]")).
      - apply N.eqb_neq in Ec. apply IH in HH; [|exact I]. cbn [pend_text app] in HH.
        destruct HH as [(b & t & -> & F & M & E)|(-> & NC & E & M)].
        + left. exists (pre ++ c :: b), (c :: t). split; [now rewrite <- !app_assoc|].
          split; [apply HF; now apply first_closer_cons|]. split; [now apply moved_cons|].
          rewrite <- app_assoc. cbn [app]. rewrite <- E. reflexivity.
        + right. split; [now rewrite <- !app_assoc|]. split; [apply HN; now apply no_closer_cons|]. split; [assumption|]. now apply (moved_cons c). }
    destruct pending as [k|].
    + destruct (Nat.ltb k n) eqn:Ek; cbn [andb negb] in H.
      * apply Nat.ltb_lt in Ek. destruct (c =? ch "=") eqn:Ec.
        { apply N.eqb_eq in Ec; subst c. apply IH in H; [|lia].
          assert (E1 : pend_text (Some (S k)) ++ r = pend_text (Some k) ++ ch "=" :: r).
          { cbn [pend_text app]. f_equal. rewrite <- repeat_eq_snoc, <- app_assoc. reflexivity. }
          rewrite E1 in H. destruct H as [(b & t & -> & F & M & E)|(-> & NC & E & M)].
          - left. exists b, (ch "=" :: t). split; [reflexivity|]. split; [assumption|]. split; [now apply moved_cons|].
            rewrite <- E. cbn [pend_text app]. f_equal. rewrite <- repeat_eq_snoc, <- app_assoc. reflexivity.
          - right. split; [reflexivity|]. split; [assumption|]. split; [assumption|]. now apply (moved_cons (ch "=")). }
        apply N.eqb_neq in Ec. eapply Plain in H; [exact H|reflexivity| |].
        -- intros. apply first_closer_pend; auto; lia.
        -- intros. apply no_closer_pend; auto; lia.
      * apply Nat.ltb_ge in Ek. assert (k = n) by lia; subst k. destruct (c =? ch "]") eqn:Ec.
        { apply N.eqb_eq in Ec; subst c. injection H as <- <-. left. exists [], [ch "]"].
          split; [now rewrite app_nil_r|]. split; [|split; [split; reflexivity|reflexivity]].
          split; [|intros; cbn; lia]. cbn [pend_text s_rest]. unfold closer. cbn [app]. now rewrite <- app_assoc. }
        apply N.eqb_neq in Ec. eapply Plain in H; [exact H|reflexivity| |].
        -- intros. apply first_closer_pend; auto; lia.
        -- intros. apply no_closer_pend; auto; lia.
    + eapply (Plain body []) in H; [exact H|now rewrite app_nil_r|auto|auto].
Qed.

Lemma count_eq_spec rest : forall pos n m s,
  count_eq rest pos n = (m, s) ->
  exists k, m = (n + k)%nat /\ moved (mkSrc rest pos) (repeat_eq k) s /\ head_not (fun c => c =? ch "=") (s_rest s).
Proof.
  induction rest as [|c r IH]; intros pos n m s H; cbn [count_eq] in H.
  - injection H as <- <-. exists O. split; [lia|]. split; [apply moved_nil|exact I].
  - destruct (c =? ch "=") eqn:E.
    + apply N.eqb_eq in E; subst c. apply IH in H as (k & -> & M & Hd). exists (S k). split; [lia|]. split; [|assumption].
      rewrite repeat_eq_S. now apply moved_cons.
    + injection H as <- <-. exists O. split; [lia|]. split; [apply moved_nil|exact E].
Qed.

(** Result of [read_multi_line_body] called just after the first ['[']. *)
Lemma read_multi_line_body_spec s res s' :
  read_multi_line_body s = (res, s') ->
  exists n, 
    match res with
    | MOk m b => m = n /\ exists full, s_rest s = repeat_eq n ++ ch "[" :: full /\ first_closer n full b (s_rest s') /\
                 moved s (repeat_eq n ++ ch "[" :: b ++ closer n) s'
    | MUnclosed m b => m = n /\ s_rest s = repeat_eq n ++ ch "[" :: b /\ no_closer n b /\ s_rest s' = [] /\
                 moved s (s_rest s) s'
    | MNotMultiLine m => m = n /\ moved s (repeat_eq n) s' /\ head_not (fun c => (c =? ch "=") || (c =? ch "[")) (s_rest s')
    end.
Proof.
  unfold read_multi_line_body. destruct (count_eq (s_rest s) (s_pos s) 0) as [n s1] eqn:C.
  apply count_eq_spec in C as (k & E & M & Hd). rewrite src_eta in M. cbn in E; subst k.
  destruct (src_consume s1 (ch "[")) as [s2|] eqn:C2.
  - apply src_consume_some in C2. intros H. destruct s2 as [r2 p2]. cbn [s_rest s_pos] in H. apply read_body_spec in H; [|exact I].
    cbn [pend_text app] in H.
    assert (M2 : moved s (repeat_eq n ++ [ch "["]) (mkSrc r2 p2)) by (eapply moved_app; eassumption).
    destruct H as [(b & t & -> & F & M3 & E)|(-> & NC & E & M3)]; exists n.
    + split; [reflexivity|]. exists r2. cbn [app] in *. subst t. split.
      * destruct M2 as [M2 _]. rewrite M2. cbn. now rewrite <- app_assoc.
      * split; [assumption|]. replace (repeat_eq n ++ ch "[" :: b ++ closer n) with ((repeat_eq n ++ [ch "["]) ++ b ++ closer n)
          by now rewrite <- app_assoc. eapply moved_app; eassumption.
    + split; [reflexivity|]. cbn [app s_rest] in *. split; [|split; [assumption|split; [assumption|]]].
      * destruct M2 as [M2 _]. rewrite M2. cbn. now rewrite <- app_assoc.
      * assert (M4 := moved_app _ _ _ _ _ M2 M3). destruct M4 as [M4 M5]. rewrite E, app_nil_r in M4. rewrite M4.
        split; [rewrite E, app_nil_r; congruence|assumption].
  - intros [= <- <-]. exists n. split; [reflexivity|]. split; [assumption|].
    unfold src_consume in C2. destruct (s_rest s1) as [|d r]; [exact I|]. cbn in Hd |- *. rewrite Hd.
    destruct (d =? ch "["); [discriminate|reflexivity].
Qed.

(** ** Comments *)

Lemma read_line_spec rest : forall pos acc w s,
  read_line rest pos acc = (w, s) ->
  exists t, w = acc ++ t /\ moved (mkSrc rest pos) t s /\ forallb (fun c => negb (c =? c_nl)) t = true /\
            head_not (fun c => negb (c =? c_nl)) (s_rest s).
Proof.
  induction rest as [|c r IH]; intros pos acc w s H; cbn [read_line] in H.
  - injection H as <- <-. exists []. rewrite app_nil_r. repeat split.
  - destruct (c =? c_nl) eqn:E.
    + injection H as <- <-. exists []. rewrite app_nil_r. repeat split. cbn. now rewrite E.
    + apply IH in H as (t & -> & M & F & Hd). exists (c :: t). rewrite <- app_assoc. split; [reflexivity|].
      split; [now apply moved_cons|]. split; [|assumption]. cbn [forallb]. now rewrite E.
Qed.

(** Does the text start with a long bracket opener? *)
Definition long_open (n : nat) : text := ch "[" :: repeat_eq n ++ [ch "["].
Lemma long_open_app n x : long_open n ++ x = [ch "["] ++ repeat_eq n ++ ch "[" :: x.
Proof. unfold long_open. cbn [app]. now rewrite <- app_assoc. Qed.
Definition no_long_open (t : text) : Prop := forall n v, t <> long_open n ++ v.

Lemma no_long_open_not_bracket t : (forall r, t <> ch "[" :: r) -> no_long_open t.
Proof. intros H n v ->. now apply (H ((repeat_eq n ++ [ch "["]) ++ v)). Qed.

Lemma no_long_open_eq n t : head_not (fun c => (c =? ch "=") || (c =? ch "[")) t ->
  no_long_open (ch "[" :: repeat_eq n ++ t).
Proof.
  intros Hd m v E. unfold long_open in E. cbn [app] in E. injection E as E. rewrite <- app_assoc in E. cbn [app] in E.
  revert m E. induction n; intros m E.
  - cbn [repeat_eq repeat app] in E. subst t. destruct m; cbn in Hd; discriminate.
  - destruct m; rewrite ?repeat_eq_S in E; cbn [app] in E; [discriminate|]. injection E as E. eauto.
Qed.

Lemma read_comment_spec s tt rec s' :
  read_comment s = (tt, rec, s') ->
  (exists n b full, tt = TMultiLineComment n b /\ rec = false /\ s_rest s = long_open n ++ full /\
      first_closer n full b (s_rest s') /\ moved s (long_open n ++ b ++ closer n) s') \/
  (exists n b, tt = TMultiLineComment n b /\ rec = true /\ s_rest s = long_open n ++ b /\ no_closer n b /\
      s_rest s' = [] /\ moved s (s_rest s) s') \/
  (exists t, tt = TSingleLineComment t /\ rec = false /\ moved s t s' /\ no_long_open (s_rest s) /\
      forallb (fun c => negb (c =? c_nl)) t = true /\ head_not (fun c => negb (c =? c_nl)) (s_rest s')).
Proof.
  unfold read_comment. destruct (src_consume s (ch "[")) as [s1|] eqn:C.
  - apply src_consume_some in C. destruct (read_multi_line_body s1) as [res s2] eqn:R.
    apply read_multi_line_body_spec in R as (n & R). destruct res as [m b|m|m b].
    + destruct R as (-> & full & E & F & M). intros [= <- <- <-]. left. exists n, b, full.
      assert (M' := moved_app _ _ _ _ _ C M).
      repeat split; try (apply F).
      * destruct C as [C _]. rewrite C, E. unfold long_open. cbn [app]. now rewrite <- app_assoc.
      * destruct M' as [M' _]. rewrite M'. now rewrite long_open_app.
      * destruct M' as [_ M']. rewrite M'. f_equal. now rewrite long_open_app.
    + destruct R as (-> & M & Hd).
      assert (M1 := moved_app _ _ _ _ _ C M).
      destruct (read_line (s_rest s2) (s_pos s2) ([ch "["] ++ repeat_eq n)) as [w s3] eqn:L. intros [= <- <- <-].
      apply read_line_spec in L as (t & -> & M2 & F & Hd2). rewrite src_eta in M2.
      right; right. exists (([ch "["] ++ repeat_eq n) ++ t). split; [reflexivity|]. split; [reflexivity|].
      split; [eapply moved_app; eassumption|]. split; [|split; [|assumption]].
      * destruct M1 as [M1 _]. rewrite M1. cbn [app]. now apply no_long_open_eq.
      * rewrite forallb_app. apply andb_true_iff. split; [|exact F]. cbn [app forallb]. apply andb_true_iff. split; [reflexivity|].
        unfold repeat_eq. clear. induction n; [reflexivity|]. cbn [repeat forallb]. now rewrite IHn.
    + destruct R as (-> & E & NC & E2 & M). intros [= <- <- <-]. right; left. exists n, b.
      assert (M' := moved_app _ _ _ _ _ C M).
      assert (E3 : s_rest s = long_open n ++ b).
      { destruct C as [C _]. rewrite C, E. unfold long_open. cbn [app]. now rewrite <- app_assoc. }
      repeat split; auto.
      * rewrite E2. now rewrite app_nil_r.
      * destruct M' as [_ M']. rewrite M'. f_equal. rewrite E3, E. now rewrite long_open_app.
  - destruct (read_line (s_rest s) (s_pos s) []) as [w s3] eqn:L. intros [= <- <- <-].
    apply read_line_spec in L as (t & -> & M2 & F & Hd2). rewrite src_eta in M2.
    right; right. exists t. repeat split; try apply M2; auto.
    apply no_long_open_not_bracket. intros r E. unfold src_consume in C. rewrite E in C.
    rewrite N.eqb_refl in C. discriminate.
Qed.

(** C-style comments: text before the first [*/]. *)
Definition c_closer : text := [ch "*"; ch "/"].

Lemma read_c_style_comment_spec rest : forall pos acc tt rec s,
  read_c_style_comment rest pos acc = (tt, rec, s) ->
  (exists b, tt = TCStyleComment (acc ++ b) /\ rec = false /\ moved (mkSrc rest pos) (b ++ c_closer) s /\
     forall u v, rest = u ++ c_closer ++ v -> (List.length b <= List.length u)%nat) \/
  (tt = TCStyleComment (acc ++ rest) /\ rec = true /\ s_rest s = [] /\ moved (mkSrc rest pos) rest s /\
     forall u v, rest <> u ++ c_closer ++ v).
Proof.
  induction rest as [|c r IH]; intros pos acc tt rec s H; cbn [read_c_style_comment] in H.
  - injection H as <- <- <-. right. rewrite app_nil_r. repeat split. intros u v E. destruct u; discriminate.
  - assert (K : read_c_style_comment r (advance pos c) (acc ++ [c]) = (tt, rec, s) ->
      (forall v, c :: r <> c_closer ++ v) ->
      (exists b, tt = TCStyleComment (acc ++ b) /\ rec = false /\ moved (mkSrc (c :: r) pos) (b ++ c_closer) s /\
         forall u v, c :: r = u ++ c_closer ++ v -> (List.length b <= List.length u)%nat) \/
      (tt = TCStyleComment (acc ++ c :: r) /\ rec = true /\ s_rest s = [] /\ moved (mkSrc (c :: r) pos) (c :: r) s /\
         forall u v, c :: r <> u ++ c_closer ++ v)).
    { intros HH HN. apply IH in HH as [(b & -> & -> & M & F)|(-> & -> & E & M & F)]; [left|right].
      - exists (c :: b). rewrite <- app_assoc. split; [reflexivity|]. split; [reflexivity|].
        split; [now apply (moved_cons c)|]. intros u v E. destruct u as [|x u].
        + now apply HN in E.
        + cbn [app] in E. injection E as <- E. apply F in E. cbn. lia.
      - rewrite <- app_assoc. repeat split; auto.
        + cbn. rewrite E, app_nil_r. reflexivity.
        + now apply (moved_cons c).
        + intros u v E'. destruct u as [|x u].
          * now apply HN in E'.
          * cbn [app] in E'. injection E' as <- E'. now apply F in E'. }
    destruct (c =? ch "*") eqn:Ec.
    + destruct r as [|d r'].
      * apply K in H; auto. discriminate.
      * destruct (d =? ch "/") eqn:Ed.
        -- apply N.eqb_eq in Ec, Ed; subst c d. injection H as <- <- <-. left. exists []. rewrite app_nil_r.
           repeat split. intros; cbn; lia.
        -- apply K in H; auto. intros v E. injection E as _ E _. apply N.eqb_neq in Ed. congruence.
    + apply K in H; auto. intros v E. injection E as E _. apply N.eqb_neq in Ec. congruence.
Qed.

(** ** Interpolated strings *)

Lemma read_istr_spec rest : forall pos acc esc z u w e s,
  read_istr rest pos acc esc z u = (w, e, s) ->
  exists t, w = acc ++ t /\
    match e with
    | Some true => moved (mkSrc rest pos) (t ++ [ch "{"]) s
    | Some false => moved (mkSrc rest pos) (t ++ [c_backtick]) s
    | None => moved (mkSrc rest pos) t s
    end.
Proof.
  remember (List.length rest) as n eqn:Hn. revert rest Hn.
  induction n as [n IHn] using (well_founded_induction Wf_nat.lt_wf). intros rest Hn.
  assert (IH : forall rest', (List.length rest' < n)%nat -> forall pos acc esc z u w e s,
    read_istr rest' pos acc esc z u = (w, e, s) ->
    exists t, w = acc ++ t /\
      match e with
      | Some true => moved (mkSrc rest' pos) (t ++ [ch "{"]) s
      | Some false => moved (mkSrc rest' pos) (t ++ [c_backtick]) s
      | None => moved (mkSrc rest' pos) t s
      end).
  { intros rest' Hr. exact (IHn _ Hr rest' eq_refl). }
  intros pos acc esc z u w e s H. destruct rest as [|c r]; cbn [read_istr] in H.
  - injection H as <- <- <-. exists []. rewrite app_nil_r. split; [reflexivity|apply moved_nil].
  - cbn [List.length] in Hn.
    assert (K : forall acc' esc' z' u', read_istr r (advance pos c) acc' esc' z' u' = (w, e, s) -> acc' = acc ++ [c] ->
      exists t, w = acc ++ t /\
      match e with
      | Some true => moved (mkSrc (c :: r) pos) (t ++ [ch "{"]) s
      | Some false => moved (mkSrc (c :: r) pos) (t ++ [c_backtick]) s
      | None => moved (mkSrc (c :: r) pos) t s
      end).
    { intros acc' esc' z' u' HH ->. apply IH in HH as (t & -> & M); [|lia]. exists (c :: t). rewrite <- app_assoc.
      split; [reflexivity|]. destruct e as [[]|]; now apply (moved_cons c). }
    destruct (u && _) eqn:Eu; [now apply K in H|].
    destruct (negb esc && negb z && ((c =? c_nl) || (c =? c_cr))) eqn:E1.
    { injection H as <- <- <-. exists []. rewrite app_nil_r. split; [reflexivity|apply moved_nil]. }
    destruct esc.
    { destruct (c =? ch "z") eqn:Ez; [apply N.eqb_eq in Ez; subst c|]; now apply K in H. }
    destruct (c =? c_backslash) eqn:Eb.
    { apply N.eqb_eq in Eb; subst c. destruct r as [|d r']; [now apply K in H|].
      destruct (d =? ch "u") eqn:Ed; [|now apply K in H]. apply N.eqb_eq in Ed; subst d. cbn [List.length] in Hn.
      assert (K2 : forall u', read_istr r' (advance (advance pos c_backslash) (ch "u")) (acc ++ [c_backslash] ++ [ch "u"]) false z u' = (w, e, s) ->
        exists t, w = acc ++ t /\
        match e with
        | Some true => moved (mkSrc (c_backslash :: ch "u" :: r') pos) (t ++ [ch "{"]) s
        | Some false => moved (mkSrc (c_backslash :: ch "u" :: r') pos) (t ++ [c_backtick]) s
        | None => moved (mkSrc (c_backslash :: ch "u" :: r') pos) t s
        end).
      { intros u' HH. apply IH in HH as (t & -> & M); [|lia]. exists (c_backslash :: ch "u" :: t). rewrite <- !app_assoc.
        split; [reflexivity|]. destruct e as [[]|]; now do 2 apply moved_cons. }
      destruct r' as [|x r'']; [now apply K2 in H|].
      destruct (x =? ch "{") eqn:Ex; [|now apply K2 in H]. apply N.eqb_eq in Ex; subst x. cbn [List.length] in Hn.
      apply IH in H as (t & -> & M); [|lia]. exists (c_backslash :: ch "u" :: ch "{" :: t). rewrite <- !app_assoc.
      split; [reflexivity|]. destruct e as [[]|]; now do 3 apply moved_cons. }
    destruct (((c =? c_nl) || (c =? c_cr)) && z) eqn:E2; [now apply K in H|].
    destruct (c =? ch "{") eqn:E3.
    { apply N.eqb_eq in E3; subst c. injection H as <- <- <-. exists []. rewrite app_nil_r. repeat split. }
    destruct (c =? c_backtick) eqn:E4.
    { apply N.eqb_eq in E4; subst c. injection H as <- <- <-. exists []. rewrite app_nil_r. repeat split. }
    now apply K in H.
Qed.
