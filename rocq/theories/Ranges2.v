(** Ranges of errors begin before they end (C56): the tokens at the ends of a node, and logic. *)
From Verif Require Import LexerSpec PunctuatedProofs.
From Verif Require Import Order7 ParserTop ParserSafe6 ParserTheorems.
From Verif Require Export OrderSpec Ranges1.
From Coq Require Import Lia Permutation.
Local Open Scope nat_scope.
Import ListNotations.

(** ** One token before another *)
Inductive bef : list tokref -> tokref -> tokref -> Prop :=
| bef_here a b l : In b l -> bef (a :: l) a b
| bef_later x a b l : bef l a b -> bef (x :: l) a b.
Lemma bef_right l m a b : bef l a b -> bef (l ++ m) a b.
Proof. induction 1; cbn [app]; [apply bef_here; apply in_or_app; now left|now apply bef_later]. Qed.
Lemma bef_left l m a b : bef m a b -> bef (l ++ m) a b.
Proof. intros H. induction l; cbn [app]; [assumption|now apply bef_later]. Qed.
Lemma bef_both l m a b : In a l -> In b m -> bef (l ++ m) a b.
Proof.
  intros A B. induction l as [|x l IH]; [destruct A|]. cbn [app]. destruct A as [->|A]; [apply bef_here; apply in_or_app; now right|apply bef_later; auto].
Qed.
Lemma bef_split l a b : bef l a b <-> exists x y z, l = x ++ a :: y ++ b :: z.
Proof.
  split.
  - induction 1 as [a b l H|x a b l _ (u & v & w & ->)]; [apply in_split in H as (y & z & ->); now exists [], y, z|now exists (x :: u), v, w].
  - intros (x & y & z & ->). apply bef_left, bef_here, in_elt.
Qed.
Lemma bef_first l a b : In a l -> In b (a :: l) -> hd_error l = Some a -> a = b \/ bef l a b.
Proof. destruct l as [|x l]; [intros []|]. intros _ B [= ->]. destruct B as [B|[B|B]]; [now left|now left|right; now apply bef_here]. Qed.
Lemma drawn_in made l u t : drawn made l u -> In t l -> made t \/ In t u.
Proof. induction 1 as [|x l u D IH|x l u D IH|x l u M D IH]; cbn [In]; [tauto| | |]; intros H; [destruct H as [<-|H]|specialize (IH H)|destruct H as [<-|H]]; tauto. Qed.
Lemma drawn_bef made l u a b : drawn made l u -> bef l a b -> made a \/ made b \/ bef u a b.
Proof.
  induction 1 as [|x l u D IH|x l u D IH|x l u M D IH]; intros H.
  - inversion H.
  - inversion H as [? ? ? I|? ? ? ? I]; subst.
    + destruct (drawn_in _ _ _ _ D I); [tauto|]. right. right. now apply bef_here.
    + destruct (IH I) as [?|[?|?]]; [tauto|tauto|]. right. right. now apply bef_later.
  - destruct (IH H) as [?|[?|?]]; [tauto|tauto|]. right. right. now apply bef_later.
  - inversion H as [? ? ? I|? ? ? ? I]; subst; [now left|auto].
Qed.

(** ** The first token of a node is the first that it prints *)
Lemma hd_app {A} (a b : list A) : hd_error (a ++ b) = match hd_error a with Some x => Some x | None => hd_error b end.
Proof. now destruct a. Qed.
Lemma heads t : forall y, has_ty t y -> hd_error (leaves t) = hd_error (printed t).
Proof.
  induction t as [r|c cs IH|k cs IH] using tree_ind'; intros y H.
  - reflexivity.
  - rewrite printed_con. cbn [leaves]. pose proof (wt_children _ _ H) as Hc. cbn in Hc. clear H.
    induction IH as [|x cs Hx _ IH]; [reflexivity|]. cbn [flat_map]. inversion Hc as [|? ? [z Hz]]; subst. rewrite !hd_app, (Hx z Hz), IH; auto.
  - pose proof (wt_children _ _ H) as Hc. apply wt_nd in H as [_ H].
    assert (I : Forall (fun t => hd_error (leaves t) = hd_error (printed t)) cs).
    { clear H. induction IH as [|x cs Hx _ IH]; constructor; inversion Hc as [|? ? [z Hz]]; subst; eauto. }
    assert (J : hd_error (flat_map leaves cs) = hd_error (flat_map printed cs)).
    { clear - I. induction I as [|x cs Hx _ IH]; [reflexivity|]. cbn [flat_map]. now rewrite !hd_app, Hx, IH. }
    cbn [leaves]. destruct (encloses k) eqn:En; [|now rewrite printed_plain; [|assumption|now apply (forall2_length has_ty)]].
    rewrite J. clear IH Hc I J. rewrite printed_nd. destruct k; try discriminate En; cbn [fields] in H;
      repeat match goal with X : Forall2 _ _ (_ :: _) |- _ => inversion X; clear X; subst | X : Forall2 _ _ [] |- _ => inversion X; clear X; subst end;
      repeat match goal with
        | X : has_ty _ YTok |- _ => apply ty_tok in X as (? & ->)
        | X : has_ty _ YSpan |- _ => apply ty_span in X as (? & ? & ->)
        end;
      cbn [display_order flat_map pick at_ subs_at subs nth_error]; rewrite ?printed_con; cbn [flat_map]; rewrite ?hd_app; cbn; try reflexivity;
      match goal with |- context [hd_error (printed ?x)] => destruct (hd_error (printed x)); reflexivity end.
Qed.
Lemma node_leaves c y t : has c y t -> hd_error (leaves t) = hd_error (printed t) /\ forall r, In r (leaves t) -> In r (printed t).
Proof.
  intros [H E]. split; [exact (heads t y H)|]. intros r. apply Permutation_in. apply (leaves_printed t y H).
  revert E. apply every_impl. intros k cs N. unfold node_ok in N. rewrite !andb_true_iff in N. tauto.
Qed.

(** ** Typed results *)
(** The results that are left: none, or some that end with the end of the file and are of the dialect. *)
Definition rest_ok (c : cfg) (s : pstate) : Prop := st_toks s = [] \/ inv c True s.
Lemma rest_tail c s s' u : rest_ok c s -> st_toks s = u ++ st_toks s' -> rest_ok c s'.
Proof.
  intros [H|((pre & x & t & T & X) & En & _)] E.
  - left. rewrite H in E. symmetry in E. now apply app_eq_nil in E.
  - rewrite T in E, En. destruct (st_toks s') as [|y l] eqn:S using rev_ind; [now left|]. right. rewrite app_assoc in E. apply app_inj_tail in E as [E <-].
    split; [rewrite S; eauto|]. split; [|now left]. rewrite S. rewrite E, <- app_assoc in En. now apply Forall_app in En.
Qed.
Definition stuck {A} (m : M A) : Prop := forall s, st_toks s = [] -> forall x, m s <> Done x.
Lemma stuck_current {A} (k : option tokref -> M A) : stuck (bind current k).
Proof. intros s H x. unfold bind, current. now rewrite H. Qed.
Lemma stuck_bind {A B} (m : M A) (k : A -> M B) : stuck m -> stuck (bind m k).
Proof. intros M s H x. unfold bind. specialize (M s H). destruct (m s) as [y| |]; [now specialize (M y)|discriminate|discriminate]. Qed.
Lemma stuck_none {A} : stuck (@lift A OutOfFuel).
Proof. intros s H x. discriminate. Qed.
Lemma stuck_loop {A B} (f : A -> M (A + B)) a : stuck (f a) -> stuck (loop f a).
Proof. intros M s H x. unfold loop. cbn [loop_]. specialize (M s H). destruct (f a s) as [y| |]; [now specialize (M y)|discriminate|discriminate]. Qed.
Definition pstuck (p : parsers) : Prop := stuck (p_block p) /\ stuck (p_expression p) /\ stuck (p_type p) /\ stuck (p_type_or_pack p).
Lemma stuck_simple c p y : stuck (parse_simple_type c p y).
Proof. unfold parse_simple_type. apply stuck_current. Qed.
Lemma stuck_at c n : pstuck (parsers_at c n).
Proof.
  destruct n as [|n]; cbn [parsers_at no_fuel parsers_step].
  - repeat split; cbn; apply stuck_none.
  - repeat split; cbn [p_block p_expression p_type p_type_or_pack].
    + unfold parse_block. apply stuck_bind, stuck_loop, stuck_bind. unfold parse_stmt. apply stuck_current.
    + unfold parse_expression. apply stuck_bind. unfold parse_primary_expression. apply stuck_bind. unfold primary_arm. cbv zeta. apply stuck_current.
    + unfold parse_type. apply stuck_current.
    + unfold parse_type_or_pack. apply stuck_bind, stuck_simple.
Qed.
Definition typed c {A} (m : M (pres A)) (P : A -> Prop) : Prop := forall s a s', rest_ok c s -> m s = Done (Value a, s') -> P a.
Lemma typed_of c {A} (m m' : M (pres A)) (P : A -> Prop) : stuck m -> up m m' -> forall s (Q : pres A -> pstate -> Prop), W c True m' s Q -> (forall a s', Q (Value a) s' -> P a) ->
  forall a s', rest_ok c s -> m s = Done (Value a, s') -> P a.
Proof.
  intros S U s Q H K a s' [I|I] E; [now destruct (S s I (Value a, s'))|]. specialize (H I). unfold wp in H. destruct (U s) as [X|X]; [congruence|]. rewrite X, E in H. now apply (K a s').
Qed.
Definition ptyped (c : cfg) (p : parsers) : Prop :=
  typed c (p_block p) (has c (YNode NBlock)) /\ typed c (p_expression p) (has c (YNode NExpression)) /\
  (has_luau c = true -> typed c (p_type p) (has c (YNode NTypeInfo)) /\ typed c (p_type_or_pack p) (has c (YNode NTypeInfo))).
Lemma typed_at c n : ptyped c (parsers_at c n).
Proof.
  destruct (stuck_at c n) as (S1 & S2 & S3 & S4). unfold ptyped. split; [|split; [|intros L; split]].
  - intros s a s'. pose proof (up_more c n (n + len s) ltac:(lia)) as (U & _). eapply (typed_of c _ _ _ S1 U s); [apply (g_block _ _ _ _ (good_at c True (n + len s))); lia|]. intros x z; exact (fun X => X).
  - intros s a s'. pose proof (up_more c n (n + len s) ltac:(lia)) as (_ & U & _). eapply (typed_of c _ _ _ S2 U s); [apply (g_expression _ _ _ _ (good_at c True (n + len s))); lia|]. intros x z; cbn; tauto.
  - intros s a s'. pose proof (up_more c n (n + len s) ltac:(lia)) as (_ & _ & _ & _ & U & _). eapply (typed_of c _ _ _ S3 U s); [apply (g_type _ _ _ _ (good_at c True (n + len s))); [assumption|lia]|]. intros x z; cbn; tauto.
  - intros s a s'. pose proof (up_more c n (n + len s) ltac:(lia)) as (_ & _ & _ & _ & _ & U). eapply (typed_of c _ _ _ S4 U s); [apply (g_type_or_pack _ _ _ _ (good_at c True (n + len s))); [assumption|lia]|]. intros x z; cbn; tauto.
Qed.
