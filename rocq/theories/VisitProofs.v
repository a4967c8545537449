(** Proofs about the mutable visitor. *)
From Verif Require Export PrintProofs.
From Coq Require Import Lia.
Local Open Scope nat_scope.

Lemma map_state_app {S A B} (f : S -> A -> S * B) l : forall m s s1 r1 s2 r2,
  map_state f s l = (s1, r1) -> map_state f s1 m = (s2, r2) -> map_state f s (l ++ m) = (s2, r1 ++ r2).
Proof.
  induction l as [|x l IH]; intros m s s1 r1 s2 r2; cbn [map_state app].
  - intros E ?. injection E as -> <-. assumption.
  - destruct (f s x) as [s0 y]. destruct (map_state f s0 l) as [s' ys] eqn:E. intros H ?. injection H as -> <-.
    rewrite (IH m s0 s1 ys s2 r2) by assumption. reflexivity.
Qed.
Lemma map_state_app_inv {S A B} (f : S -> A -> S * B) l m s s2 r : map_state f s (l ++ m) = (s2, r) ->
  exists s1 r1 r2, map_state f s l = (s1, r1) /\ map_state f s1 m = (s2, r2) /\ r = r1 ++ r2.
Proof.
  destruct (map_state f s l) as [s1 r1] eqn:E. destruct (map_state f s1 m) as [s2' r2] eqn:E2.
  rewrite (map_state_app f l m s s1 r1 s2' r2 E E2). intros H. injection H as <- <-. eauto 6.
Qed.
Lemma map_state_length {S A B} (f : S -> A -> S * B) l : forall s, List.length (snd (map_state f s l)) = List.length l.
Proof.
  induction l as [|x l IH]; intros s; [reflexivity|]. cbn [map_state]. destruct (f s x) as [s0 y]. specialize (IH s0).
  destruct (map_state f s0 l). cbn in *. lia.
Qed.

(** A result of visiting a token reference. *)
Definition visited {S} (v : visitor_mut S) (r r' : tokref) : Prop := exists s s', visit_mut_ref v s r = (s', r').
Notation rt v := (retokened (visited v)).

(** What we want to know about the visit of a tree. *)
Definition good {S} (v : visitor_mut S) (t : tree) : Prop := forall s, exists s' t',
  visit_mut v s t = (s', t') /\ map_state (visit_mut_ref v) s (printed t) = (s', printed t') /\
  (aligned t = true -> rt v t t').
Definition good_list {S} (v : visitor_mut S) (cs : list tree) : Prop := forall s, exists s' cs',
  map_state (visit_mut v) s cs = (s', cs') /\
  map_state (visit_mut_ref v) s (flat_map printed cs) = (s', flat_map printed cs') /\
  (Forall (fun c => aligned c = true) cs -> Forall2 (rt v) cs cs').

Lemma good_all {S} (v : visitor_mut S) cs : Forall (good v) cs -> good_list v cs.
Proof.
  induction 1 as [|t cs Ht _ IH]; intros s.
  - exists s, []. repeat split; intros; constructor.
  - destruct (Ht s) as (s1 & t' & E1 & E2 & E3). destruct (IH s1) as (s2 & cs' & F1 & F2 & F3).
    exists s2, (t' :: cs'). cbn [map_state flat_map map]. rewrite E1, F1. split; [reflexivity|]. split.
    + eapply map_state_app; eassumption.
    + intros Al. inversion Al; subst. constructor; auto.
Qed.

Definition A {S} (v : visitor_mut S) : tree -> atree (rewrite_of S) := annotate (visit_mut_node v).
Lemma run_A {S} (v : visitor_mut S) t s : run_of (A v t) s = visit_mut v s t.
Proof. reflexivity. Qed.
Lemma old_A {S} (v : visitor_mut S) t : old_of (A v t) = t.
Proof. destruct t; reflexivity. Qed.
Lemma kids_A {S} (v : visitor_mut S) t : kids (A v t) = map (A v) (subs t).
Proof. apply kids_annotate. Qed.
Lemma map_state_map {S T B C} (f : S -> B -> S * C) (g : T -> B) l : forall s, map_state f s (map g l) = map_state (fun s x => f s (g x)) s l.
Proof. induction l as [|x l IH]; intros s; [reflexivity|]. cbn. destruct (f s (g x)). now rewrite IH. Qed.

Lemma visit_mut_con {S} (v : visitor_mut S) s c cs :
  visit_mut v s (Con c cs) = let '(s, cs) := map_state (visit_mut v) s cs in (s, Con c cs).
Proof. unfold visit_mut at 1. cbn [annotate run_of ann snd visit_mut_node]. rewrite map_state_map. reflexivity. Qed.
Lemma visit_mut_nd {S} (v : visitor_mut S) s k cs :
  visit_mut v s (Nd k cs) = let '(s, cs) := fold_left (run_op (map (A v) cs)) (visit_mut_order k) (s, cs) in (s, Nd k cs).
Proof. reflexivity. Qed.

Lemma good_tok {S} (v : visitor_mut S) r : good v (Tok r).
Proof.
  intros s. unfold visit_mut. cbn [annotate run_of ann snd visit_mut_node]. rewrite printed_tok. cbn [map_state].
  destruct (visit_mut_ref v s r) as [s' r'] eqn:E. exists s', (Tok r'). split; [reflexivity|]. split; [reflexivity|]. intros _. constructor. eexists _, _. exact E.
Qed.
Lemma good_con {S} (v : visitor_mut S) c cs : Forall (good v) cs -> good v (Con c cs).
Proof.
  intros H s. destruct (good_all v cs H s) as (s' & cs' & E1 & E2 & E3). exists s', (Con c cs').
  rewrite visit_mut_con, E1, !printed_con. repeat split; [assumption|]. intros Al. apply every_con in Al. constructor. auto.
Qed.

Lemma set_nth_app {T} (x y : T) pre post : set_nth (List.length pre) x (pre ++ y :: post) = pre ++ x :: post.
Proof. induction pre as [|p pre IH]; [reflexivity|]. cbn. now rewrite IH. Qed.

Lemma run_in_order {S} (v : visitor_mut S) : forall cs pre pre' s, List.length pre = List.length pre' ->
  fold_left (run_op (map (A v) (pre ++ cs))) (map F (seq (List.length pre) (List.length cs))) (s, pre' ++ cs)
  = let '(s, cs) := map_state (visit_mut v) s cs in (s, pre' ++ cs).
Proof.
  induction cs as [|c cs IH]; intros pre pre' s L; [reflexivity|]. cbn [List.length seq map fold_left map_state run_op].
  unfold run_at. rewrite nth_error_map, nth_error_app2, Nat.sub_diag by lia. cbn [nth_error option_map]. rewrite run_A.
  destruct (visit_mut v s c) as [s1 c']. rewrite L, set_nth_app.
  specialize (IH (pre ++ [c]) (pre' ++ [c']) s1). rewrite !app_length in IH. cbn [List.length] in IH.
  rewrite !Nat.add_1_r, <- !app_assoc in IH. cbn [app] in IH. rewrite <- L in *. rewrite IH by reflexivity.
  destruct (map_state (visit_mut v) s1 cs). now rewrite <- app_assoc.
Qed.

Lemma visit_mut_order_display k : visit_mut_order k = display_order k.
Proof. destruct k; reflexivity. Qed.

Lemma good_plain {S} (v : visitor_mut S) k cs : encloses k = false -> List.length cs = List.length (fields k) -> Forall (good v) cs -> good v (Nd k cs).
Proof.
  intros E L H s. rewrite visit_mut_nd, visit_mut_order_display, display_order_plain by assumption. unfold in_order. rewrite <- L.
  pose proof (run_in_order v cs [] [] s eq_refl) as R. cbn [app List.length] in R. rewrite R. destruct (good_all v cs H s) as (s' & cs' & E1 & E2 & E3). rewrite E1.
  exists s', (Nd k cs'). assert (L' : List.length cs' = List.length (fields k)) by (rewrite <- L, <- (map_state_length (visit_mut v) cs s), E1; reflexivity).
  rewrite !printed_plain by assumption. repeat split; [assumption|]. intros Al. apply every_nd in Al as [_ Al]. constructor. auto.
Qed.

(** ** Parallel vectors *)
Lemma run_heads_good {S} (v : visitor_mut S) : forall vecs s, Forall (Forall (good v)) vecs ->
  exists s' hs, run_heads (map (map (A v)) vecs) s = (s', hs) /\ List.length hs = List.length vecs /\
    map_state (visit_mut_ref v) s (flat_map (at_ printed 0) vecs) = (s', flat_map printed hs) /\
    (Forall (fun w : list tree => w <> []) vecs -> Forall (Forall (fun c => aligned c = true)) vecs ->
     Forall2 (fun w h => forall x, hd_error w = Some x -> rt v x h) vecs hs).
Proof.
  induction vecs as [|w vecs IH]; intros s G.
  - exists s, []. repeat split; intros; constructor.
  - inversion G as [|? ? Gw Gv]; subst. destruct w as [|x w].
    + destruct (IH s Gv) as (s2 & hs & F1 & F2 & F3 & F4). exists s2, (Con CNone [] :: hs). cbn [map run_heads]. rewrite F1.
      cbn [List.length flat_map map]. split; [reflexivity|]. split; [lia|]. split; [exact F3|]. intros N. inversion N as [|? ? Nw]. congruence.
    + inversion Gw as [|? ? Gx _]; subst. destruct (Gx s) as (s1 & x' & E1 & E2 & E3). destruct (IH s1 Gv) as (s2 & hs & F1 & F2 & F3 & F4).
      exists s2, (x' :: hs). cbn [map run_heads]. rewrite run_A, E1, F1. cbn [List.length flat_map map].
      split; [reflexivity|]. split; [lia|]. split; [eapply map_state_app; eassumption|].
      intros N Al. inversion N; inversion Al as [|? ? Alw]; inversion Alw; subst. constructor; [|auto]. cbn. intros z Ez. injection Ez as <-. auto.
Qed.

Lemma heads_combine {T} (f : T -> list tokref) (hs : list T) : forall vs : list (list T), List.length vs = List.length hs ->
  flat_map (fun w => match nth_error w 0 with Some x => f x | None => [] end) (map (fun '(h, v) => h :: v) (combine hs vs)) = flat_map f hs
  /\ map (@tl _) (map (fun '(h, v) => h :: v) (combine hs vs)) = vs.
Proof.
  induction hs as [|h hs IH]; intros [|w vs] L; try discriminate; [split; reflexivity|]. cbn in L.
  destruct (IH vs) as [E1 E2]; [lia|]. cbn [combine map flat_map tl]. rewrite E1, E2. split; reflexivity.
Qed.
Lemma rt_combine {S} (v : visitor_mut S) (vecs : list (list tree)) hs : Forall2 (fun w h => forall x, hd_error w = Some x -> rt v x h) vecs hs ->
  Forall (fun w : list tree => w <> []) vecs -> forall vs, Forall2 (Forall2 (rt v)) (map (@tl _) vecs) vs ->
  Forall2 (Forall2 (rt v)) vecs (map (fun '(h, v) => h :: v) (combine hs vs)).
Proof.
  induction 1 as [|w h vecs hs Hh _ IH]; intros N vs H; cbn [map] in *; inversion H; subst; [constructor|].
  inversion N as [|? ? Nw Nv]; subst. destruct w as [|x w]; [easy|]. cbn [combine map]. constructor; [|auto].
  constructor; [now apply Hh|assumption].
Qed.

Lemma run_zip_good {S} (v : visitor_mut S) y : forall pairs vecs s, Forall (fun t => has_ty t (YPair y)) pairs ->
  Forall (fun t => Forall (good v) (subs t)) pairs -> Forall (Forall (good v)) vecs ->
  exists s' ps vs, run_zip (map (A v) pairs) (map (map (A v)) vecs) s = (s', ps, vs) /\ List.length vs = List.length vecs /\
    map_state (visit_mut_ref v) s (zip_pick printed true pairs vecs) = (s', zip_pick printed true ps vs) /\
    (Forall (fun w : list tree => List.length w = List.length pairs) vecs -> Forall (fun c => aligned c = true) pairs ->
     Forall (Forall (fun c => aligned c = true)) vecs ->
     Forall2 (rt v) pairs ps /\ Forall2 (Forall2 (rt v)) vecs vs).
Proof.
  induction pairs as [|t pairs IH]; intros vecs s Ty G Gv.
  - exists s, [], (map (fun _ => []) vecs). cbn [run_zip map]. rewrite map_map, map_length. repeat split; [constructor|]. clear -H. induction H as [|w vecs Lw _ IH]; [constructor|].
    destruct w; [|discriminate]. cbn [map]. constructor; [constructor|exact IH].
  - inversion Ty as [|? ? Tt Ty']; inversion G as [|? ? Gt G']; subst. cbn [map run_zip zip_pick].
    assert (Gt' : Forall (Forall (good v)) (map (@tl _) vecs)).
    { apply Forall_map. eapply Forall_impl; [|exact Gv]. intros [|x w] Hw; [constructor|now inversion Hw]. }
    assert (N : Forall (fun w : list tree => List.length w = List.length (t :: pairs)) vecs -> Forall (fun w : list tree => w <> []) vecs)
      by (intros L; eapply Forall_impl; [|exact L]; intros w Lw ->; discriminate).
    assert (Lt : Forall (fun w : list tree => List.length w = List.length (t :: pairs)) vecs ->
                 Forall (fun w : list tree => List.length w = List.length pairs) (map (@tl _) vecs)).
    { intros L. apply Forall_map. eapply Forall_impl; [|exact L]. intros [|x w] Lw; cbn in *; [discriminate|lia]. }
    assert (Alt : Forall (Forall (fun c => aligned c = true)) vecs -> Forall (Forall (fun c => aligned c = true)) (map (@tl _) vecs)).
    { intros L. apply Forall_map. eapply Forall_impl; [|exact L]. intros [|x w] Lw; cbn in *; [constructor|now inversion Lw]. }
    rewrite (map_map (map (A v)) (@tl _)).
    assert (Em : map (fun x => tl (map (A v) x)) vecs = map (map (A v)) (map (@tl _) vecs)) by (rewrite map_map; apply map_ext; intros []; reflexivity).
    rewrite Em, !kids_A.
    apply ty_pair in Tt as (x & _ & [->|(p & ->)]); cbn [subs map]; cbn [subs] in Gt.
    + inversion Gt as [|? ? Gx _]; subst. destruct (Gx s) as (s1 & x' & E1 & E2 & E3).
      destruct (run_heads_good v vecs s1 Gv) as (s2 & hs & F1 & F2 & F3 & F4).
      destruct (IH (map (@tl _) vecs) s2 Ty' G' Gt') as (s3 & ps & vs & H1 & H2 & H3 & H4).
      rewrite run_A, E1, F1, H1. eexists s3, _, _. split; [reflexivity|]. cbn [zip_pick subs at_ nth_error app].
      rewrite map_length in H2. assert (Lv : List.length vs = List.length hs) by lia.
      split; [rewrite map_length, combine_length; lia|].
      destruct (heads_combine printed hs vs Lv) as [C1 C2]. rewrite C2.
      split.
      * rewrite !app_assoc. eapply map_state_app; [|exact H3]. eapply map_state_app; [exact E2|].
        unfold at_ at 2. rewrite C1. exact F3.
      * intros L Ap Av. inversion Ap as [|? ? Ax Ap']; subst. apply every_con in Ax. inversion Ax; subst.
        destruct (H4 (Lt L) Ap' (Alt Av)) as [K5 K6].
        split; [constructor; [constructor; constructor; [auto|constructor]|assumption]|apply rt_combine; auto].
    + inversion Gt as [|? ? Gx Gt2]; subst. inversion Gt2 as [|? ? Gp _]; subst. destruct (Gx s) as (s1 & x' & E1 & E2 & E3).
      destruct (run_heads_good v vecs s1 Gv) as (s2 & hs & F1 & F2 & F3 & F4).
      destruct (Gp s2) as (s2' & p' & P1 & P2 & P3).
      destruct (IH (map (@tl _) vecs) s2' Ty' G' Gt') as (s3 & ps & vs & H1 & H2 & H3 & H4).
      rewrite run_A, E1, F1, run_A, P1, H1. eexists s3, _, _. split; [reflexivity|]. cbn [zip_pick subs at_ nth_error app].
      rewrite map_length in H2. assert (Lv : List.length vs = List.length hs) by lia.
      split; [rewrite map_length, combine_length; lia|].
      destruct (heads_combine printed hs vs Lv) as [C1 C2]. rewrite C2.
      split.
      * eapply map_state_app; [exact E2|]. eapply map_state_app; [unfold at_ at 2; rewrite C1; exact F3|].
        eapply map_state_app; [|exact H3]. exact P2.
      * intros L Ap Av. inversion Ap as [|? ? Ax Ap']; subst. apply every_con in Ax. inversion Ax as [|? ? A1 Ax']; inversion Ax'; subst.
        destruct (H4 (Lt L) Ap' (Alt Av)) as [K5 K6].
        split; [constructor; [constructor; constructor; [auto|constructor; [auto|constructor]]|assumption]|apply rt_combine; auto].
Qed.

(** ** Enclosing kinds *)
Lemma good_span {S} (v : visitor_mut S) a b : good v (Con CSpan [Tok a; Tok b]).
Proof. apply good_con. repeat constructor; apply good_tok. Qed.

Lemma goods_inv {S} (v : visitor_mut S) c cs : Forall (good v) (c :: cs) -> good v c /\ Forall (good v) cs.
Proof. intros H. inversion H; auto. Qed.

Lemma run_F {S} (v : visitor_mut S) cs s cur n c s' c' : nth_error cs n = Some c -> visit_mut v s c = (s', c') ->
  run_op (map (A v) cs) (s, cur) (F n) = (s', set_nth n c' cur).
Proof. intros E V. cbn [run_op]. unfold run_at. rewrite nth_error_map, E. cbn [option_map]. now rewrite run_A, V. Qed.
Lemma run_L {S} (v : visitor_mut S) cs s cur n a b x y s' c' : nth_error cs n = Some (Con CSpan [a; b]) -> nth_error cur n = Some (Con CSpan [x; y]) ->
  visit_mut v s a = (s', c') -> run_op (map (A v) cs) (s, cur) (L n) = (s', set_nth n (Con CSpan [c'; y]) cur).
Proof.
  intros E E2 V. cbn [run_op]. unfold span_part. rewrite E2. unfold kids_at. rewrite nth_error_map, E. cbn [option_map]. rewrite kids_A. cbn [subs map].
  unfold run_at. cbn [nth_error]. now rewrite run_A, V.
Qed.
Lemma run_R {S} (v : visitor_mut S) cs s cur n a b x y s' c' : nth_error cs n = Some (Con CSpan [a; b]) -> nth_error cur n = Some (Con CSpan [x; y]) ->
  visit_mut v s b = (s', c') -> run_op (map (A v) cs) (s, cur) (R n) = (s', set_nth n (Con CSpan [x; c']) cur).
Proof.
  intros E E2 V. cbn [run_op]. unfold span_part. rewrite E2. unfold kids_at. rewrite nth_error_map, E. cbn [option_map]. rewrite kids_A. cbn [subs map].
  unfold run_at. cbn [nth_error]. now rewrite run_A, V.
Qed.
Lemma run_Z {S} (v : visitor_mut S) cs s cur n ms p pairs vecs s' ps vs : nth_error cs n = Some (Con CPunctuated pairs) ->
  map (fun m => subs_at m cs) ms = vecs -> run_zip (map (A v) pairs) (map (map (A v)) vecs) s = (s', ps, vs) ->
  run_op (map (A v) cs) (s, cur) (Z n ms p) = (s', set_all ms vs (set_nth n (Con CPunctuated ps) cur)).
Proof.
  intros E E2 R. cbn [run_op]. unfold kids_at at 1. rewrite nth_error_map, E. cbn [option_map]. rewrite kids_A. cbn [subs].
  replace (map (fun m => kids_at m (map (A v) cs)) ms) with (map (map (A v)) vecs); [now rewrite R|].
  rewrite <- E2, map_map. apply map_ext. intros m. unfold A. now rewrite kids_at_map.
Qed.

Ltac run_step v :=
  cbn [fold_left];
  match goal with
  | |- context [run_op (map (A v) ?cs) (?s, ?cur) (F ?n)] =>
      let c := eval cbn [nth_error] in (nth_error cs n) in
      match c with Some ?c => match goal with G : good v c |- _ =>
        let s' := fresh "s" in let c' := fresh "c'" in let E := fresh "E" in let P := fresh "P" in let Q := fresh "Q" in
        destruct (G s) as (s' & c' & E & P & Q); rewrite (run_F v cs s cur n c s' c' eq_refl E); clear E
      end end
  | |- context [run_op (map (A v) ?cs) (?s, ?cur) (L ?n)] =>
      let c := eval cbn [nth_error] in (nth_error cs n) in let d := eval cbn [nth_error set_nth] in (nth_error cur n) in
      match c with Some (Con CSpan [Tok ?a; ?b]) => match d with Some (Con CSpan [?x; ?y]) =>
        let s' := fresh "s" in let c' := fresh "c'" in let E := fresh "E" in let P := fresh "P" in let Q := fresh "Q" in
        destruct (good_tok v a s) as (s' & c' & E & P & Q); rewrite (run_L v cs s cur n (Tok a) b x y s' c' eq_refl eq_refl E); clear E
      end end
  | |- context [run_op (map (A v) ?cs) (?s, ?cur) (R ?n)] =>
      let c := eval cbn [nth_error] in (nth_error cs n) in let d := eval cbn [nth_error set_nth] in (nth_error cur n) in
      match c with Some (Con CSpan [?a; Tok ?b]) => match d with Some (Con CSpan [?x; ?y]) =>
        let s' := fresh "s" in let c' := fresh "c'" in let E := fresh "E" in let P := fresh "P" in let Q := fresh "Q" in
        destruct (good_tok v b s) as (s' & c' & E & P & Q); rewrite (run_R v cs s cur n a (Tok b) x y s' c' eq_refl eq_refl E); clear E
      end end
  end; cbn [set_nth].

Lemma aligned_nd k cs : aligned (Nd k cs) = true -> aligned_node k cs = true /\ Forall (fun x => aligned x = true) cs.
Proof. apply every_nd. Qed.

(** Split [aligned] of the node into its fields and use it. *)
Ltac align :=
  repeat match goal with H : Forall _ (_ :: _) |- _ => let Hx := fresh "Al" in pose proof (Forall_inv H) as Hx; cbn beta in Hx; apply Forall_inv_tail in H end;
  repeat match goal with
  | Q : aligned ?c = true -> _, H : aligned ?c = true |- _ => specialize (Q H)
  | Q : aligned (Tok ?r) = true -> _ |- _ => specialize (Q eq_refl)
  end.
Ltac shapes := constructor; repeat (constructor; [first [assumption | constructor; assumption | constructor; repeat (constructor; [assumption|]); constructor]|]); constructor.
Ltac finish_op k extra :=
  eexists _, (Nd k _); split; [reflexivity|]; rewrite !printed_nd; cbn [display_order]; cbn_pick; rewrite ?app_nil_r;
  split; [repeat (first [eassumption | eapply map_state_app])
         |let Al := fresh "Al" in let An := fresh "An" in intros Al; apply aligned_nd in Al as [An Al]; extra An Al; align; shapes].

Lemma vec_aligned c m : aligned (Con c m) = true -> Forall (fun c => aligned c = true) m.
Proof. apply every_con. Qed.

Theorem good_nd {S} (v : visitor_mut S) k cs : Forall2 has_ty cs (fields k) -> Forall (good v) cs ->
  Forall (fun c => Forall (fun d => good v d /\ Forall (good v) (subs d)) (subs c)) cs -> good v (Nd k cs).
Proof.
  intros Ty G G2. destruct (encloses k) eqn:E; [|apply good_plain; [assumption|now apply (forall2_length has_ty)|assumption]].
  intros s. rewrite visit_mut_nd. 
  destruct k; try discriminate E; clear E; cbn [fields] in Ty; fields_inv Ty; spans_inv; cbn [visit_mut_order];
  repeat match goal with H : Forall (good v) (_ :: _) |- _ => apply goods_inv in H as [? H] end.
  all: try (clear G2; repeat run_step v; match goal with |- context [visit_mut] => fail 1 | |- context [Nd ?k _] => finish_op k ltac:(fun An Al => idtac) end).
  - (* GenericFor *)
    apply ty_punctuated in Hc0 as (l & -> & Hl). apply ty_vec in Hc6 as (m & -> & Hm). run_step v.
    assert (Gl := G2). do 1 apply Forall_inv_tail in Gl. apply Forall_inv in Gl. cbn [subs] in Gl.
    assert (Gm : Forall (good v) m) by (do 7 apply Forall_inv_tail in G2; apply Forall_inv in G2; cbn [subs] in G2; eapply Forall_impl; [|exact G2]; intros ? []; assumption).
    destruct (run_zip_good v YTok l [m] s0 Hl) as (s1 & ps & vs & Z1 & Zl & Z2 & Z3); [eapply Forall_impl; [|exact Gl]; intros ? []; assumption|now constructor|].
    cbn [fold_left]. erewrite (run_Z v _ s0 _ 1 [7] true l [m] s1 ps vs); [|reflexivity|reflexivity|exact Z1].
    destruct vs as [|w [|]]; try discriminate Zl. cbn [set_all combine fold_left set_nth]. clear G2 Gl.
    repeat run_step v. finish_op KGenericFor ltac:(fun An Al =>
      cbn [aligned_node count nth_error] in An; apply Nat.eqb_eq in An; pose proof Al as Al';
      destruct Z3 as [Z3 Z4]; [now constructor|do 1 apply Forall_inv_tail in Al'; now apply Forall_inv, vec_aligned in Al'
        |do 7 apply Forall_inv_tail in Al'; apply Forall_inv, vec_aligned in Al'; now constructor|]; inversion Z4; subst; clear Z4).
  - (* FunctionBody *)
    apply ty_punctuated in Hc1 as (l & -> & Hl). apply ty_vec in Hc2 as (m & -> & Hm). do 2 run_step v.
    assert (Gl := G2). do 2 apply Forall_inv_tail in Gl. apply Forall_inv in Gl. cbn [subs] in Gl.
    assert (Gm : Forall (good v) m) by (do 3 apply Forall_inv_tail in G2; apply Forall_inv in G2; cbn [subs] in G2; eapply Forall_impl; [|exact G2]; intros ? []; assumption).
    destruct (run_zip_good v (YNode NParameter) l [m] s1 Hl) as (s2 & ps & vs & Z1 & Zl & Z2 & Z3); [eapply Forall_impl; [|exact Gl]; intros ? []; assumption|now constructor|].
    cbn [fold_left]. erewrite (run_Z v _ s1 _ 2 [3] true l [m] s2 ps vs); [|reflexivity|reflexivity|exact Z1].
    destruct vs as [|w [|]]; try discriminate Zl. cbn [set_all combine fold_left set_nth]. clear G2 Gl.
    repeat run_step v. finish_op KFunctionBody ltac:(fun An Al =>
      cbn [aligned_node count nth_error] in An; apply Nat.eqb_eq in An; pose proof Al as Al';
      destruct Z3 as [Z3 Z4]; [now constructor|do 2 apply Forall_inv_tail in Al'; now apply Forall_inv, vec_aligned in Al'
        |do 3 apply Forall_inv_tail in Al'; apply Forall_inv, vec_aligned in Al'; now constructor|]; inversion Z4; subst; clear Z4).
  - (* LocalAssignment *)
    apply ty_punctuated in Hc1 as (l & -> & Hl). apply ty_vec in Hc0 as (m & -> & Hm). apply ty_vec in Hc2 as (n & -> & Hn). run_step v.
    assert (Gl := G2). do 2 apply Forall_inv_tail in Gl. apply Forall_inv in Gl. cbn [subs] in Gl.
    assert (Gn : Forall (good v) n) by (assert (G3 := G2); do 3 apply Forall_inv_tail in G3; apply Forall_inv in G3; cbn [subs] in G3; eapply Forall_impl; [|exact G3]; intros ? []; assumption).
    assert (Gm : Forall (good v) m) by (apply Forall_inv_tail in G2; apply Forall_inv in G2; cbn [subs] in G2; eapply Forall_impl; [|exact G2]; intros ? []; assumption).
    destruct (run_zip_good v YTok l [n; m] s0 Hl) as (s1 & ps & vs & Z1 & Zl & Z2 & Z3); [eapply Forall_impl; [|exact Gl]; intros ? []; assumption|now repeat constructor|].
    cbn [fold_left]. erewrite (run_Z v _ s0 _ 2 [3; 1] true l [n; m] s1 ps vs); [|reflexivity|reflexivity|exact Z1].
    destruct vs as [|w [|w' [|]]]; try discriminate Zl. cbn [set_all combine fold_left set_nth]. clear G2 Gl.
    repeat run_step v. finish_op KLocalAssignment ltac:(fun An Al =>
      cbn [aligned_node count nth_error] in An; apply andb_true_iff in An as [A1 A2]; apply Nat.eqb_eq in A1; apply Nat.eqb_eq in A2; pose proof Al as Al'; pose proof Al as Al'';
      pose proof Al as Al3; do 3 apply Forall_inv_tail in Al3; apply Forall_inv, vec_aligned in Al3;
      do 1 apply Forall_inv_tail in Al''; apply Forall_inv, vec_aligned in Al'';
      destruct Z3 as [Z3 Z4]; [now repeat constructor|do 2 apply Forall_inv_tail in Al'; now apply Forall_inv, vec_aligned in Al'
        |now repeat constructor|]; inversion Z4 as [|? ? ? ? Zn Z5]; subst; clear Z4; inversion Z5; subst; clear Z5).
Qed.

Lemma child_size t cs : In t cs -> tree_size t <= list_sum (map tree_size cs).
Proof.
  induction cs as [|x cs IH]; [easy|]. cbn [map]. change (list_sum (?a :: ?b)) with (a + list_sum b). intros [->|H]; [lia|].
  apply IH in H. lia.
Qed.
Lemma sub_size d c : In d (subs c) -> tree_size d < tree_size c.
Proof. destruct c as [r|c cs|k cs]; cbn [subs]; [easy| |]; intros H; apply child_size in H; cbn [tree_size]; lia. Qed.
Lemma sub_ty d c y : has_ty c y -> In d (subs c) -> exists z, has_ty d z.
Proof. intros H I. apply wt_children in H. destruct c; [easy| |]; cbn [subs] in I; rewrite Forall_forall in H; auto. Qed.

Theorem visit_good {S} (v : visitor_mut S) t y : has_ty t y -> good v t.
Proof.
  remember (tree_size t) as n eqn:Hn. assert (Hle : tree_size t <= n) by lia. clear Hn. revert t y Hle.
  induction n as [|n IH]; intros t y L H; [destruct t; cbn in L; lia|].
  assert (Sub : forall d, In d (subs t) -> good v d).
  { intros d I. destruct (sub_ty d t y H I) as [z Hz]. apply sub_size in I. apply (IH d z); [lia|assumption]. }
  assert (Sub2 : forall c d, In c (subs t) -> In d (subs c) -> good v d /\ Forall (good v) (subs d)).
  { intros c d I J. destruct (sub_ty c t y H I) as [z Hz]. destruct (sub_ty d c z Hz J) as [z2 Hz2].
    apply sub_size in I, J. split; [apply (IH d z2); [lia|assumption]|]. apply Forall_forall. intros e K.
    destruct (sub_ty e d z2 Hz2 K) as [z3 Hz3]. apply sub_size in K. apply (IH e z3); [lia|assumption]. }
  destruct t as [r|c cs|k cs].
  - apply good_tok.
  - apply good_con. now apply Forall_forall.
  - apply wt_nd in H as [_ H]. apply good_nd; [assumption|now apply Forall_forall|].
    apply Forall_forall. intros c I. apply Forall_forall. intros d J. eauto.
Qed.
