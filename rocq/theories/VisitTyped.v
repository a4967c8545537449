(** The mutable visitor returns well-typed trees with aligned vectors. *)
From Verif Require Export VisitInj.
From Coq Require Import Lia.
Local Open Scope nat_scope.

Lemma Forall2_impl {X Y} (P Q : X -> Y -> Prop) l l' : (forall x y, P x y -> Q x y) -> Forall2 P l l' -> Forall2 Q l l'.
Proof. intros H. induction 1; constructor; auto. Qed.

Definition fine (t : tree) (y : ty) : Prop := has_ty t y /\ aligned t = true.
Definition keeps {S} (v : visitor_mut S) (t : tree) : Prop := forall s y, has_ty t y -> fine (snd (visit_mut v s t)) y.

Lemma fine_con c cs y ys : con_tys c y (List.length cs) = Some ys -> Forall2 fine cs ys -> fine (Con c cs) y.
Proof.
  intros E F. split.
  - apply wt_con. exists ys. split; [assumption|]. eapply Forall2_impl; [|exact F]. intros ? ? []; assumption.
  - unfold aligned. cbn [every]. apply forallb_forall. clear E. intros x I. induction F as [|a b l l' [_ H] _ IH]; [easy|]. destruct I as [<-|I]; auto.
Qed.
Lemma fine_nd k cs : Forall2 fine cs (fields k) -> aligned_node k cs = true -> fine (Nd k cs) (YNode (kind_type k)).
Proof.
  intros F A. split.
  - apply wt_nd. split; [reflexivity|]. eapply Forall2_impl; [|exact F]. intros ? ? []; assumption.
  - unfold aligned. cbn [every]. rewrite A. cbn [andb]. apply forallb_forall. clear A. intros x I. induction F as [|a b l l' [_ H] _ IH]; [easy|]. destruct I as [<-|I]; auto.
Qed.
Lemma fine_tok r : fine (Tok r) YTok.
Proof. split; reflexivity. Qed.

Lemma keeps_tok {S} (v : visitor_mut S) r : keeps v (Tok r).
Proof.
  intros s y H. apply wt_tok in H as ->. unfold visit_mut. cbn [annotate run_of ann snd visit_mut_node].
  destruct (visit_mut_ref v s r). apply fine_tok.
Qed.
Lemma keeps_list {S} (v : visitor_mut S) cs : Forall (keeps v) cs -> forall ys s, Forall2 has_ty cs ys -> Forall2 fine (snd (map_state (visit_mut v) s cs)) ys.
Proof.
  induction 1 as [|c cs K _ IH]; intros ys s H; inversion H; subst; [constructor|]. cbn [map_state].
  specialize (K s y H2). destruct (visit_mut v s c) as [s1 c']. specialize (IH l' s1 H4). destruct (map_state (visit_mut v) s1 cs). constructor; assumption.
Qed.
Lemma keeps_con {S} (v : visitor_mut S) c cs : Forall (keeps v) cs -> keeps v (Con c cs).
Proof.
  intros K s y H. apply wt_con in H as (ys & E & H). rewrite visit_mut_con. pose proof (keeps_list v cs K ys s H) as F.
  pose proof (map_state_length (visit_mut v) cs s) as L. destruct (map_state (visit_mut v) s cs) as [s' cs']. cbn [snd] in *.
  eapply fine_con; [rewrite L; exact E|assumption].
Qed.
Lemma keeps_plain {S} (v : visitor_mut S) k cs : encloses k = false -> Forall (keeps v) cs -> keeps v (Nd k cs).
Proof.
  intros E K s y H. apply wt_nd in H as (-> & H). rewrite visit_mut_nd, visit_mut_order_display, display_order_plain by assumption.
  unfold in_order. rewrite <- (forall2_length _ _ _ H). pose proof (run_in_order v cs [] [] s eq_refl) as R. cbn [app List.length] in R. rewrite R.
  pose proof (keeps_list v cs K _ s H) as F. destruct (map_state (visit_mut v) s cs) as [s' cs']. cbn [snd] in *.
  apply fine_nd; [assumption|]. destruct k; try discriminate E; reflexivity.
Qed.

Lemma keeps_heads {S} (v : visitor_mut S) : forall vecs ys s, Forall (Forall (keeps v)) vecs ->
  Forall2 (fun w y => Forall (fun x => has_ty x (YOpt y)) w) vecs ys ->
  Forall2 (fun h y => fine h (YOpt y)) (snd (run_heads (map (map (A v)) vecs) s)) ys.
Proof.
  intros vecs ys s K H. revert s. induction H as [|w y vecs ys Hw _ IH]; intros s; [constructor|]. inversion K as [|? ? Kw K']; subst.
  cbn [map run_heads]. destruct w as [|x w]; cbn [map].
  - specialize (IH K' s). destruct (run_heads (map (map (A v)) vecs) s) as [s1 hs]. constructor; [split; reflexivity|assumption].
  - rewrite run_A. inversion Kw as [|? ? Kx _]; inversion Hw as [|? ? Hx _]; subst. specialize (Kx s _ Hx). destruct (visit_mut v s x) as [s1 x'].
    specialize (IH K' s1). destruct (run_heads (map (map (A v)) vecs) s1) as [s2 hs]. constructor; assumption.
Qed.

Lemma keeps_zip {S} (v : visitor_mut S) y : forall pairs vecs ys s s' ps vs, Forall (fun t => has_ty t (YPair y)) pairs ->
  Forall (fun t => Forall (keeps v) (subs t)) pairs -> Forall (Forall (keeps v)) vecs ->
  Forall2 (fun w y => Forall (fun x => has_ty x (YOpt y)) w) vecs ys ->
  run_zip (map (A v) pairs) (map (map (A v)) vecs) s = (s', ps, vs) ->
  Forall (fun x => fine x (YPair y)) ps /\ Forall2 (fun w y => Forall (fun x => fine x (YOpt y)) w /\ List.length w = List.length ps) vs ys.
Proof.
  induction pairs as [|t pairs IH]; intros vecs ys s s' ps vs Ty K Kv Hv R.
  - cbn [run_zip map] in R. injection R as <- <- <-. split; [constructor|]. clear Kv. rewrite map_map. induction Hv; cbn [map]; constructor; [|assumption]. split; [constructor|reflexivity].
  - inversion Ty as [|? ? Tt Ty']; inversion K as [|? ? Kt K']; subst. cbn [map run_zip] in R.
    rewrite (map_map (map (A v)) (@tl _)) in R.
    assert (Em : map (fun x => tl (map (A v) x)) vecs = map (map (A v)) (map (@tl _) vecs)) by (rewrite map_map; apply map_ext; intros []; reflexivity).
    rewrite Em, !kids_A in R. clear Em.
    assert (Ktl : Forall (Forall (keeps v)) (map (@tl _) vecs)) by (apply Forall_map; eapply Forall_impl; [|exact Kv]; intros [|x w] Hw; [constructor|now inversion Hw]).
    assert (Htl : Forall2 (fun w y => Forall (fun x => has_ty x (YOpt y)) w) (map (@tl _) vecs) ys).
    { clear -Hv. induction Hv as [|w y vecs ys Hw _ IHv]; cbn [map]; constructor; [|assumption]. destruct w; [constructor|now inversion Hw]. }
    apply ty_pair in Tt as (x & Hx & [->|(p & ->)]); cbn [subs map] in *.
    + inversion Kt as [|? ? Kx _]; subst. rewrite run_A in R. pose proof (Kx s _ Hx) as Fx. destruct (visit_mut v s x) as [s1 x'].
      pose proof (keeps_heads v vecs ys s1 Kv Hv) as Fh. destruct (run_heads (map (map (A v)) vecs) s1) as [s2 hs].
      destruct (run_zip (map (A v) pairs) (map (map (A v)) (map (@tl _) vecs)) s2) as [[s3 ps'] vs'] eqn:R'.
      injection R as <- <- <-. destruct (IH _ ys _ _ _ _ Ty' K' Ktl Htl R') as [G1 G2]. cbn [snd] in *.
      split; [constructor; [|assumption]; eapply fine_con; [reflexivity|repeat constructor; apply Fx]|].
      clear -Fh G2. revert vs' G2. induction Fh as [|h y hs ys Hh _ IHh]; intros vs' G2; inversion G2 as [|w ? vs ? [Gw Lw] G3]; subst; cbn [combine map]; constructor; [|auto].
      split; [constructor; assumption|cbn; lia].
    + inversion Kt as [|? ? Kx Kt2]; subst. inversion Kt2 as [|? ? Kp _]; subst. rewrite run_A in R. pose proof (Kx s _ Hx) as Fx. destruct (visit_mut v s x) as [s1 x'].
      pose proof (keeps_heads v vecs ys s1 Kv Hv) as Fh. destruct (run_heads (map (map (A v)) vecs) s1) as [s2 hs]. rewrite run_A in R.
      pose proof (Kp s2 YTok eq_refl) as Fp. destruct (visit_mut v s2 (Tok p)) as [s2' p'].
      destruct (run_zip (map (A v) pairs) (map (map (A v)) (map (@tl _) vecs)) s2') as [[s3 ps'] vs'] eqn:R'.
      injection R as <- <- <-. destruct (IH _ ys _ _ _ _ Ty' K' Ktl Htl R') as [G1 G2]. cbn [snd] in *.
      split; [constructor; [|assumption]; eapply fine_con; [reflexivity|constructor; [apply Fx|constructor; [apply Fp|constructor]]]|].
      clear -Fh G2. revert vs' G2. induction Fh as [|h y hs ys Hh _ IHh]; intros vs' G2; inversion G2 as [|w ? vs ? [Gw Lw] G3]; subst; cbn [combine map]; constructor; [|auto].
      split; [constructor; assumption|cbn; lia].
Qed.

Ltac keep_step v :=
  cbn [fold_left];
  match goal with
  | |- context [run_op (map (A v) ?cs) (?s, ?cur) (F ?n)] =>
      let c := eval cbn [nth_error] in (nth_error cs n) in
      match c with Some ?c => match goal with G : keeps v c, H : has_ty c ?y |- _ =>
        let s' := fresh "s" in let c' := fresh "c'" in let E := fresh "E" in let K := fresh "K" in
        pose proof (G s y H) as K; destruct (visit_mut v s c) as [s' c'] eqn:E; rewrite (run_F v cs s cur n c s' c' eq_refl E); clear E; cbn [snd] in K
      end end
  | |- context [run_op (map (A v) ?cs) (?s, ?cur) (L ?n)] =>
      let c := eval cbn [nth_error] in (nth_error cs n) in let d := eval cbn [nth_error set_nth] in (nth_error cur n) in
      match c with Some (Con CSpan [Tok ?a; ?b]) => match d with Some (Con CSpan [?x; ?y]) =>
        let s' := fresh "s" in let c' := fresh "c'" in let E := fresh "E" in let K := fresh "K" in
        pose proof (keeps_tok v a s YTok eq_refl) as K; destruct (visit_mut v s (Tok a)) as [s' c'] eqn:E;
        rewrite (run_L v cs s cur n (Tok a) b x y s' c' eq_refl eq_refl E); clear E; cbn [snd] in K
      end end
  | |- context [run_op (map (A v) ?cs) (?s, ?cur) (R ?n)] =>
      let c := eval cbn [nth_error] in (nth_error cs n) in let d := eval cbn [nth_error set_nth] in (nth_error cur n) in
      match c with Some (Con CSpan [?a; Tok ?b]) => match d with Some (Con CSpan [?x; ?y]) =>
        let s' := fresh "s" in let c' := fresh "c'" in let E := fresh "E" in let K := fresh "K" in
        pose proof (keeps_tok v b s YTok eq_refl) as K; destruct (visit_mut v s (Tok b)) as [s' c'] eqn:E;
        rewrite (run_R v cs s cur n a (Tok b) x y s' c' eq_refl eq_refl E); clear E; cbn [snd] in K
      end end
  end; cbn [set_nth].

Lemma keeps_inv {S} (v : visitor_mut S) c cs : Forall (keeps v) (c :: cs) -> keeps v c /\ Forall (keeps v) cs.
Proof. intros H. inversion H; auto. Qed.
Lemma fine_span a b : fine a YTok -> fine b YTok -> fine (Con CSpan [a; b]) YSpan.
Proof. intros. eapply fine_con; [reflexivity|]. constructor; [assumption|constructor; [assumption|constructor]]. Qed.
Lemma fine_vec l y : Forall (fun x => fine x y) l -> fine (Con CVec l) (YVec y).
Proof. intros H. eapply fine_con; [reflexivity|]. induction H; cbn [List.length repeat]; constructor; assumption. Qed.
Lemma fine_punctuated l y : Forall (fun x => fine x (YPair y)) l -> fine (Con CPunctuated l) (YPunctuated y).
Proof. intros H. eapply fine_con; [reflexivity|]. induction H; cbn [List.length repeat]; constructor; assumption. Qed.
Ltac fields_fine := repeat (constructor; [first [assumption | apply fine_span; assumption | apply fine_vec; assumption | apply fine_punctuated; assumption]|]); constructor.

Theorem keeps_nd {S} (v : visitor_mut S) k cs : Forall (keeps v) cs ->
  Forall (fun c => Forall (fun d => keeps v d /\ Forall (keeps v) (subs d)) (subs c)) cs -> keeps v (Nd k cs).
Proof.
  intros K K2. destruct (encloses k) eqn:E; [|now apply keeps_plain].
  intros s y Ty. apply wt_nd in Ty as (-> & Ty). rewrite visit_mut_nd.
  destruct k; try discriminate E; clear E; cbn [fields] in Ty; fields_inv Ty; spans_inv; cbn [visit_mut_order];
  repeat match goal with H : Forall (keeps v) (_ :: _) |- _ => apply keeps_inv in H as [? H] end.
  all: try (clear K2; repeat keep_step v; match goal with |- context [fold_left] => cbn [fold_left snd] | _ => idtac end; apply fine_nd; [fields_fine|reflexivity]).
  - apply ty_punctuated in Hc0 as (l & -> & Hl). apply ty_vec in Hc6 as (m & -> & Hm). keep_step v.
    assert (Kl := K2). do 1 apply Forall_inv_tail in Kl. apply Forall_inv in Kl. cbn [subs] in Kl.
    assert (Km : Forall (keeps v) m) by (do 7 apply Forall_inv_tail in K2; apply Forall_inv in K2; cbn [subs] in K2; eapply Forall_impl; [|exact K2]; intros ? []; assumption).
    destruct (run_zip (map (A v) l) (map (map (A v)) [m]) s0) as [[s1 ps] vs] eqn:Z1.
    destruct (keeps_zip v YTok l [m] [YNode NTypeSpecifier] s0 s1 ps vs Hl) as [G1 G2]; [eapply Forall_impl; [|exact Kl]; intros ? []; assumption|now constructor|now repeat constructor|exact Z1|].
    cbn [fold_left]. erewrite (run_Z v _ s0 _ 1 [7] true l [m] s1 ps vs); [|reflexivity|reflexivity|exact Z1].
    inversion G2 as [|w ? vs' ? [Gw Lw] G3]; subst. inversion G3; subst. cbn [set_all combine fold_left set_nth]. clear K2 Kl.
    repeat keep_step v. cbn [fold_left snd]. apply fine_nd; [fields_fine|]. cbn [aligned_node count nth_error]. now apply Nat.eqb_eq.
  - apply ty_punctuated in Hc1 as (l & -> & Hl). apply ty_vec in Hc2 as (m & -> & Hm). do 2 keep_step v.
    assert (Kl := K2). do 2 apply Forall_inv_tail in Kl. apply Forall_inv in Kl. cbn [subs] in Kl.
    assert (Km : Forall (keeps v) m) by (do 3 apply Forall_inv_tail in K2; apply Forall_inv in K2; cbn [subs] in K2; eapply Forall_impl; [|exact K2]; intros ? []; assumption).
    destruct (run_zip (map (A v) l) (map (map (A v)) [m]) s1) as [[s2 ps] vs] eqn:Z1.
    destruct (keeps_zip v (YNode NParameter) l [m] [YNode NTypeSpecifier] s1 s2 ps vs Hl) as [G1 G2]; [eapply Forall_impl; [|exact Kl]; intros ? []; assumption|now constructor|now repeat constructor|exact Z1|].
    cbn [fold_left]. erewrite (run_Z v _ s1 _ 2 [3] true l [m] s2 ps vs); [|reflexivity|reflexivity|exact Z1].
    inversion G2 as [|w ? vs' ? [Gw Lw] G3]; subst. inversion G3; subst. cbn [set_all combine fold_left set_nth]. clear K2 Kl.
    repeat keep_step v. cbn [fold_left snd]. apply fine_nd; [fields_fine|]. cbn [aligned_node count nth_error]. now apply Nat.eqb_eq.
  - apply ty_punctuated in Hc1 as (l & -> & Hl). apply ty_vec in Hc0 as (m & -> & Hm). apply ty_vec in Hc2 as (n & -> & Hn). keep_step v.
    assert (Kl := K2). do 2 apply Forall_inv_tail in Kl. apply Forall_inv in Kl. cbn [subs] in Kl.
    assert (Kn : Forall (keeps v) n) by (assert (K3 := K2); do 3 apply Forall_inv_tail in K3; apply Forall_inv in K3; cbn [subs] in K3; eapply Forall_impl; [|exact K3]; intros ? []; assumption).
    assert (Km : Forall (keeps v) m) by (apply Forall_inv_tail in K2; apply Forall_inv in K2; cbn [subs] in K2; eapply Forall_impl; [|exact K2]; intros ? []; assumption).
    destruct (run_zip (map (A v) l) (map (map (A v)) [n; m]) s0) as [[s1 ps] vs] eqn:Z1.
    destruct (keeps_zip v YTok l [n; m] [YNode NAttribute; YNode NTypeSpecifier] s0 s1 ps vs Hl) as [G1 G2]; [eapply Forall_impl; [|exact Kl]; intros ? []; assumption|now repeat constructor|now repeat constructor|exact Z1|].
    cbn [fold_left]. erewrite (run_Z v _ s0 _ 2 [3; 1] true l [n; m] s1 ps vs); [|reflexivity|reflexivity|exact Z1].
    inversion G2 as [|w ? vs' ? [Gw Lw] G3]; subst. inversion G3 as [|w' ? vs'' ? [Gw' Lw'] G4]; subst. inversion G4; subst. cbn [set_all combine fold_left set_nth]. clear K2 Kl.
    repeat keep_step v. cbn [fold_left snd]. apply fine_nd; [fields_fine|]. cbn [aligned_node count nth_error]. rewrite Lw, Lw', !Nat.eqb_refl. reflexivity.
Qed.

Theorem visit_keeps {S} (v : visitor_mut S) t : keeps v t.
Proof.
  remember (tree_size t) as n eqn:Hn. assert (Hle : tree_size t <= n) by lia. clear Hn. revert t Hle.
  induction n as [|n IH]; intros t L; [destruct t; cbn in L; lia|].
  assert (Sub : forall d, In d (subs t) -> keeps v d) by (intros d I; apply sub_size in I; apply IH; lia).
  destruct t as [r|c cs|k cs].
  - apply keeps_tok.
  - apply keeps_con. now apply Forall_forall.
  - apply keeps_nd; [now apply Forall_forall|]. apply Forall_forall. intros c I. apply Forall_forall. intros d J.
    assert (I' := I). apply sub_size in J. assert (L2 : tree_size c < tree_size (Nd k cs)) by now apply sub_size.
    split; [apply IH; lia|]. apply Forall_forall. intros e Ke. apply sub_size in Ke. apply IH. lia.
Qed.
Theorem visit_typed {S} (v : visitor_mut S) s t s' t' y : wt t y = true -> visit_mut v s t = (s', t') -> wt t' y = true /\ aligned t' = true.
Proof. intros H E. pose proof (visit_keeps v t s y H) as K. now rewrite E in K. Qed.
