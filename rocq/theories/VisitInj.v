(** A tree is determined by its shape and its printed tokens. *)
From Verif Require Export VisitTheorems.
From Coq Require Import Lia.
Local Open Scope nat_scope.

Lemma shape_con c cs : shape (Con c cs) = Con c (map shape cs).
Proof. reflexivity. Qed.
Lemma shape_nd k cs : shape (Nd k cs) = Nd k (map shape cs).
Proof. reflexivity. Qed.
Lemma plen c c' : shape c = shape c' -> List.length (printed c) = List.length (printed c').
Proof.
  intros H. rewrite <- (map_length (fun _ => no_token) (printed c)), <- (map_length (fun _ => no_token) (printed c')), <- !printed_map_tokens.
  f_equal. f_equal. exact H.
Qed.
Lemma app_inj {T} (a a' b b' : list T) : List.length a = List.length a' -> a ++ b = a' ++ b' -> a = a' /\ b = b'.
Proof.
  revert a'. induction a as [|x a IH]; intros [|x' a'] L E; try discriminate; [auto|]. cbn in *. injection E as <- E.
  destruct (IH a') as [-> ->]; auto.
Qed.
Lemma flat_inj cs : forall cs', map shape cs = map shape cs' -> flat_map printed cs = flat_map printed cs' -> Forall2 (fun c c' => printed c = printed c') cs cs'.
Proof.
  induction cs as [|c cs IH]; intros [|c' cs'] S E; try discriminate; [constructor|]. cbn in S. injection S as S1 S2. cbn in E.
  apply app_inj in E as [E1 E2]; [|now apply plen]. constructor; auto.
Qed.
Lemma flat_len cs : forall cs', map shape cs = map shape cs' -> List.length (flat_map printed cs) = List.length (flat_map printed cs').
Proof.
  induction cs as [|c cs IH]; intros [|c' cs'] S; try discriminate; [reflexivity|]. cbn in S. injection S as S1 S2. cbn.
  rewrite !app_length, (plen _ _ S1), (IH _ S2). reflexivity.
Qed.
Lemma at_len n cs cs' : map shape cs = map shape cs' -> List.length (at_ printed n cs) = List.length (at_ printed n cs').
Proof.
  revert n cs'. induction cs as [|c cs IH]; intros n [|c' cs'] S; try discriminate; [reflexivity|]. injection S as S1 S2. destruct n; [now apply plen|exact (IH n cs' S2)].
Qed.
Lemma heads_len vecs : forall vecs', map (map shape) vecs = map (map shape) vecs' ->
  List.length (flat_map (at_ printed 0) vecs) = List.length (flat_map (at_ printed 0) vecs').
Proof.
  induction vecs as [|w vecs IH]; intros [|w' vecs'] S; try discriminate; [reflexivity|]. cbn [map] in S. injection S as S1 S2. cbn [flat_map].
  rewrite !app_length, (at_len 0 _ _ S1), (IH _ S2). reflexivity.
Qed.
Lemma heads_inj vecs : forall vecs', map (map shape) vecs = map (map shape) vecs' ->
  flat_map (at_ printed 0) vecs = flat_map (at_ printed 0) vecs' -> Forall2 (fun w w' => at_ printed 0 w = at_ printed 0 w') vecs vecs'.
Proof.
  induction vecs as [|w vecs IH]; intros [|w' vecs'] S E; try discriminate; [constructor|]. cbn [map] in S. injection S as S1 S2. cbn [flat_map] in E.
  apply app_inj in E as [E1 E2]; [|now apply at_len]. constructor; auto.
Qed.
Lemma tails vecs : forall vecs', map (map shape) vecs = map (map shape) vecs' -> map (map shape) (map (@tl _) vecs) = map (map shape) (map (@tl _) vecs').
Proof.
  induction vecs as [|w vecs IH]; intros [|w' vecs'] S; try discriminate; [reflexivity|]. cbn [map] in *. injection S as S1 S2. f_equal; [|auto].
  destruct w, w'; try discriminate; [reflexivity|]. cbn in *. now injection S1.
Qed.
Lemma subs_shape x x' : shape x = shape x' -> map shape (subs x) = map shape (subs x').
Proof. destruct x, x'; try discriminate; [reflexivity| |]; rewrite ?shape_con, ?shape_nd; cbn [subs]; intros E; now injection E. Qed.
Lemma zip_len : forall pairs pairs' vecs vecs', map shape pairs = map shape pairs' -> map (map shape) vecs = map (map shape) vecs' ->
  List.length (zip_pick printed true pairs vecs) = List.length (zip_pick printed true pairs' vecs').
Proof.
  induction pairs as [|x pairs IH]; intros [|x' pairs'] vecs vecs' S V; try discriminate; [reflexivity|]. cbn [map] in S. injection S as S1 S2.
  cbn [zip_pick]. rewrite !app_length. apply subs_shape in S1. rewrite (at_len 0 _ _ S1), (at_len 1 _ _ S1), (heads_len _ _ V), (IH _ _ _ S2 (tails _ _ V)). reflexivity.
Qed.
Lemma has_ty_shape t : forall t' y, shape t = shape t' -> has_ty t y -> has_ty t' y.
Proof.
  induction t as [r|c cs IH|k cs IH] using tree_ind'; intros [r'|c' cs'|k' cs'] y S H; try discriminate S.
  - apply wt_tok in H as ->. reflexivity.
  - rewrite !shape_con in S. injection S as <- S. apply wt_con in H as (ys & E & H). apply wt_con. exists ys.
    assert (L : List.length cs = List.length cs') by (rewrite <- (map_length shape cs), S, map_length; reflexivity).
    rewrite <- L. split; [assumption|]. clear E L. revert cs' S. induction H as [|x z cs ys Hx _ IHH]; intros [|x' cs'] S; try discriminate; [constructor|].
    injection S as S1 S2. inversion IH; subst. constructor; eauto.
  - rewrite !shape_nd in S. injection S as <- S. apply wt_nd in H as (-> & H). apply wt_nd. split; [reflexivity|].
    revert cs' S. induction H as [|x z cs ys Hx _ IHH]; intros [|x' cs'] S; try discriminate; [constructor|].
    injection S as S1 S2. inversion IH; subst. constructor; eauto.
Qed.
Lemma pair_printed' x x' y : has_ty x (YPair y) -> shape x = shape x' -> printed x' = at_ printed 0 (subs x') ++ at_ printed 1 (subs x').
Proof. intros H S. eapply pair_printed, has_ty_shape; eassumption. Qed.

Lemma zip_inj y : forall pairs pairs' vecs vecs', Forall (fun t => has_ty t (YPair y)) pairs ->
  Forall (fun v : list tree => List.length v <= List.length pairs) vecs ->
  map shape pairs = map shape pairs' -> map (map shape) vecs = map (map shape) vecs' ->
  zip_pick printed true pairs vecs = zip_pick printed true pairs' vecs' ->
  flat_map printed pairs = flat_map printed pairs' /\ Forall2 (fun w w' => flat_map printed w = flat_map printed w') vecs vecs'.
Proof.
  induction pairs as [|x pairs IH]; intros [|x' pairs'] vecs vecs' Ty L S V E; try discriminate.
  - split; [reflexivity|]. clear -L V. revert vecs' V. induction L as [|w vecs Lw _ IH]; intros [|w' vecs'] V; try discriminate; [constructor|].
    cbn [map] in V. injection V as V1 V2. destruct w; [|cbn in Lw; lia]. destruct w'; [|discriminate]. constructor; auto.
  - cbn [map] in S. injection S as S1 S2. inversion Ty as [|? ? Tx Ty']; subst. cbn [zip_pick] in E. pose proof (subs_shape _ _ S1) as S3.
    apply app_inj in E as [E1 E]; [|now apply at_len]. apply app_inj in E as [E2 E]; [|now apply heads_len]. apply app_inj in E as [E3 E]; [|now apply at_len].
    destruct (IH pairs' (map (@tl _) vecs) (map (@tl _) vecs')) as [F1 F2]; try assumption; [|now apply tails|].
    + apply Forall_map. eapply Forall_impl; [|exact L]. intros [|z w] Lw; cbn in *; lia.
    + cbn [flat_map]. rewrite (pair_printed _ _ Tx), (pair_printed' _ _ _ Tx S1), E1, E3, F1. split; [reflexivity|].
      apply heads_inj in E2; [|assumption]. clear -E2 F2 V. revert V F2. induction E2 as [|w w' vecs vecs' Hw _ IH]; intros V F2; [constructor|].
      cbn [map] in V, F2. injection V as V1 V2. inversion F2; subst. constructor; [|auto].
      destruct w as [|z w], w' as [|z' w']; try discriminate; [reflexivity|]. cbn in *. congruence.
Qed.

Ltac same_list cs' S :=
  lazymatch type of S with
  | [] = map shape ?l => destruct l; [clear S|discriminate S]
  | (_ :: _) = map shape ?l => let x := fresh "x" in let m := fresh "m" in let Sx := fresh "S" in
      destruct l as [|x m]; [discriminate S|]; cbn [map] in S; injection S as Sx S; same_list m S
  end.
Lemma span_shape a b x : shape (Con CSpan [Tok a; Tok b]) = shape x -> exists a' b', x = Con CSpan [Tok a'; Tok b'].
Proof.
  destruct x as [|c l|]; try discriminate. rewrite !shape_con. intros E. injection E as <- E. destruct l as [|[|?|?] [|[|?|?] [|]]]; try discriminate E. eauto.
Qed.
Lemma tok_shape r x : shape (Tok r) = shape x -> exists r', x = Tok r'.
Proof. destruct x; try discriminate. eauto. Qed.
Ltac split_apps E :=
  repeat (let E1 := fresh "E" in apply app_inj in E as [E1 E]; [|first [now apply plen | reflexivity | apply zip_len; cbn [map]; congruence]]).

Lemma con_shape c l x : shape (Con c l) = shape x -> exists l', x = Con c l' /\ map shape l = map shape l'.
Proof. destruct x as [|c' l'|]; try discriminate. rewrite !shape_con. intros E. injection E as <- E. eauto. Qed.

Lemma fields_inj k cs cs' : Forall2 has_ty cs (fields k) -> fitting_node k cs = true -> map shape cs = map shape cs' ->
  printed (Nd k cs) = printed (Nd k cs') -> Forall2 (fun c c' => printed c = printed c') cs cs'.
Proof.
  intros Ty Fit S E. destruct (encloses k) eqn:K.
  - rewrite !printed_nd in E.
    destruct k; try discriminate K; clear K; cbn [fields] in Ty; fields_inv Ty; spans_inv; cbn [map] in S; same_list cs' S; cbn [display_order] in E.
    all: repeat match goal with H : shape (Con CSpan [Tok ?a; Tok ?b]) = shape ?x |- _ =>
           let a' := fresh "a'" in let b' := fresh "b'" in destruct (span_shape a b x H) as (a' & b' & ->); clear H end.
    all: try match goal with H : has_ty ?c YTok |- _ => idtac end.
    all: try (match goal with H : has_ty _ (YVec _) |- _ => fail 1 | _ => idtac end; cbn [flat_map pick at_ subs_at subs nth_error map] in E; rewrite ?app_nil_r in E;
       split_apps E; repeat (constructor; [first [assumption | rewrite !printed_con; cbn [flat_map]; congruence]|]); constructor).
    + apply ty_punctuated in Hc0 as (l & -> & Hl). apply ty_vec in Hc6 as (m & -> & Hm).
      apply con_shape in S1 as (l' & -> & Sl). apply con_shape in S7 as (m' & -> & Sm).
      cbn [fitting_node count nth_error] in Fit. apply Nat.leb_le in Fit.
      cbn [flat_map pick at_ subs_at subs nth_error map] in E; rewrite ?app_nil_r in E. split_apps E.
      match goal with Z : zip_pick _ _ _ _ = _ |- _ => destruct (zip_inj YTok l l' [m] [m']) as [Z1 Z2]; [assumption|now constructor|assumption|cbn [map]; congruence|exact Z|] end.
      inversion Z2; subst. repeat (constructor; [first [assumption | rewrite !printed_con; assumption]|]). constructor.
    + apply ty_punctuated in Hc1 as (l & -> & Hl). apply ty_vec in Hc2 as (m & -> & Hm).
      apply con_shape in S2 as (l' & -> & Sl). apply con_shape in S3 as (m' & -> & Sm).
      cbn [fitting_node count nth_error] in Fit. apply Nat.leb_le in Fit.
      cbn [flat_map pick at_ subs_at subs nth_error map] in E; rewrite ?app_nil_r in E. split_apps E.
      match goal with Z : zip_pick _ _ _ _ = _ |- _ => destruct (zip_inj (YNode NParameter) l l' [m] [m']) as [Z1 Z2]; [assumption|now constructor|assumption|cbn [map]; congruence|exact Z|] end.
      inversion Z2; subst. repeat (constructor; [first [assumption | rewrite !printed_con; first [assumption | cbn [flat_map]; congruence]]|]). constructor.
    + apply ty_punctuated in Hc1 as (l & -> & Hl). apply ty_vec in Hc0 as (m & -> & Hm). apply ty_vec in Hc2 as (n & -> & Hn).
      apply con_shape in S2 as (l' & -> & Sl). apply con_shape in S1 as (m' & -> & Sm). apply con_shape in S3 as (n' & -> & Sn).
      cbn [fitting_node count nth_error] in Fit. apply andb_true_iff in Fit as [F1 F2]. apply Nat.leb_le in F1, F2.
      cbn [flat_map pick at_ subs_at subs nth_error map] in E; rewrite ?app_nil_r in E. split_apps E.
      match goal with Z : zip_pick _ _ _ _ = _ |- _ => destruct (zip_inj YTok l l' [n; m] [n'; m']) as [Z1 Z2]; [assumption|now repeat constructor|assumption|cbn [map]; congruence|exact Z|] end.
      inversion Z2 as [|? ? ? ? Zn Zm]; subst. inversion Zm; subst. repeat (constructor; [first [assumption | rewrite !printed_con; assumption]|]). constructor.
  - assert (L := forall2_length _ _ _ Ty). assert (L' : List.length cs' = List.length (fields k)) by (rewrite <- L, <- (map_length shape cs), S, map_length; reflexivity).
    rewrite !printed_plain in E by assumption. now apply flat_inj.
Qed.

Theorem printed_inj t : forall t' y, has_ty t y -> fitting t = true -> shape t = shape t' -> printed t = printed t' -> t = t'.
Proof.
  induction t as [r|c cs IH|k cs IH] using tree_ind'; intros [r'|c' cs'|k' cs'] y Ty Fit S E; try discriminate S.
  - rewrite !printed_tok in E. congruence.
  - rewrite !shape_con in S. injection S as <- S. rewrite !printed_con in E. apply flat_inj in E; [|assumption].
    apply every_con in Fit. apply wt_children in Ty. f_equal. clear -IH Fit Ty E S. revert IH Fit Ty S.
    induction E as [|x x' cs cs' Hx _ IHE]; intros IH Fit Ty S; [reflexivity|]. inversion IH; inversion Fit; inversion Ty as [|? ? [z Hz]]; subst. injection S as S1 S2. f_equal; eauto.
  - rewrite !shape_nd in S. injection S as <- S. apply every_nd in Fit as [Fk Fit]. pose proof (wt_children _ _ Ty) as Tc. apply wt_nd in Ty as [_ Ty].
    pose proof (fields_inj k cs cs' Ty Fk S E) as E'. f_equal. clear -IH Fit Tc E' S. revert IH Fit Tc S.
    induction E' as [|x x' cs cs' Hx _ IHE]; intros IH Fit Ty S; [reflexivity|]. inversion IH; inversion Fit; inversion Ty as [|? ? [z Hz]]; subst. injection S as S1 S2. f_equal; eauto.
Qed.
