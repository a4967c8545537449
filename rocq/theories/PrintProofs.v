(** Proofs about the printed tokens of a tree. *)
From Verif Require Export NodeProofs.
From Coq Require Import Lia Permutation.
Local Open Scope nat_scope.

Lemma every_con p c cs : every p (Con c cs) = true -> Forall (fun x => every p x = true) cs.
Proof. cbn. rewrite forallb_forall, Forall_forall. auto. Qed.
Lemma every_nd p k cs : every p (Nd k cs) = true -> p k cs = true /\ Forall (fun x => every p x = true) cs.
Proof. cbn. rewrite andb_true_iff, forallb_forall, Forall_forall. auto. Qed.

Lemma display_order_plain k : encloses k = false -> display_order k = in_order k.
Proof. destruct k; intros H; try discriminate H; reflexivity. Qed.

Lemma printed_tok r : printed (Tok r) = [r].
Proof. reflexivity. Qed.
Lemma printed_con c cs : printed (Con c cs) = flat_map printed cs.
Proof. apply leaves_by_con. Qed.
Lemma printed_nd k cs : printed (Nd k cs) = flat_map (pick printed cs) (display_order k).
Proof. apply leaves_by_nd. Qed.
Lemma printed_plain k cs : encloses k = false -> List.length cs = List.length (fields k) -> printed (Nd k cs) = flat_map printed cs.
Proof. intros H L. rewrite printed_nd, display_order_plain by assumption. now apply pick_in_order. Qed.

(** All printed tokens are tokens of the tree and vice versa. *)
Definition tokref_eq_dec (a b : tokref) : {a = b} + {a <> b}.
Proof. repeat decide equality. Defined.
Notation cnt x l := (count_occ tokref_eq_dec l x).

Lemma cnt_flat_map {A} x (f : A -> list tokref) l : cnt x (flat_map f l) = list_sum (map (fun a => cnt x (f a)) l).
Proof. induction l as [|a l IH]; [reflexivity|]. cbn [flat_map map]. rewrite count_occ_app, IH. reflexivity. Qed.

(** The three groups of kinds that need care; [forall2_inv] names the fields of a node. *)
Ltac fields_inv H :=
  lazymatch type of H with
  | Forall2 _ _ [] => inversion H; subst; clear H
  | Forall2 _ _ (_ :: _) =>
      let c := fresh "c" in let l := fresh "l" in let Hc := fresh "Hc" in let Hl := fresh "Hl" in
      inversion H as [|c ? l ? Hc Hl]; subst; clear H; fields_inv Hl
  end.
Ltac spans_inv :=
  repeat match goal with
  | H : has_ty ?c YSpan |- _ =>
      let a := fresh "a" in let b := fresh "b" in let E := fresh "E" in
      destruct (ty_span _ H) as (a & b & E); try subst c; clear H
  end.

Lemma pair_printed x y : has_ty x (YPair y) -> printed x = at_ printed 0 (subs x) ++ at_ printed 1 (subs x).
Proof.
  intros H. apply ty_pair in H as (v & _ & [->|(p & ->)]); rewrite printed_con; cbn [flat_map subs at_ nth_error];
  reflexivity.
Qed.

Lemma zip_count x y : forall pairs vecs, Forall (fun t => has_ty t (YPair y)) pairs ->
  Forall (fun v : list tree => List.length v <= List.length pairs) vecs ->
  cnt x (zip_pick printed true pairs vecs) = cnt x (flat_map printed pairs) + list_sum (map (fun v => cnt x (flat_map printed v)) vecs).
Proof.
  induction pairs as [|t pairs IH]; intros vecs Hp Hv.
  - cbn [zip_pick flat_map count_occ]. induction Hv as [|v vecs L _ IHv]; [reflexivity|]. destruct v; [|cbn in L; lia]. exact IHv.
  - cbn [zip_pick flat_map]. inversion Hp as [|? ? Ht Hp']; subst. rewrite !count_occ_app, IH; [|assumption|].
    + rewrite (pair_printed _ _ Ht), !count_occ_app. enough (E : cnt x (flat_map (at_ printed 0) vecs) + list_sum (map (fun v => cnt x (flat_map printed v)) (map (@tl _) vecs))
        = list_sum (map (fun v => cnt x (flat_map printed v)) vecs)) by lia.
      clear. induction vecs as [|v vecs IH]; [reflexivity|]. cbn [map flat_map]. rewrite count_occ_app.
      change (list_sum (?a :: ?b)) with (a + list_sum b). rewrite <- IH. destruct v as [|z v]; cbn [tl flat_map at_ nth_error]; rewrite ?count_occ_app; cbn; lia.
    + apply Forall_map. eapply Forall_impl; [|exact Hv]. intros v L. destruct v; cbn in *; lia.
Qed.

Ltac cbn_pick := cbn [flat_map pick at_ subs_at subs nth_error map].

Theorem printed_fields k cs : Forall2 has_ty cs (fields k) -> fitting_node k cs = true ->
  Permutation (flat_map printed cs) (printed (Nd k cs)).
Proof.
  intros H Fit. destruct (encloses k) eqn:E; [|rewrite printed_plain; [reflexivity|assumption|now apply (forall2_length has_ty)]].
  rewrite printed_nd. apply (Permutation_count_occ tokref_eq_dec).
  destruct k; try discriminate E; clear E; cbn [fields] in H; fields_inv H; spans_inv; cbn [display_order].
  all: try (intros x; cbn_pick; rewrite ?printed_con; cbn [flat_map app]; rewrite ?app_nil_r, ?count_occ_app; cbn [count_occ app];
     repeat match goal with |- context [cnt ?x (?a :: ?b :: ?l)] => change (a :: b :: l) with ([a] ++ [b] ++ l) end;
     rewrite ?count_occ_app; cbn [app]; lia).
  - apply ty_punctuated in Hc0 as (l & -> & Hl). apply ty_vec in Hc6 as (m & -> & Hm). intros x. cbn_pick.
    cbn [fitting_node count nth_error] in Fit. apply Nat.leb_le in Fit.
    rewrite !printed_con, !count_occ_app. rewrite (zip_count x YTok) by (auto). cbn. lia.
  - apply ty_punctuated in Hc1 as (l & -> & Hl). apply ty_vec in Hc2 as (m & -> & Hm). intros x. cbn_pick.
    cbn [fitting_node count nth_error] in Fit. apply Nat.leb_le in Fit.
    rewrite !printed_con. cbn [flat_map]. change (printed (Tok a) ++ printed (Tok b) ++ []) with (printed (Tok a) ++ printed (Tok b)).
    rewrite !count_occ_app. rewrite (zip_count x (YNode NParameter)) by (auto). cbn. lia.
  - apply ty_punctuated in Hc1 as (l & -> & Hl). apply ty_vec in Hc0 as (m & -> & Hm). apply ty_vec in Hc2 as (n & -> & Hn). intros x. cbn_pick.
    cbn [fitting_node count nth_error] in Fit. apply andb_true_iff in Fit as [F1 F2]. apply Nat.leb_le in F1. apply Nat.leb_le in F2.
    rewrite !printed_con, !count_occ_app. rewrite (zip_count x YTok) by (auto). cbn. lia.
Qed.

Theorem leaves_printed t : forall y, has_ty t y -> fitting t = true -> Permutation (leaves t) (printed t).
Proof.
  induction t as [r|c cs IH|k cs IH] using tree_ind'; intros y H Fit.
  - reflexivity.
  - rewrite printed_con. cbn [leaves]. pose proof (wt_children _ _ H) as Hc. cbn in Hc. apply every_con in Fit. clear H.
    induction IH as [|x cs Hx _ IH]; [reflexivity|]. cbn [flat_map]. inversion Hc as [|? ? [z Hz]]; inversion Fit; subst. apply Permutation_app; eauto.
  - pose proof (wt_children _ _ H) as Hc. apply wt_nd in H as [_ H]. apply every_nd in Fit as [Fk Fit].
    rewrite <- printed_fields by assumption. cbn [leaves]. clear H Fk.
    induction IH as [|x cs Hx _ IH]; [reflexivity|]. cbn [flat_map]. inversion Hc as [|? ? [z Hz]]; inversion Fit; subst. apply Permutation_app; eauto.
Qed.

Theorem leaves_printed_order t : forall y, has_ty t y -> every (fun k _ => negb (encloses k)) t = true -> leaves t = printed t.
Proof.
  induction t as [r|c cs IH|k cs IH] using tree_ind'; intros y H E.
  - reflexivity.
  - rewrite printed_con. cbn [leaves]. pose proof (wt_children _ _ H) as Hc. cbn in Hc. apply every_con in E. clear H.
    induction IH as [|x cs Hx _ IH]; [reflexivity|]. cbn [flat_map]. inversion Hc as [|? ? [z Hz]]; inversion E; subst. f_equal; eauto.
  - pose proof (wt_children _ _ H) as Hc. apply wt_nd in H as [_ H]. apply every_nd in E as [Ek E]. apply negb_true_iff in Ek.
    rewrite printed_plain; [|assumption|now apply (forall2_length has_ty)]. cbn [leaves]. clear H Ek.
    induction IH as [|x cs Hx _ IH]; [reflexivity|]. cbn [flat_map]. inversion Hc as [|? ? [z Hz]]; inversion E; subst. f_equal; eauto.
Qed.
