(** Basic facts about trees: induction, typing, field orders. *)
From Verif Require Export Visit.
From Coq Require Import Lia Permutation.
Local Open Scope nat_scope.

Lemma tree_ind' (P : tree -> Prop) :
  (forall r, P (Tok r)) -> (forall c cs, Forall P cs -> P (Con c cs)) -> (forall k cs, Forall P cs -> P (Nd k cs)) ->
  forall t, P t.
Proof.
  intros HT HC HN. fix IH 1. intros [r|c cs|k cs]; [apply HT|apply HC|apply HN];
  induction cs as [|x cs IHcs]; constructor; auto.
Qed.

(** ** Typing *)
Definition has_ty (t : tree) (y : ty) : Prop := wt t y = true.

Lemma nty_eqb_true a b : nty_eqb a b = true <-> a = b.
Proof. unfold nty_eqb. destruct (nty_eq_dec a b); split; congruence. Qed.

Definition con_tys (c : container) (y : ty) (n : nat) : option (list ty) :=
  match c, y with
  | CNone, YOpt _ => Some []
  | CSome, YOpt a => Some [a]
  | CVec, YVec a => Some (repeat a n)
  | CTuple, YTuple a b => Some [a; b]
  | CPunctuated, YPunctuated a => Some (repeat (YPair a) n)
  | CEnd, YPair a => Some [a]
  | CPunct, YPair a => Some [a; YTok]
  | CSpan, YSpan => Some [YTok; YTok]
  | _, _ => None
  end.

Lemma each_forall cs : forall ys, (fix each (cs : list tree) (ys : list ty) {struct cs} : bool :=
    match cs, ys with [], [] => true | c :: cs, y :: ys => wt c y && each cs ys | _, _ => false end) cs ys = true <->
  Forall2 has_ty cs ys.
Proof.
  induction cs as [|c cs IH]; intros [|y ys]; split; intros H; try discriminate; try constructor; try (inversion H; fail).
  - apply andb_true_iff in H. apply H.
  - apply andb_true_iff in H. now apply IH.
  - inversion H; subst. apply andb_true_iff. split; [assumption|now apply IH].
Qed.
Lemma all_forall cs y : (fix all (cs : list tree) (y : ty) {struct cs} : bool :=
    match cs with [] => true | c :: cs => wt c y && all cs y end) cs y = true <-> Forall2 has_ty cs (repeat y (List.length cs)).
Proof.
  induction cs as [|c cs IH]; cbn [List.length repeat]; split; intros H; try constructor; try reflexivity.
  - apply andb_true_iff in H. apply H.
  - apply andb_true_iff in H. now apply IH.
  - inversion H; subst. apply andb_true_iff. split; [assumption|now apply IH].
Qed.

Lemma wt_nd k cs y : has_ty (Nd k cs) y <-> y = YNode (kind_type k) /\ Forall2 has_ty cs (fields k).
Proof.
  unfold has_ty at 1. cbn [wt]. destruct y; try (split; [discriminate|intros [E _]; discriminate]).
  rewrite andb_true_iff, nty_eqb_true, each_forall. split; intros [E H]; (split; [congruence|assumption]).
Qed.
Lemma wt_con c cs y : has_ty (Con c cs) y <-> exists ys, con_tys c y (List.length cs) = Some ys /\ Forall2 has_ty cs ys.
Proof.
  unfold has_ty at 1. cbn [wt]. destruct c, y; cbn [con_tys];
    try (split; [discriminate|intros (ys & E & _); discriminate]);
    rewrite ?each_forall, ?all_forall; (split; [intros H; eauto|intros (ys & E & H); injection E as <-; exact H]).
Qed.
Lemma wt_tok r y : has_ty (Tok r) y <-> y = YTok.
Proof. unfold has_ty. destruct y; cbn; split; congruence. Qed.

(** The shapes of values of each type. *)
Lemma ty_tok t : has_ty t YTok -> exists r, t = Tok r.
Proof.
  destruct t as [r|c cs|k cs]; intros H; [eauto| |].
  - apply wt_con in H as (ys & E & _). destruct c; discriminate.
  - apply wt_nd in H as [E _]. discriminate.
Qed.
Lemma ty_span t : has_ty t YSpan -> exists a b, t = Con CSpan [Tok a; Tok b].
Proof.
  destruct t as [r|c cs|k cs]; intros H.
  - apply wt_tok in H. discriminate.
  - apply wt_con in H as (ys & E & H). destruct c; try discriminate. injection E as <-.
    inversion H as [|a ? l ? Ha Hl]; subst. inversion Hl as [|b ? l' ? Hb Hl']; subst. inversion Hl'; subst.
    apply ty_tok in Ha as (x & ->). apply ty_tok in Hb as (y & ->). eauto.
  - apply wt_nd in H as [E _]. discriminate.
Qed.
Lemma ty_opt t y : has_ty t (YOpt y) -> t = Con CNone [] \/ exists x, t = Con CSome [x] /\ has_ty x y.
Proof.
  destruct t as [r|c cs|k cs]; intros H.
  - apply wt_tok in H. discriminate.
  - apply wt_con in H as (ys & E & H). destruct c; try discriminate; injection E as <-.
    + inversion H; subst. auto.
    + inversion H as [|a ? l ? Ha Hl]; subst. inversion Hl; subst. right. eauto.
  - apply wt_nd in H as [E _]. discriminate.
Qed.
Lemma ty_vec t y : has_ty t (YVec y) -> exists l, t = Con CVec l /\ Forall (fun x => has_ty x y) l.
Proof.
  destruct t as [r|c cs|k cs]; intros H.
  - apply wt_tok in H. discriminate.
  - apply wt_con in H as (ys & E & H). destruct c; try discriminate; injection E as <-. exists cs. split; [reflexivity|].
    clear -H. induction cs; constructor; inversion H; subst; auto.
  - apply wt_nd in H as [E _]. discriminate.
Qed.
Lemma ty_tuple t y z : has_ty t (YTuple y z) -> exists a b, t = Con CTuple [a; b] /\ has_ty a y /\ has_ty b z.
Proof.
  destruct t as [r|c cs|k cs]; intros H.
  - apply wt_tok in H. discriminate.
  - apply wt_con in H as (ys & E & H). destruct c; try discriminate; injection E as <-.
    inversion H as [|a ? l ? Ha Hl]; subst. inversion Hl as [|b ? l' ? Hb Hl']; subst. inversion Hl'; subst. eauto.
  - apply wt_nd in H as [E _]. discriminate.
Qed.
Lemma ty_pair t y : has_ty t (YPair y) -> exists v, has_ty v y /\ (t = Con CEnd [v] \/ exists p, t = Con CPunct [v; Tok p]).
Proof.
  destruct t as [r|c cs|k cs]; intros H.
  - apply wt_tok in H. discriminate.
  - apply wt_con in H as (ys & E & H). destruct c; try discriminate; injection E as <-.
    + inversion H as [|a ? l ? Ha Hl]; subst. inversion Hl; subst. eauto.
    + inversion H as [|a ? l ? Ha Hl]; subst. inversion Hl as [|b ? l' ? Hb Hl']; subst. inversion Hl'; subst.
      apply ty_tok in Hb as (p & ->). eauto.
  - apply wt_nd in H as [E _]. discriminate.
Qed.
Lemma ty_punctuated t y : has_ty t (YPunctuated y) -> exists l, t = Con CPunctuated l /\ Forall (fun x => has_ty x (YPair y)) l.
Proof.
  destruct t as [r|c cs|k cs]; intros H.
  - apply wt_tok in H. discriminate.
  - apply wt_con in H as (ys & E & H). destruct c; try discriminate; injection E as <-. exists cs. split; [reflexivity|].
    clear -H. induction cs; constructor; inversion H; subst; auto.
  - apply wt_nd in H as [E _]. discriminate.
Qed.

Lemma wt_children t y : has_ty t y -> match t with Tok _ => True | Con _ cs | Nd _ cs => Forall (fun c => exists z, has_ty c z) cs end.
Proof.
  destruct t as [r|c cs|k cs]; intros H; [exact I| |].
  - apply wt_con in H as (ys & _ & H). induction H; constructor; eauto.
  - apply wt_nd in H as (_ & H). induction H; constructor; eauto.
Qed.

(** ** Orders on the level of trees *)
Definition at_ {A} (f : tree -> list A) (n : nat) (cs : list tree) : list A := match nth_error cs n with Some t => f t | None => [] end.
Definition subs (t : tree) : list tree := match t with Tok _ => [] | Con _ cs | Nd _ cs => cs end.
Definition subs_at (n : nat) (cs : list tree) : list tree := match nth_error cs n with Some t => subs t | None => [] end.
Fixpoint zip_pick {A} (f : tree -> list A) (p : bool) (pairs : list tree) (vecs : list (list tree)) : list A :=
  match pairs with
  | [] => []
  | x :: pairs => at_ f 0 (subs x) ++ flat_map (at_ f 0) vecs ++ (if p then at_ f 1 (subs x) else []) ++ zip_pick f p pairs (map (@tl _) vecs)
  end.
Definition pick {A} (f : tree -> list A) (cs : list tree) (o : op) : list A :=
  match o with
  | F n => at_ f n cs
  | L n => at_ f 0 (subs_at n cs)
  | R n => at_ f 1 (subs_at n cs)
  | Z n ms p => zip_pick f p (subs_at n cs) (map (fun m => subs_at m cs) ms)
  end.

Lemma kids_annotate {A} (f : tree -> list (atree A) -> A) t : kids (annotate f t) = map (annotate f) (subs t).
Proof. destruct t; reflexivity. Qed.
Lemma kids_at_map {A} (f : tree -> list (atree A) -> A) n cs : kids_at n (map (annotate f) cs) = map (annotate f) (subs_at n cs).
Proof.
  unfold kids_at, subs_at. rewrite nth_error_map. destruct (nth_error cs n); cbn; [apply kids_annotate|reflexivity].
Qed.
Lemma ann_at_map {B} (f : tree -> list (atree (list B)) -> list B) n cs : ann_at n (map (annotate f) cs) = at_ (fun t => ann (annotate f t)) n cs.
Proof. unfold ann_at, at_. rewrite nth_error_map. destruct (nth_error cs n); reflexivity. Qed.
Lemma zip_select_map {B} (f : tree -> list (atree (list B)) -> list B) p : forall pairs vecs,
  zip_select p (map (annotate f) pairs) (map (map (annotate f)) vecs) = zip_pick (fun t => ann (annotate f t)) p pairs vecs.
Proof.
  induction pairs as [|x pairs IH]; intros vecs; [reflexivity|]. cbn [map zip_select zip_pick].
  rewrite kids_annotate, !ann_at_map. f_equal. f_equal.
  - rewrite flat_map_concat_map, map_map, <- flat_map_concat_map. apply flat_map_ext. intros v. apply ann_at_map.
  - f_equal. rewrite <- IH. f_equal. rewrite !map_map. apply map_ext. intros v. destruct v; reflexivity.
Qed.
Lemma select_pick {B} (f : tree -> list (atree (list B)) -> list B) cs o :
  select (map (annotate f) cs) o = pick (fun t => ann (annotate f t)) cs o.
Proof.
  destruct o; cbn [select pick]; rewrite ?kids_at_map, ?ann_at_map; try reflexivity.
  rewrite <- zip_select_map. f_equal. rewrite map_map. apply map_ext. intros m. apply kids_at_map.
Qed.
Lemma select_all_pick {B} (f : tree -> list (atree (list B)) -> list B) cs os :
  select_all (map (annotate f) cs) os = flat_map (pick (fun t => ann (annotate f t)) cs) os.
Proof. unfold select_all. apply flat_map_ext. intros o. apply select_pick. Qed.

Lemma leaves_by_tok o r : leaves_by o (Tok r) = [r].
Proof. reflexivity. Qed.
Lemma leaves_by_con o c cs : leaves_by o (Con c cs) = flat_map (leaves_by o) cs.
Proof. unfold leaves_by. cbn [annotate ann gather]. rewrite !flat_map_concat_map, map_map. reflexivity. Qed.
Lemma leaves_by_nd o k cs : leaves_by o (Nd k cs) = flat_map (pick (leaves_by o) cs) (o k).
Proof. unfold leaves_by at 1. cbn [annotate ann gather]. now rewrite select_all_pick. Qed.

Lemma pick_in_order {A} (f : tree -> list A) cs n : n = List.length cs -> flat_map (pick f cs) (map F (seq 0 n)) = flat_map f cs.
Proof.
  intros ->. rewrite flat_map_concat_map, map_map, <- flat_map_concat_map. cbn [pick].
  assert (G : forall pre cs, flat_map (fun i => at_ f i (pre ++ cs)) (seq (List.length pre) (List.length cs)) = flat_map f cs).
  { clear. intros pre cs. revert pre. induction cs as [|c cs IH]; intros pre; [reflexivity|]. cbn [List.length seq flat_map].
    f_equal.
    - unfold at_. rewrite nth_error_app2, Nat.sub_diag by lia. reflexivity.
    - specialize (IH (pre ++ [c])). rewrite app_length in IH. cbn [List.length] in IH. rewrite Nat.add_1_r, <- app_assoc in IH. exact IH. }
  apply (G [] cs).
Qed.

Lemma forall2_length {A B} (R : A -> B -> Prop) l l' : Forall2 R l l' -> List.length l = List.length l'.
Proof. induction 1; cbn; congruence. Qed.

Lemma leaves_by_in_order o k cs : o k = in_order k -> Forall2 has_ty cs (fields k) -> leaves_by o (Nd k cs) = flat_map (leaves_by o) cs.
Proof.
  intros E H. rewrite leaves_by_nd, E. apply pick_in_order. symmetry. now apply (forall2_length has_ty).
Qed.
