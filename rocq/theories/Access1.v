(** Getters and setters (C62). Proof file. *)
From Verif Require Import PunctuatedProofs LexerSpec.
From Verif Require Import TreeFacts NodeProofs PrintProofs TreeSpec Access AccessSpec.
From Coq Require Import Lia Permutation.
Local Open Scope nat_scope.
Import ListNotations.

(** ** Fields *)
Lemma replace_same n x cs : n < List.length cs -> nth_error (replace n x cs) n = Some x.
Proof. revert n. induction cs as [|y cs IH]; intros n H; cbn in H; [lia|]. destruct n; cbn; [reflexivity|]. apply IH. lia. Qed.
Lemma replace_other n m x cs : n <> m -> nth_error (replace n x cs) m = nth_error cs m.
Proof. revert n m. induction cs as [|y cs IH]; intros n m H; [now destruct n|]. destruct n, m; cbn; try reflexivity; [now destruct H|]. apply IH. congruence. Qed.
Lemma replace_id n x cs : nth_error cs n = Some x -> replace n x cs = cs.
Proof. revert n. induction cs as [|y cs IH]; intros n H; [now destruct n|]. destruct n; cbn in *; [congruence|]. f_equal. auto. Qed.
Lemma replace_twice n x y cs : replace n x (replace n y cs) = replace n x cs.
Proof. revert n. induction cs as [|z cs IH]; intros n; [now destruct n|]. destruct n; cbn; [reflexivity|]. f_equal. auto. Qed.
Lemma replace_typed n x cs ys y : Forall2 has_ty cs ys -> nth_error ys n = Some y -> has_ty x y -> Forall2 has_ty (replace n x cs) ys.
Proof.
  intros H. revert n. induction H as [|c z cs ys C H IH]; intros n N X; [now destruct n|]. destruct n; cbn in *; [injection N as ->; now constructor|]. constructor; auto.
Qed.

(** ** The tables *)
Definition part_eqb (p q : part) : bool := match p, q with Whole n, Whole m | Left n, Left m | Right n, Right m => Nat.eqb n m | _, _ => false end.
Definition name_eqb (a b : text) : bool := if list_eq_dec N.eq_dec a b then true else false.
Definition belongs_b (s g : accessor) : bool :=
  kind_eqb (ac_kind s) (ac_kind g) && (name_eqb (ac_name s) (str "with_" ++ ac_name g) ||
    existsb (fun e => kind_eqb (fst (fst e)) (ac_kind s) && name_eqb (snd (fst e)) (ac_name s) && name_eqb (snd e) (ac_name g)) renamed).
Lemma name_eqb_true a b : name_eqb a b = true <-> a = b.
Proof. unfold name_eqb. destruct (list_eq_dec N.eq_dec a b); split; congruence. Qed.
Lemma belongs_true s g : belongs_b s g = true <-> belongs s g.
Proof.
  unfold belongs_b, belongs. rewrite andb_true_iff, orb_true_iff, kind_eqb_true, name_eqb_true, existsb_exists. split; intros [K H]; (split; [assumption|]); (destruct H as [H|H]; [now left|right]).
  - destruct H as ([[a b] d] & I & E). cbn [fst snd] in E. rewrite !andb_true_iff, kind_eqb_true, !name_eqb_true in E. destruct E as [[-> ->] ->]. assumption.
  - exists (ac_kind s, ac_name s, ac_name g). cbn [fst snd]. rewrite !andb_true_iff, kind_eqb_true, !name_eqb_true. auto.
Qed.
(** Getters of the same field belong together; a setter sets the field of the getters that belong to it, and there is one; every getter has a setter. *)
Definition whole (p : part) : bool := match p with Whole _ => true | _ => false end.
Definition setter_ok (s : accessor) : bool :=
  whole (ac_part s) && Nat.ltb (part_field (ac_part s)) (List.length (fields (ac_kind s))) && existsb (belongs_b s) getters &&
  forallb (fun g => negb (kind_eqb (ac_kind s) (ac_kind g)) || Bool.eqb (belongs_b s g) (Nat.eqb (part_field (ac_part s)) (part_field (ac_part g)))) getters.
Definition getter_ok (g : accessor) : bool := Nat.ltb (part_field (ac_part g)) (List.length (fields (ac_kind g))) && existsb (fun s => belongs_b s g) setters.
Lemma setters_ok : forallb setter_ok setters = true. Proof. vm_compute. reflexivity. Qed.
Lemma getters_ok : forallb getter_ok getters = true. Proof. vm_compute. reflexivity. Qed.

Lemma setter_facts s : In s setters -> (exists n, ac_part s = Whole n) /\ part_field (ac_part s) < List.length (fields (ac_kind s)) /\ (exists g, In g getters /\ belongs s g) /\
  forall g, In g getters -> ac_kind s = ac_kind g -> (belongs s g <-> part_field (ac_part s) = part_field (ac_part g)).
Proof.
  intros I. pose proof setters_ok as H. rewrite forallb_forall in H. specialize (H s I). unfold setter_ok in H. rewrite !andb_true_iff, Nat.ltb_lt, existsb_exists, forallb_forall in H.
  destruct H as [[[W L] (g & G & B)] F]. split; [destruct (ac_part s); [eauto|discriminate W|discriminate W]|]. split; [assumption|]. split; [exists g; split; [assumption|now apply belongs_true]|].
  intros h Hh K. specialize (F h Hh). apply orb_true_iff in F as [F|F]; [apply negb_true_iff in F; rewrite K, (proj2 (kind_eqb_true _ _) eq_refl) in F; discriminate|].
  apply Bool.eqb_prop in F. rewrite <- belongs_true, F. apply Nat.eqb_eq.
Qed.
Lemma getter_facts g : In g getters -> part_field (ac_part g) < List.length (fields (ac_kind g)) /\ exists s, In s setters /\ belongs s g.
Proof.
  intros I. pose proof getters_ok as H. rewrite forallb_forall in H. specialize (H g I). unfold getter_ok in H. rewrite andb_true_iff, Nat.ltb_lt, existsb_exists in H.
  destruct H as [L (s & S & B)]. split; [assumption|]. exists s. split; [assumption|now apply belongs_true].
Qed.
Lemma struct_fields a t : of_struct a t -> exists cs, t = Nd (ac_kind a) cs /\ Forall2 has_ty cs (fields (ac_kind a)) /\ List.length cs = List.length (fields (ac_kind a)).
Proof. intros [[y H] (cs & ->)]. apply wt_nd in H as [_ H]. exists cs. split; [reflexivity|]. split; [assumption|]. exact (forall2_length has_ty _ _ H). Qed.

(** ** The laws *)
Lemma get_total g t : In g getters -> of_struct g t -> exists v, get g t = Some v.
Proof.
  intros I S. destruct (getter_facts g I) as [L _]. destruct (struct_fields g t S) as (cs & -> & F & E). 
  assert (T : match ac_part g with Whole _ => True | p => exists a b, nth_error (fields (ac_kind g)) (part_field p) = Some (YOpt (YTuple a b)) end).
  { revert I. clear. assert (X : forallb (fun g => match ac_part g with Whole _ => true | p => match nth_error (fields (ac_kind g)) (part_field p) with Some (YOpt (YTuple _ _)) => true | _ => false end end) getters = true) by (vm_compute; reflexivity).
    rewrite forallb_forall in X. intros I. specialize (X g I). cbv beta in X. destruct (ac_part g); [constructor|..]; cbn [part_field] in *; destruct (nth_error _ _) as [[]|]; try discriminate X; match goal with H : (match ?y with _ => _ end) = true |- _ => destruct y; try discriminate H end; eauto. }
  unfold get. destruct (nth_error cs (part_field (ac_part g))) as [x|] eqn:N; [|apply nth_error_None in N; lia].
  assert (P : forall a b, nth_error (fields (ac_kind g)) (part_field (ac_part g)) = Some (YOpt (YTuple a b)) -> x = Con CNone [] \/ exists u v, x = Con CSome [Con CTuple [u; v]]).
  { intros a b Y. assert (X : has_ty x (YOpt (YTuple a b))).
    { clear - F N Y. revert Y N. generalize (part_field (ac_part g)). induction F as [|c z cs ys C F IH]; intros n Y N; [now destruct n|]. destruct n; cbn in *; [congruence|eauto]. }
    apply ty_opt in X as [->|(w & -> & W)]; [now left|right]. apply ty_tuple in W as (u & v & -> & _). eauto. }
  destruct (ac_part g); cbn [part_of part_field] in *; [eauto| |]; destruct T as (a & b & T); destruct (P a b T) as [->|(u & v & ->)]; cbn; eauto.
Qed.
Lemma get_set s g v t : In s setters -> In g getters -> belongs s g -> of_struct s t -> get g (set s v t) = part_of (ac_part g) v.
Proof.
  intros I G B S. destruct (setter_facts s I) as (_ & L & _ & F). assert (E : part_field (ac_part s) = part_field (ac_part g)) by (apply F; [assumption|apply B|assumption]).
  destruct (struct_fields s t S) as (cs & -> & _ & N). unfold get, set, with_field. rewrite E in *. rewrite replace_same by lia. reflexivity.
Qed.
Lemma get_other s g v t : In s setters -> In g getters -> ac_kind s = ac_kind g -> ~ belongs s g -> get g (set s v t) = get g t.
Proof.
  intros I G K B. destruct (setter_facts s I) as (_ & _ & _ & F). assert (E : part_field (ac_part s) <> part_field (ac_part g)) by (rewrite <- (F g G K); exact B).
  destruct t as [r|k cs|k cs]; [reflexivity|reflexivity|]. unfold get, set, with_field. now rewrite replace_other.
Qed.
Lemma set_get s g v t n : In s setters -> In g getters -> belongs s g -> ac_part g = Whole n -> get g t = Some v -> set s v t = t.
Proof.
  intros I G B P X. destruct (setter_facts s I) as (_ & _ & _ & F). assert (E : part_field (ac_part s) = part_field (ac_part g)) by (apply F; [assumption|apply B|assumption]).
  destruct t as [r|k cs|k cs]; [discriminate X|discriminate X|]. unfold get, set, with_field in *. rewrite E, P in *. cbn [part_field part_of] in *. destruct (nth_error cs n) as [x|] eqn:N; [|discriminate X]. injection X as ->. f_equal. now apply replace_id.
Qed.
Lemma set_set s v w t : set s v (set s w t) = set s v t.
Proof. destruct t; [reflexivity|reflexivity|]. unfold set, with_field. now rewrite replace_twice. Qed.
Lemma set_typed s v t y : In s setters -> of_struct s t -> nth_error (fields (ac_kind s)) (part_field (ac_part s)) = Some y -> has_ty v y -> of_struct s (set s v t).
Proof.
  intros I S Y V. destruct (struct_fields s t S) as (cs & -> & F & _). split; [|now exists (replace (part_field (ac_part s)) v cs)]. exists (YNode (kind_type (ac_kind s))). apply wt_nd. split; [reflexivity|]. now apply (replace_typed _ _ _ _ y).
Qed.

(** ** Getters reach everything *)
Definition parts_of (k : kind) : list part := map ac_part (getters_of k).
Definition parts_ok (k : kind) : bool :=
  if existsb (kind_eqb k) [KFunctionName; KGenericDeclarationParameter] then if list_eq_dec (fun p q : part => ltac:(repeat decide equality) : {p = q} + {p <> q}) (parts_of k) [Whole 0; Left 1; Right 1] then true else false
  else if list_eq_dec (fun p q : part => ltac:(repeat decide equality) : {p = q} + {p <> q}) (parts_of k) (map Whole (seq 0 (List.length (fields k)))) then true else false.
Lemma all_parts_ok : forallb (fun g => parts_ok (ac_kind g)) getters = true. Proof. vm_compute. reflexivity. Qed.
Definition shown_part (cs : list tree) (p : part) : list tokref :=
  match match nth_error cs (part_field p) with Some x => part_of p x | None => None end with Some v => printed v | None => [] end.
Lemma shown_parts k cs : flat_map (shown (Nd k cs)) (getters_of k) = flat_map (shown_part cs) (parts_of k).
Proof. unfold parts_of. induction (getters_of k) as [|g l IH]; [reflexivity|]. cbn [flat_map map]. now rewrite IH. Qed.
Lemma shown_wholes cs : flat_map (shown_part cs) (map Whole (seq 0 (List.length cs))) = flat_map printed cs.
Proof.
  assert (H : forall a b, flat_map (shown_part (a ++ b)) (map Whole (seq (List.length a) (List.length b))) = flat_map printed b).
  { intros a b. revert a. induction b as [|x b IH]; intros a; [reflexivity|]. cbn [List.length seq map flat_map]. f_equal.
    - unfold shown_part. cbn [part_field part_of]. rewrite nth_error_app2, Nat.sub_diag by lia. reflexivity.
    - specialize (IH (a ++ [x])). rewrite <- app_assoc, app_length in IH. cbn [app List.length] in IH. now rewrite Nat.add_1_r in IH. }
  exact (H [] cs).
Qed.
Lemma shown_fields k cs : (exists g, In g getters /\ ac_kind g = k) -> Forall2 has_ty cs (fields k) -> flat_map (shown (Nd k cs)) (getters_of k) = flat_map printed cs.
Proof.
  intros (g & I & <-) H. pose proof all_parts_ok as P. rewrite forallb_forall in P. specialize (P g I). unfold parts_ok in P. rewrite shown_parts. pose proof (forall2_length has_ty _ _ H) as L.
  destruct (existsb (kind_eqb (ac_kind g)) [KFunctionName; KGenericDeclarationParameter]) eqn:X.
  - destruct (list_eq_dec _ _ _) as [E|]; [|discriminate P]. rewrite E.
    assert (Y : exists a b d, fields (ac_kind g) = [d; YOpt (YTuple a b)]).
    { cbn [existsb] in X. rewrite !orb_true_iff, !kind_eqb_true in X. destruct X as [->|[->|X]]; [| |discriminate X]; cbn [fields]; eauto. }
    destruct Y as (a & b & d & Y). rewrite Y in H. inversion H as [|x y1 cs1 ys X1 H1]; subst. inversion H1 as [|z y2 cs2 ys' Z H2]; subst. inversion H2; subst.
    apply ty_opt in Z as [->|(w & -> & W)]; [|apply ty_tuple in W as (u & v & -> & _)]; unfold shown_part; cbn [flat_map part_field part_of nth_error optional_pair]; rewrite !printed_con; cbn [flat_map]; rewrite ?printed_con; cbn [flat_map];
      rewrite ?app_nil_r, <- ?app_assoc; reflexivity.
  - destruct (list_eq_dec _ _ _) as [E|]; [|discriminate P]. rewrite E, <- L. apply shown_wholes.
Qed.
Lemma reach k cs : (exists g, In g getters /\ ac_kind g = k) -> well_typed (Nd k cs) -> fitting_node k cs = true -> Permutation (flat_map (shown (Nd k cs)) (getters_of k)) (printed (Nd k cs)).
Proof. intros G [y H] F. apply wt_nd in H as [_ H]. rewrite shown_fields by assumption. now apply printed_fields. Qed.

(** ** Getters of parts of a field *)
Lemma block_form t : has_ty t (YNode NBlock) -> exists l o, t = Nd KBlock [Con CVec (map (fun x => Con CTuple [fst x; snd x]) l); o] /\ (o = Con CNone [] \/ exists s e, o = Con CSome [Con CTuple [s; e]]).
Proof.
  intros H. destruct t as [r|k cs|k cs]; [apply wt_tok in H; discriminate|apply wt_con in H as (ys & H & _); destruct k; discriminate H|].
  apply wt_nd in H as [K H]. destruct k; try discriminate K. cbn [fields] in H. inversion H as [|x y1 cs1 ys X H1]; subst. inversion H1 as [|z y2 cs2 ys' Z H2]; subst. inversion H2; subst.
  apply ty_vec in X as (m & -> & M). assert (L : exists l, m = map (fun x => Con CTuple [fst x; snd x]) l).
  { clear - M. induction M as [|x m X M (l & ->)]; [now exists []|]. apply ty_tuple in X as (a & b & -> & _). now exists ((a, b) :: l). }
  destruct L as (l & ->). exists l, z. split; [reflexivity|]. apply ty_opt in Z as [->|(w & -> & W)]; [now left|right]. apply ty_tuple in W as (s & e & -> & _). eauto.
Qed.
Lemma stmts_got l o : block_stmts_get (Nd KBlock [Con CVec (map (fun x : tree * tree => Con CTuple [fst x; snd x]) l); o]) = map fst l.
Proof. cbn. induction l as [|x l IH]; [reflexivity|]. cbn. now f_equal. Qed.
Lemma expressions_got l z : expressions (Nd KInterpolatedString [Con CVec (map (fun x : tree * tree => Nd KInterpolatedStringSegment [fst x; snd x]) l); z]) = map snd l.
Proof.
  unfold expressions. set (f := fun x : tree * tree => Nd KInterpolatedStringSegment [fst x; snd x]).
  assert (H : forall b a, expressions_run (S (List.length b)) (map f (a ++ b)) (List.length a) = map snd b).
  { induction b as [|x b IH]; intros a.
    - cbn [expressions_run List.length]. unfold expressions_next. rewrite app_nil_r, map_length, Nat.leb_refl. reflexivity.
    - replace (List.length (x :: b)) with (S (List.length b)) by reflexivity. cbn [expressions_run]. unfold expressions_next at 1. rewrite map_length, app_length. cbn [List.length].
      destruct (Nat.leb_spec (List.length a + S (List.length b)) (List.length a)) as [X|X]; [lia|]. rewrite map_app, nth_error_app2 by (rewrite map_length; lia). rewrite map_length, Nat.sub_diag. cbn [map nth_error].
      unfold f at 1. f_equal. specialize (IH (a ++ [x])). rewrite <- app_assoc, app_length in IH. cbn [app List.length] in IH. rewrite Nat.add_1_r in IH. rewrite map_app in IH. exact IH. }
  specialize (H l []). cbn [app List.length] in H. rewrite map_length. exact H.
Qed.
Lemma operator_got t : has_ty t (YNode NBinOp) \/ has_ty t (YNode NUnOp) \/ has_ty t (YNode NCompoundOp) -> exists r, operator_token t = Some r /\ printed t = [r].
Proof.
  intros H. destruct t as [r|k cs|k cs].
  - destruct H as [H|[H|H]]; apply wt_tok in H; discriminate.
  - destruct H as [H|[H|H]]; apply wt_con in H as (ys & H & _); destruct k; discriminate H.
  - destruct H as [H|[H|H]]; apply wt_nd in H as [K H]; destruct k; try discriminate K; cbn [fields] in H; inversion H as [|x y1 cs1 ys X H1]; subst; inversion H1; subst; apply ty_tok in X as (r & ->); exists r; split; reflexivity.
Qed.

(** ** Names of fields *)
Definition among (l : list (kind * text)) (g : accessor) : bool := existsb (fun x => kind_eqb (fst x) (ac_kind g) && name_eqb (snd x) (ac_name g)) l.
Lemma among_true l g : among l g = true <-> In (ac_kind g, ac_name g) l.
Proof.
  unfold among. rewrite existsb_exists. split.
  - intros ([k n] & I & E). apply andb_true_iff in E as [E F]. apply kind_eqb_true in E. apply name_eqb_true in F. cbn in E, F. now subst.
  - intros I. exists (ac_kind g, ac_name g). split; [exact I|]. apply andb_true_iff. split; [now apply kind_eqb_true|now apply name_eqb_true].
Qed.
Definition stands_for_b (g : accessor) (f : text) : bool :=
  name_eqb f (ac_name g) || existsb (fun x => kind_eqb (fst (fst x)) (ac_kind g) && name_eqb (snd (fst x)) (ac_name g) && name_eqb (snd x) f) aliases.
Lemma stands_for_true g f : stands_for_b g f = true <-> stands_for g f.
Proof.
  unfold stands_for_b, stands_for. rewrite orb_true_iff, name_eqb_true, existsb_exists. split; (intros [H|H]; [now left|right]).
  - destruct H as ([[k n] m] & I & E). rewrite !andb_true_iff, kind_eqb_true, !name_eqb_true in E. cbn in E. destruct E as [[-> ->] ->]. exact I.
  - eexists. split; [exact H|]. cbn. rewrite !andb_true_iff, kind_eqb_true, !name_eqb_true. auto.
Qed.
Definition named_ok (g : accessor) : bool :=
  Nat.eqb (List.length (declared (ac_kind g))) (List.length (fields (ac_kind g))) &&
  forallb (fun n => match nth_error (declared (ac_kind g)) n with Some f => Bool.eqb (stands_for_b g f) (Nat.eqb n (part_field (ac_part g))) | None => false end) (seq 0 (List.length (declared (ac_kind g)))) &&
  (match ac_part g with Whole _ => negb (among firsts g) && negb (among seconds g) | Left _ => among firsts g && negb (among seconds g) | Right _ => negb (among firsts g) && among seconds g end).
Lemma all_named : forallb named_ok getters = true. Proof. vm_compute. reflexivity. Qed.
Lemma named g : In g getters -> List.length (declared (ac_kind g)) = List.length (fields (ac_kind g)) /\
  (forall n f, nth_error (declared (ac_kind g)) n = Some f -> (stands_for g f <-> n = part_field (ac_part g))) /\
  (match ac_part g with Whole _ => plain g | Left _ => first_of_pair g /\ ~ second_of_pair g | Right _ => ~ first_of_pair g /\ second_of_pair g end).
Proof.
  intros I. pose proof all_named as P. rewrite forallb_forall in P. specialize (P g I). unfold named_ok in P. rewrite !andb_true_iff in P. destruct P as [[P Q] R].
  split; [now apply Nat.eqb_eq|]. split.
  - intros n f E. rewrite forallb_forall in Q. assert (L : n < List.length (declared (ac_kind g))) by (apply nth_error_Some; congruence).
    specialize (Q n). rewrite E in Q. rewrite <- stands_for_true, <- Nat.eqb_eq. specialize (Q ltac:(apply in_seq; lia)). apply eqb_prop in Q. now rewrite Q.
  - unfold plain, first_of_pair, second_of_pair. pose proof (among_true firsts g) as A1. pose proof (among_true seconds g) as A2. destruct (ac_part g); apply andb_true_iff in R as [R S]; rewrite ?negb_true_iff in *; rewrite <- A1, <- A2, R, S; split; congruence.
Qed.
Lemma got_named g : In g getters -> (exists n f, nth_error (declared (ac_kind g)) n = Some f /\ stands_for g f) /\
  forall n f cs x, nth_error (declared (ac_kind g)) n = Some f -> stands_for g f -> nth_error cs n = Some x ->
    (plain g -> get g (Nd (ac_kind g) cs) = Some x) /\
    (x = Con CNone [] -> get g (Nd (ac_kind g) cs) = Some (Con CNone [])) /\
    (forall a b, x = Con CSome [Con CTuple [a; b]] -> (first_of_pair g -> get g (Nd (ac_kind g) cs) = Some (Con CSome [a])) /\ (second_of_pair g -> get g (Nd (ac_kind g) cs) = Some (Con CSome [b]))).
Proof.
  intros I. destruct (named g I) as (L & N & P). split.
  - destruct (getter_facts g I) as [Lt _]. rewrite <- L in Lt. apply nth_error_Some in Lt. destruct (nth_error (declared (ac_kind g)) (part_field (ac_part g))) as [f|] eqn:E; [|congruence].
    exists (part_field (ac_part g)), f. split; [exact E|]. now apply (N _ _ E).
  - intros n f cs x E S X. apply (N _ _ E) in S as ->. unfold get. rewrite X. destruct (ac_part g) as [m|m|m]; cbn [part_of optional_pair]; unfold plain in *.
    + split; [reflexivity|]. split; [now intros ->|]. intros a b ->. tauto.
    + split; [tauto|]. split; [now intros ->|]. intros a b ->. cbn [optional_pair]. tauto.
    + split; [tauto|]. split; [now intros ->|]. intros a b ->. cbn [optional_pair]. tauto.
Qed.
Lemma plain_whole g : In g getters -> plain g -> exists n, ac_part g = Whole n.
Proof. intros I [A B]. destruct (named g I) as (_ & _ & P). destruct (ac_part g); [eauto|tauto|tauto]. Qed.
Lemma pair_set s g a b t : In s setters -> In g getters -> belongs s g -> of_struct s t ->
  (first_of_pair g -> get g (set s (Con CSome [Con CTuple [a; b]]) t) = Some (Con CSome [a])) /\
  (second_of_pair g -> get g (set s (Con CSome [Con CTuple [a; b]]) t) = Some (Con CSome [b])) /\ get g (set s (Con CNone []) t) = Some (Con CNone []).
Proof. intros I J B O. rewrite !(get_set s g _ t I J B O). destruct (named g J) as (_ & _ & P). unfold plain in P. destruct (ac_part g); cbn [part_of optional_pair]; tauto. Qed.
