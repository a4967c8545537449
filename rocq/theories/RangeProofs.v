(** Proofs about [start_position] and [end_position]. *)
From Verif Require Export VisitEvents.
From Coq Require Import Lia ZifyBool ZifyNat ZifyN.
Local Open Scope nat_scope.

Fixpoint tight (y : ty) : bool :=
  match y with
  | YTok | YSpan => true
  | YOpt _ | YVec _ | YPunctuated _ => false
  | YTuple a b => tight a || tight b
  | YPair a => tight a
  | YNode n => negb (nty_eqb n NBlock)
  end.
Fixpoint sound (y : ty) : bool :=
  match y with
  | YTok | YSpan | YNode _ => true
  | YOpt a => sound a
  | YVec a | YPunctuated a => sound a && tight a
  | YTuple a b => sound a && sound b
  | YPair a => sound a && tight a
  end.

Fixpoint edge (cs : list tree) : bool :=
  match cs with [] => true | c :: rest => if forallb (fun d => match printed d with [] => true | _ => false end) rest then closed c else edge rest end.
Lemma closed_con c cs : closed (Con c cs) = edge cs.
Proof. induction cs as [|x cs IH]; [reflexivity|]. cbn [closed edge] in *. rewrite IH. reflexivity. Qed.
Lemma closed_nd k cs : closed (Nd k cs) = closes k cs && (whole k || edge cs).
Proof. rewrite <- (closed_con CVec cs). reflexivity. Qed.

Lemma all_empty l : forallb (fun d => match printed d with [] => true | _ => false end) l = true <-> flat_map printed l = [].
Proof.
  induction l as [|x l IH]; [easy|]. cbn [forallb flat_map]. rewrite andb_true_iff, IH. destruct (printed x); cbn; split; try easy; intros [? ?]; easy.
Qed.

(** ** One node *)
Definition starts (t : tree) : Prop :=
  (printed t = [] /\ positions t = (None, None)) \/
  (exists r l, printed t = r :: l /\ fst (positions t) = Some (t_start (r_token r)) /\
     exists e, In e (printed t) /\ snd (positions t) = Some (t_end (r_token e))).
Definition stops (t : tree) : Prop :=
  closed t = true -> forall r l, printed t = l ++ [r] -> snd (positions t) = Some (t_end (r_token r)).

Lemma first_some_app l l' : first_some (l ++ l') = match first_some l with Some p => Some p | None => first_some l' end.
Proof. induction l as [|[p|] l IH]; cbn; auto. Qed.
Lemma starts_list cs : Forall starts cs ->
  match flat_map printed cs with
  | [] => first_some (map fst (map positions cs)) = None /\ first_some (rev (map snd (map positions cs))) = None
  | r :: _ => first_some (map fst (map positions cs)) = Some (t_start (r_token r)) /\
      exists e, In e (flat_map printed cs) /\ first_some (rev (map snd (map positions cs))) = Some (t_end (r_token e))
  end.
Proof.
  induction 1 as [|t cs Ht _ IH]; [easy|]. cbn [map rev flat_map]. rewrite first_some_app. destruct Ht as [[E P]|(r & l & E & S & e & Ie & N)].
  - rewrite P, E. cbn [fst snd first_some app]. destruct (flat_map printed cs); destruct IH as [A B]; rewrite ?A; (split; [reflexivity|]).
    + now rewrite B.
    + destruct B as (e & I & B). exists e. now rewrite B.
  - rewrite E. cbn [first_some app]. rewrite S. split; [reflexivity|]. destruct (flat_map printed cs) eqn:Ef; destruct IH as [A B].
    + rewrite B. exists e. rewrite E in Ie. cbn [first_some]. rewrite N. split; [now rewrite app_nil_r|reflexivity].
    + destruct B as (e' & I & B). exists e'. rewrite B. split; [|reflexivity]. rewrite app_comm_cons, in_app_iff. now right.
Qed.
Lemma stops_list cs : Forall starts cs -> Forall stops cs -> edge cs = true -> forall r l, flat_map printed cs = l ++ [r] ->
  first_some (rev (map snd (map positions cs))) = Some (t_end (r_token r)).
Proof.
  induction 1 as [|t cs Ht Hs IH]; intros St E r l P; [destruct l; discriminate|].
  inversion St as [|? ? St1 St2]; subst. cbn [edge] in E. cbn [map rev]. rewrite first_some_app. cbn [flat_map] in P.
  destruct (forallb _ cs) eqn:Em.
  - apply all_empty in Em. pose proof (starts_list cs Hs) as X. rewrite Em in X, P. rewrite app_nil_r in P. rewrite (proj2 X). cbn [first_some].
    rewrite (St1 E r l P). reflexivity.
  - assert (N : flat_map printed cs <> []) by (intros X; apply all_empty in X; congruence).
    destruct (exists_last N) as (l' & r' & E'). rewrite E', app_assoc in P. apply app_inj_tail in P as [_ <-]. rewrite (IH St2 E r' l' E'). reflexivity.
Qed.

Lemma ordered_mid u m v : in_source_order (u ++ m ++ v) -> in_source_order m.
Proof. intros H a x b y c E. apply (H (u ++ a) x b y (c ++ v)). rewrite E. now rewrite <- !app_assoc, <- app_comm_cons, <- !app_assoc, <- app_comm_cons. Qed.
Lemma ordered_flat cs : in_source_order (flat_map printed cs) -> Forall (fun t => in_source_order (printed t)) cs.
Proof.
  intros H. apply Forall_forall. intros t I. apply in_split in I as (a & b & ->). rewrite flat_map_app in H. cbn [flat_map] in H. now apply ordered_mid in H.
Qed.

Definition claim (t : tree) : Prop := forall y, has_ty t y -> sound y = true -> every filled_node t = true -> fitting t = true -> in_source_order (printed t) ->
  starts t /\ stops t /\ (tight y = true -> printed t <> []) /\ (forall a p l, y = YPunctuated a -> t = Con CPunctuated (p :: l) -> printed t <> []).

Lemma both_eq a b : both (a, b) = match a, b with Some x, Some y => (Some x, Some y) | _, _ => (None, None) end.
Proof. destruct a, b; reflexivity. Qed.

Lemma claims cs ys : Forall claim cs -> Forall2 has_ty cs ys -> forallb sound ys = true -> Forall (fun x => every filled_node x = true) cs -> Forall (fun x => fitting x = true) cs ->
  in_source_order (flat_map printed cs) -> Forall starts cs /\ Forall stops cs /\ (existsb tight ys = true -> flat_map printed cs <> []).
Proof.
  intros Hc Ty S Fi Ft O. apply ordered_flat in O. revert Hc S Fi Ft O. induction Ty as [|t y cs ys Ht Ty IH]; intros Hc S Fi Ft O; [repeat split; easy|].
  inversion_clear Hc as [|? ? Hc1 Hc2]. inversion_clear Fi as [|? ? Fi1 Fi2]. inversion_clear O as [|? ? O1 O2]. inversion_clear Ft as [|? ? Ft1 Ft2]. cbn [forallb] in S. apply andb_true_iff in S as [S1 S2].
  destruct (Hc1 y Ht S1 Fi1 Ft1 O1) as (A & B & C & _). destruct (IH Hc2 S2 Fi2 Ft2 O2) as (A' & B' & C'). split; [now constructor|]. split; [now constructor|].
  cbn [existsb flat_map]. intros X E. apply app_eq_nil in E as [E1 E2]. apply orb_true_iff in X as [X|X]; [now apply C|now apply C'].
Qed.

Lemma plain_sound k : encloses k = false -> forallb sound (fields k) = true.
Proof. destruct k; intros H; try discriminate H; reflexivity. Qed.
Lemma plain_tight k cs : encloses k = false -> k <> KBlock -> filled_node k cs = true ->
  existsb tight (fields k) = true \/ k = KFunctionName \/ k = KTypeUnion \/ k = KTypeIntersection.
Proof. destruct k; intros H N Fi; try discriminate H; try congruence; auto. Qed.
Lemma plain_whole k : encloses k = false -> full_range k = None /\ whole k = false.
Proof. destruct k; intros H; try discriminate H; split; reflexivity. Qed.

Lemma claim_plain k cs : encloses k = false -> Forall claim cs -> claim (Nd k cs).
Proof.
  intros En Hc y Ty _ Fi Ft O. apply wt_nd in Ty as [-> Ty]. apply every_nd in Fi as [Fk Fi]. apply every_nd in Ft as [_ Ft].
  pose proof (printed_plain k cs En (forall2_length _ _ _ Ty)) as P. rewrite P in O.
  destruct (claims cs (fields k) Hc Ty (plain_sound k En) Fi Ft O) as (St & Sp & Ti). destruct (plain_whole k En) as [Fr Wh].
  assert (Ps : positions (Nd k cs) = both (first_some (map fst (map positions cs)), first_some (rev (map snd (map positions cs))))) by (cbn [positions]; now rewrite Fr).
  pose proof (starts_list cs St) as Sl. split; [|split; [|split]].
  - unfold starts. rewrite P, Ps. destruct (flat_map printed cs) as [|r l] eqn:Ef; destruct Sl as [A B]; rewrite A.
    + left. split; [reflexivity|]. now rewrite both_eq.
    + right. exists r, l. split; [reflexivity|]. rewrite both_eq. destruct B as (e & I & B). rewrite B. split; [reflexivity|]. exists e. now split.
  - intros Cl r l Er. rewrite closed_nd, Wh, orb_false_l in Cl. apply andb_true_iff in Cl as [_ Cl]. rewrite P in Er. rewrite Ps, (stops_list cs St Sp Cl r l Er).
    destruct (flat_map printed cs) as [|r0 l0] eqn:Ef; [destruct l; discriminate|]. destruct Sl as [A _]. rewrite A. reflexivity.
  - intros T. rewrite P. destruct (plain_tight k cs En) as [X|X]; [|assumption|now apply Ti|].
    + intros ->. discriminate.
    + intros Z. assert (Zs : Forall (fun t => printed t = []) cs).
      { apply Forall_forall. intros t I. apply in_split in I as (a & b & ->). rewrite flat_map_app in Z. cbn [flat_map] in Z. apply app_eq_nil in Z as [_ Z]. now apply app_eq_nil in Z as [Z _]. }
      apply ordered_flat in O.
      assert (Pu : exists n l y, nth_error cs n = Some (Con CPunctuated l) /\ has_ty (Con CPunctuated l) (YPunctuated y) /\ l <> [] /\ tight y = true /\ sound y = true).
      { destruct X as [->|[-> | ->]]; cbn [fields] in Ty; fields_inv Ty; cbn [filled_node count nth_error] in Fk.
        - destruct (ty_punctuated _ _ Hc0) as (l & -> & Hl). exists 0, l, YTok. repeat split; [assumption|]. now destruct l.
        - destruct (ty_punctuated _ _ Hc1) as (l & -> & Hl). exists 1, l, (YNode NTypeInfo). repeat split; [assumption|]. now destruct l.
        - destruct (ty_punctuated _ _ Hc1) as (l & -> & Hl). exists 1, l, (YNode NTypeInfo). repeat split; [assumption|]. now destruct l. }
      destruct Pu as (n & l & z & I & Tl & N & Tz & Sz). apply nth_error_In in I. rewrite Forall_forall in Zs, Hc, Fi, Ft, O.
      destruct l as [|p l]; [congruence|].
      assert (Sy : sound (YPunctuated z) = true) by (cbn; now rewrite Tz, Sz).
      destruct (Hc _ I _ Tl Sy (Fi _ I) (Ft _ I) (O _ I)) as (_ & _ & _ & X4). exact (X4 z p l eq_refl eq_refl (Zs _ I)).
  - discriminate.
Qed.

Lemma claim_tok r : claim (Tok r).
Proof.
  intros y Ty _ _ _ _. apply wt_tok in Ty as ->. split; [|split; [|split]].
  - right. exists r, []. repeat split. exists r. split; [now left|reflexivity].
  - intros _ r' l E. cbn in E. destruct l as [|? [|? ?]]; [|discriminate|discriminate]. injection E as <-. reflexivity.
  - discriminate.
  - discriminate.
Qed.

(** Non-empty sequences of values that all have tokens. *)
Lemma last_map {A B} (f : A -> B) l x : last (map f l) (f x) = f (last l x).
Proof. revert x. induction l as [|a l IH]; intros x; [reflexivity|]. destruct l; [reflexivity|]. exact (IH x). Qed.
Lemma last_cons {A} (l : list A) x a : last (x :: l) a = last l x.
Proof. revert x a. induction l as [|b l IH]; intros x a; [reflexivity|]. change (last (b :: l) a = last (b :: l) x). rewrite !IH. reflexivity. Qed.
Lemma edge_last l : Forall (fun t => printed t <> []) l -> forall x, edge (x :: l) = closed (last l x).
Proof.
  induction 1 as [|a l Ha _ IH]; intros x; [reflexivity|]. cbn [edge forallb]. destruct (printed a) eqn:E; [congruence|]. cbn [andb].
  rewrite last_cons. exact (IH a).
Qed.
Lemma printed_last l : Forall (fun t => printed t <> []) l -> forall x, exists u, flat_map printed (x :: l) = u ++ printed (last l x).
Proof.
  induction 1 as [|a l Ha _ IH]; intros x; [exists []; cbn; now rewrite app_nil_r|]. destruct (IH a) as (u & E). exists (printed x ++ u).
  rewrite last_cons. change (flat_map printed (x :: a :: l)) with (printed x ++ flat_map printed (a :: l)). now rewrite E, app_assoc.
Qed.
Lemma tail_of {A} (u p : list A) r l : p <> [] -> u ++ p = l ++ [r] -> exists l', p = l' ++ [r].
Proof. intros N E. destruct (exists_last N) as (p' & r' & ->). rewrite app_assoc in E. apply app_inj_tail in E as [_ <-]. eauto. Qed.

Lemma starts_sequence c x l : (c = CVec \/ c = CPunctuated) -> Forall (fun t => starts t /\ stops t /\ printed t <> []) (x :: l) ->
  starts (Con c (x :: l)) /\ stops (Con c (x :: l)) /\ printed (Con c (x :: l)) <> [].
Proof.
  intros Hc H. assert (Ps : positions (Con c (x :: l)) = (fst (positions x), snd (positions (last l x)))).
  { destruct Hc as [-> | ->]; cbn [positions map]; now rewrite last_map. }
  assert (Hx : starts x /\ stops x /\ printed x <> []) by now inversion H.
  assert (Hl : starts (last l x) /\ stops (last l x) /\ printed (last l x) <> []).
  { rewrite Forall_forall in H. apply H. clear. revert x. induction l as [|a l IH]; intros x; [now left|]. rewrite last_cons. right. apply IH. }
  assert (Nl : Forall (fun t => printed t <> []) l) by (inversion_clear H as [|? ? _ H2]; eapply Forall_impl; [|exact H2]; now intros t (_ & _ & ?)).
  destruct Hx as (Sx & _ & Nx), Hl as (Sl & El & Nlast). split; [|split].
  - right. destruct Sx as [[E _]|(r & m & E & S & _)]; [congruence|]. exists r, (m ++ flat_map printed l). rewrite printed_con, Ps. cbn [flat_map fst snd]. rewrite E.
    split; [reflexivity|]. split; [assumption|]. destruct Sl as [[E' _]|(r' & m' & _ & _ & e & I & N)]; [congruence|].
    exists e. split; [|assumption]. destruct (printed_last l Nl x) as (u & Eu). cbn [flat_map] in Eu. rewrite E in Eu. cbn [app] in *. rewrite Eu, in_app_iff. now right.
  - intros Cl r m E. rewrite closed_con, edge_last in Cl by assumption. rewrite printed_con in E. destruct (printed_last l Nl x) as (u & Eu). rewrite Eu in E.
    apply tail_of in E as (l' & E'); [|assumption]. rewrite Ps. exact (El Cl r l' E').
  - rewrite printed_con. cbn [flat_map]. intros X. now apply app_eq_nil in X as [X _].
Qed.

Lemma claim_con c cs : Forall claim cs -> claim (Con c cs).
Proof.
  intros Hc y Ty Sy Fi Ft O. apply every_con in Fi. apply every_con in Ft. rewrite printed_con in O.
  destruct y; try (apply wt_con in Ty as (? & E & _); destruct c; discriminate E).
  - apply ty_span in Ty as (p & q & E). injection E as -> ->. split; [|split; [|split]]; try discriminate.
    + right. exists p, [q]. repeat split. exists q. split; [right; now left|reflexivity].
    + intros _ r l E. cbn in E. destruct l as [|? [|? [|? ?]]]; try discriminate E. injection E as <- <-. reflexivity.
  - cbn [sound] in Sy. apply ty_opt in Ty as [E|(x & E & Hx)]; injection E as -> ->.
    + split; [left; now split|]. split; [intros _ r l E; destruct l; discriminate|]. split; discriminate.
    + cbn [flat_map] in O. rewrite app_nil_r in O. inversion_clear Hc as [|? ? H1 _]. inversion_clear Fi as [|? ? F1 _]. inversion_clear Ft as [|? ? T1 _]. destruct (H1 _ Hx Sy F1 T1 O) as (A & B & _).
      assert (P : printed (Con CSome [x]) = printed x) by (rewrite printed_con; cbn [flat_map]; apply app_nil_r).
      split; [unfold starts; rewrite P; exact A|]. split; [|split; discriminate]. intros Cl. rewrite P. rewrite closed_con in Cl. exact (B Cl).
  - cbn [sound] in Sy. apply andb_true_iff in Sy as [Sa Ta]. apply ty_vec in Ty as (l & E & Hl). injection E as -> ->.
    destruct l as [|x l].
    + split; [left; now split|]. split; [intros _ r l E; destruct l; discriminate|]. split; discriminate.
    + apply ordered_flat in O. assert (G : Forall (fun t => starts t /\ stops t /\ printed t <> []) (x :: l)).
      { rewrite !Forall_forall in *. intros t I. destruct (Hc t I _ (Hl t I) Sa (Fi t I) (Ft t I) (O t I)) as (A & B & C & _). auto. }
      destruct (starts_sequence CVec x l (or_introl eq_refl) G) as (A & B & C). repeat split; try assumption; discriminate.
  - cbn [sound] in Sy. apply andb_true_iff in Sy as [Sa Sb]. apply ty_tuple in Ty as (a & b & E & Ha & Hb). injection E as -> ->.
    cbn [flat_map] in O. rewrite app_nil_r in O.
    inversion_clear Hc as [|? ? H1 Hc2]. inversion_clear Hc2 as [|? ? H2 _]. inversion_clear Fi as [|? ? F1 Fi2]. inversion_clear Fi2 as [|? ? F2 _]. inversion_clear Ft as [|? ? T1 Ft2]. inversion_clear Ft2 as [|? ? T2 _].
    assert (Oa : in_source_order (printed a)) by exact (ordered_mid [] (printed a) (printed b) O).
    assert (Ob : in_source_order (printed b)) by (apply (ordered_mid (printed a) (printed b) []); now rewrite app_nil_r).
    destruct (H1 _ Ha Sa F1 T1 Oa) as (A & B & C & _). destruct (H2 _ Hb Sb F2 T2 Ob) as (A' & B' & C' & _).
    assert (P : printed (Con CTuple [a; b]) = printed a ++ printed b) by (rewrite printed_con; cbn [flat_map]; now rewrite app_nil_r).
    assert (Ps : positions (Con CTuple [a; b]) = (merge_by pos_min (fst (positions a)) (fst (positions b)), merge_by pos_max (snd (positions a)) (snd (positions b)))) by reflexivity.
    split; [|split; [|split; [|discriminate]]].
    + unfold starts. rewrite P, Ps. destruct A as [[E E2]|(r & m & E & S & e & I & N)], A' as [[E' E2']|(r' & m' & E' & S' & e' & I' & N')]; rewrite E, E'; cbn [app].
      * left. rewrite E2, E2'. now split.
      * right. exists r', m'. rewrite E2. cbn [fst snd merge_by]. split; [reflexivity|]. split; [assumption|]. exists e'. now rewrite <- E'.
      * right. exists r, m. rewrite app_nil_r. split; [reflexivity|]. rewrite E2', S. cbn [fst snd merge_by]. split; [reflexivity|]. exists e. rewrite <- E, N. now split.
      * right. exists r, (m ++ r' :: m'). split; [reflexivity|]. rewrite S, S'. cbn [fst merge_by]. split.
        -- rewrite E, E' in O. destruct (O [] r m r' m') as [L _]; [reflexivity|]. unfold pos_min. apply N.leb_le in L. now rewrite L.
        -- cbn [snd]. rewrite N, N'. cbn [merge_by]. unfold pos_max. rewrite app_comm_cons, <- E, <- E'. destruct (p_bytes (t_end (r_token e)) <=? p_bytes (t_end (r_token e')))%N; [exists e'|exists e]; (split; [rewrite in_app_iff; auto|reflexivity]).
    + intros Cl r l E. rewrite closed_con in Cl. cbn [edge forallb] in Cl. rewrite P in E. rewrite Ps. cbn [snd].
      destruct A' as [[E' E2']|(r' & m' & E' & S' & e' & I' & N')].
      * rewrite E' in *. cbn [andb] in Cl. rewrite app_nil_r in E. rewrite E2'. rewrite (B Cl r l E). reflexivity.
      * rewrite E' in Cl. cbn [andb] in Cl. assert (Nb : printed b <> []) by (rewrite E'; discriminate). pose proof E as E0. apply tail_of in E as (l' & E); [|assumption].
        rewrite (B' Cl r l' E). destruct A as [[Ea Ea2]|(ra & ma & Ea & Sa' & e & I & N)]; [rewrite Ea2; reflexivity|].
        rewrite N. cbn [merge_by]. f_equal. unfold pos_max. apply in_split in I as (u & v & Es).
        destruct (O u e (v ++ l') r []) as [_ L]; [rewrite Es, E; rewrite <- !app_assoc; reflexivity|].
        apply N.leb_le in L. now rewrite L.
    + cbn [tight]. intros T X. rewrite P in X. apply app_eq_nil in X as [Xa Xb]. apply orb_true_iff in T as [T|T]; [now apply C|now apply C'].
  - cbn [sound] in Sy. apply andb_true_iff in Sy as [Sa Ta]. apply ty_punctuated in Ty as (l & E & Hl). injection E as -> ->.
    destruct l as [|x l].
    + split; [left; now split|]. split; [intros _ r l E; destruct l; discriminate|]. split; discriminate.
    + apply ordered_flat in O. assert (G : Forall (fun t => starts t /\ stops t /\ printed t <> []) (x :: l)).
      { rewrite !Forall_forall in *. intros t I. assert (Sp : sound (YPair y) = true) by (cbn; now rewrite Sa, Ta). destruct (Hc t I _ (Hl t I) Sp (Fi t I) (Ft t I) (O t I)) as (A & B & C & _). auto. }
      destruct (starts_sequence CPunctuated x l (or_intror eq_refl) G) as (A & B & C). split; [exact A|split; [exact B|split; [discriminate|intros; exact C]]].
  - cbn [sound] in Sy. apply andb_true_iff in Sy as [Sa Ta]. apply ty_pair in Ty as (v & Hv & [E|(p & E)]); injection E as -> ->.
    + cbn [flat_map] in O. rewrite app_nil_r in O. inversion_clear Hc as [|? ? H1 _]. inversion_clear Fi as [|? ? F1 _]. inversion_clear Ft as [|? ? T1 _]. destruct (H1 _ Hv Sa F1 T1 O) as (A & B & C & _).
      assert (P : printed (Con CEnd [v]) = printed v) by (rewrite printed_con; cbn [flat_map]; apply app_nil_r).
      split; [unfold starts; rewrite P; exact A|]. split; [|split; [intros _; rewrite P; now apply C|discriminate]]. intros Cl. rewrite P. rewrite closed_con in Cl. exact (B Cl).
    + inversion_clear Hc as [|? ? H1 _]. inversion_clear Fi as [|? ? F1 _]. inversion_clear Ft as [|? ? T1 _]. apply ordered_flat in O. inversion_clear O as [|? ? O1 _].
      destruct (H1 _ Hv Sa F1 T1 O1) as (A & B & C & _).
      assert (P : printed (Con CPunct [v; Tok p]) = printed v ++ [p]) by (rewrite printed_con; cbn [flat_map printed_tok]; now rewrite printed_tok, app_nil_r).
      split; [|split; [|split; [intros _; rewrite P; now destruct (printed v)|discriminate]]].
      * destruct A as [[E _]|(r & m & E & S & _)]; [now apply C in Ta|]. right. exists r, (m ++ [p]). rewrite P, E. split; [reflexivity|]. split; [exact S|].
        exists p. split; [rewrite in_app_iff; right; now left|reflexivity].
      * intros _ r l E. rewrite P in E. apply app_inj_tail in E as [_ <-]. reflexivity.
Qed.

(** ** The nodes that enclose others *)
Lemma full_span k p q cs : full_range k = Some 0 -> whole k = true -> (exists m, printed (Nd k (Con CSpan [Tok p; Tok q] :: cs)) = p :: m ++ [q]) ->
  starts (Nd k (Con CSpan [Tok p; Tok q] :: cs)) /\ stops (Nd k (Con CSpan [Tok p; Tok q] :: cs)) /\ printed (Nd k (Con CSpan [Tok p; Tok q] :: cs)) <> [].
Proof.
  intros Fr Wh (m & P). assert (Ps : positions (Nd k (Con CSpan [Tok p; Tok q] :: cs)) = (Some (t_start (r_token p)), Some (t_end (r_token q)))) by (cbn [positions]; now rewrite Fr).
  split; [|split].
  - right. exists p, (m ++ [q]). rewrite Ps, P. repeat split. exists q. split; [right; rewrite in_app_iff; right; now left|reflexivity].
  - intros _ r l E. rewrite P, app_comm_cons in E. apply app_inj_tail in E as [_ <-]. now rewrite Ps.
  - rewrite P. discriminate.
Qed.

(** The end of a node is the end of one of its tokens. *)
Lemma first_some_in l e : first_some l = Some e -> In (Some e) l.
Proof. induction l as [|[p|] l IH]; cbn; intros H; [discriminate|left; exact H|right; auto]. Qed.
Lemma end_leaf t : forall e, snd (positions t) = Some e -> exists r, In r (leaves t) /\ e = t_end (r_token r).
Proof.
  induction t as [r|c cs IH|k cs IH] using tree_ind'; intros e E.
  - injection E as <-. exists r. split; [now left|reflexivity].
  - assert (G : forall x, In x cs -> snd (positions x) = Some e -> exists r, In r (leaves (Con c cs)) /\ e = t_end (r_token r)).
    { intros x I Ex. rewrite Forall_forall in IH. destruct (IH x I e Ex) as (r & Ir & ->). exists r. split; [|reflexivity]. cbn [leaves]. apply in_flat_map. eauto. }
    cbn [positions] in E. destruct c.
    + discriminate.
    + destruct cs as [|x [|? ?]]; try discriminate E. apply (G x); [now left|exact E].
    + destruct cs as [|x l]; [discriminate|]. cbn [map snd] in E. rewrite last_map in E. apply (G (last l x)); [|exact E].
      clear. revert x. induction l as [|a l IH]; intros x; [now left|]. rewrite last_cons. right. apply IH.
    + destruct cs as [|x [|y [|? ?]]]; try discriminate E. cbn [map snd] in E. destruct (snd (positions x)) as [a|] eqn:Ex, (snd (positions y)) as [b|] eqn:Ey; cbn [merge_by] in E.
      * injection E as E. unfold pos_max in E. destruct (p_bytes a <=? p_bytes b)%N; subst; [apply (G y)|apply (G x)]; cbn; auto.
      * apply (G x); [cbn; auto|congruence].
      * apply (G y); [cbn; auto|congruence].
      * discriminate.
    + destruct cs as [|x l]; [discriminate|]. cbn [map snd] in E. rewrite last_map in E. apply (G (last l x)); [|exact E].
      clear. revert x. induction l as [|a l IH]; intros x; [now left|]. rewrite last_cons. right. apply IH.
    + destruct cs as [|x [|? ?]]; try discriminate E. apply (G x); [now left|exact E].
    + destruct cs as [|x [|y [|? ?]]]; try discriminate E. cbn [map snd] in E. destruct (snd (positions y)) eqn:Ey.
      * apply (G y); [cbn; auto|congruence].
      * apply (G x); [cbn; auto|congruence].
    + destruct cs as [|x [|y [|? ?]]]; try discriminate E. apply (G y); [cbn; auto|exact E].
  - assert (G : forall x, In x cs -> snd (positions x) = Some e -> exists r, In r (leaves (Nd k cs)) /\ e = t_end (r_token r)).
    { intros x I Ex. rewrite Forall_forall in IH. destruct (IH x I e Ex) as (r & Ir & ->). exists r. split; [|reflexivity]. cbn [leaves]. apply in_flat_map. eauto. }
    cbn [positions] in E. destruct (full_range k) as [n|].
    + destruct (nth_in_or_default n (map positions cs) (None, None)) as [I|D].
      * apply in_map_iff in I as (x & Ex & I). rewrite <- Ex in E. destruct (positions x) as [[a|] [b|]] eqn:Px; try discriminate E. apply (G x I). rewrite Px. exact E.
      * rewrite D in E. discriminate.
    + rewrite both_eq in E. destruct (first_some (map fst (map positions cs))) as [a|]; [|discriminate]. destruct (first_some (rev (map snd (map positions cs)))) as [b|] eqn:Eb; [|discriminate].
      apply first_some_in in Eb. apply in_rev in Eb. rewrite map_map in Eb. apply in_map_iff in Eb as (x & Ex & I). apply (G x I). cbn in E. congruence.
Qed.
Lemma end_printed t y e : has_ty t y -> fitting t = true -> snd (positions t) = Some e -> exists r, In r (printed t) /\ e = t_end (r_token r).
Proof.
  intros Ty Ft E. apply end_leaf in E as (r & I & ->). exists r. split; [|reflexivity]. eapply Permutation.Permutation_in; [|exact I]. eapply leaves_printed; eassumption.
Qed.

(** Start: the first child that has tokens also is the first one printed. *)
Lemma starts_first k pre c post y r l l' : full_range k = None -> has_ty (Nd k (pre ++ c :: post)) y -> fitting (Nd k (pre ++ c :: post)) = true ->
  Forall (fun x => positions x = (None, None)) pre -> printed c = r :: l -> starts c -> printed (Nd k (pre ++ c :: post)) = r :: l' ->
  starts (Nd k (pre ++ c :: post)) /\ fst (positions (Nd k (pre ++ c :: post))) <> None /\
  snd (positions (Nd k (pre ++ c :: post))) = first_some (rev (map snd (map positions (pre ++ c :: post)))).
Proof.
  intros Fr Ty Ft Hpre Pc Sc P.
  assert (A : first_some (map fst (map positions (pre ++ c :: post))) = Some (t_start (r_token r))).
  { clear -Hpre Pc Sc. induction Hpre as [|x pre Hx _ IH]; cbn [app map first_some].
    - destruct Sc as [[E _]|(r' & m & E & S & _)]; [congruence|]. rewrite S. congruence.
    - now rewrite Hx. }
  assert (B : first_some (rev (map snd (map positions (pre ++ c :: post)))) <> None).
  { destruct Sc as [[E _]|(r' & m & E & S & e & I & N)]; [congruence|]. rewrite !map_app. cbn [map]. rewrite N, rev_app_distr. cbn [rev]. rewrite <- app_assoc, first_some_app.
    destruct (first_some (rev (map snd (map positions post)))); discriminate. }
  assert (Ps : positions (Nd k (pre ++ c :: post)) = (Some (t_start (r_token r)), first_some (rev (map snd (map positions (pre ++ c :: post)))))).
  { cbn [positions]. rewrite Fr, A, both_eq. destruct (first_some (rev _)); [reflexivity|congruence]. }
  split; [|split].
  - right. exists r, l'. rewrite Ps. repeat split; [assumption|]. destruct (first_some (rev (map snd (map positions (pre ++ c :: post))))) as [e|] eqn:Ee; [|congruence].
    destruct (end_printed _ y e Ty Ft) as (x & I & ->); [now rewrite Ps|]. exists x. now split.
  - rewrite Ps. discriminate.
  - now rewrite Ps.
Qed.
Lemma ends_last pre c post e : snd (positions c) = Some e -> Forall (fun x => snd (positions x) = None) post ->
  first_some (rev (map snd (map positions (pre ++ c :: post)))) = Some e.
Proof.
  intros E H. rewrite !map_app. cbn [map]. rewrite rev_app_distr. cbn [rev]. rewrite first_some_app, first_some_app.
  assert (Z : first_some (rev (map snd (map positions post))) = None).
  { clear -H. induction H as [|x post Hx _ IH]; [reflexivity|]. cbn [map rev]. rewrite first_some_app, IH, Hx. reflexivity. }
  rewrite Z, E. reflexivity.
Qed.

Lemma starts_tok r : starts (Tok r).
Proof. right. exists r, []. repeat split. exists r. split; [now left|reflexivity]. Qed.
Lemma starts_span p q : starts (Con CSpan [Tok p; Tok q]).
Proof. right. exists p, [q]. repeat split. exists q. split; [right; now left|reflexivity]. Qed.

Ltac by_span m0 := let A := fresh in
  lazymatch goal with |- starts ?t /\ _ => assert (A : starts t /\ stops t /\ printed t <> []) end;
  [apply full_span; [reflexivity|reflexivity|exists m0; rewrite printed_nd; cbn [display_order flat_map pick at_ nth_error subs_at subs]; rewrite ?printed_tok, ?app_nil_r; reflexivity]
  |destruct A as (? & ? & ?); repeat split; [assumption|assumption|intros _; assumption|discriminate]].
Ltac toks_inv :=
  repeat match goal with
  | H : has_ty ?c YTok |- _ =>
      let a := fresh "k" in let E := fresh "E" in
      destruct (ty_tok _ H) as (a & E); try subst c; clear H
  end.
Ltac show_printed := rewrite printed_nd; cbn [display_order flat_map pick at_ nth_error subs_at subs]; rewrite ?printed_tok; cbn [app]; reflexivity.
(** The first field is a token or a span. *)
Ltac first_field := let P := fresh "P" in let Pc := fresh "Pc" in let S1 := fresh "S1" in let S2 := fresh "S2" in let S3 := fresh "S3" in
  lazymatch goal with Ty0 : has_ty ?t _, Ft0 : fitting ?t = true |- starts ?t /\ _ =>
    lazymatch t with Nd ?k (?c0 :: ?post) =>
      assert (P : exists r l l', printed c0 = r :: l /\ printed t = r :: l') by (do 3 eexists; split; [reflexivity|show_printed]);
      destruct P as (r0 & l0 & l0' & Pc & P);
      destruct (starts_first k [] c0 post _ r0 l0 l0' eq_refl Ty0 Ft0 (Forall_nil _) Pc ltac:(first [apply starts_tok|apply starts_span]) P) as (S1 & S2 & S3); cbn [app] in S1, S2, S3 end;
    split; [exact S1|split; [|split; [intros _; rewrite P; discriminate|discriminate]]] end.

Lemma edge_app pre c post : printed c <> [] -> flat_map printed post = [] -> edge (pre ++ c :: post) = closed c.
Proof.
  intros N Z. induction pre as [|x pre IH]; cbn [app edge].
  - apply all_empty in Z. now rewrite Z.
  - destruct (forallb _ (pre ++ c :: post)) eqn:E; [|exact IH]. apply all_empty in E. rewrite flat_map_app in E. apply app_eq_nil in E as [_ E]. cbn [flat_map] in E.
    now apply app_eq_nil in E as [E _].
Qed.
Lemma printed_last_op k cs os n c : display_order k = os ++ [F n] -> nth_error cs n = Some c -> printed (Nd k cs) = flat_map (pick printed cs) os ++ printed c.
Proof. intros E N. rewrite printed_nd, E, flat_map_app. cbn [flat_map pick]. unfold at_. now rewrite N, app_nil_r. Qed.
Lemma stops_last k pre c post u : whole k = false -> snd (positions (Nd k (pre ++ c :: post))) = first_some (rev (map snd (map positions (pre ++ c :: post)))) ->
  Forall (fun x => snd (positions x) = None) post -> flat_map printed post = [] ->
  printed (Nd k (pre ++ c :: post)) = u ++ printed c -> printed c <> [] -> starts c -> stops c -> stops (Nd k (pre ++ c :: post)).
Proof.
  intros Wh Ps Hp Zp P N _ St Cl r l E. rewrite closed_nd, Wh, orb_false_l in Cl. apply andb_true_iff in Cl as [_ Cl]. rewrite edge_app in Cl by assumption.
  rewrite P in E. apply tail_of in E as (l' & E); [|assumption]. rewrite Ps. apply ends_last; [|assumption]. exact (St Cl r l' E).
Qed.
Lemma stops_tok r : stops (Tok r).
Proof. intros _ r' l E. cbn in E. destruct l as [|? [|? ?]]; try discriminate E. injection E as <-. reflexivity. Qed.

Lemma ordered_op k cs a n b c : display_order k = a ++ F n :: b -> nth_error cs n = Some c -> in_source_order (printed (Nd k cs)) -> in_source_order (printed c).
Proof.
  intros E N O. rewrite printed_nd, E, flat_map_app in O. cbn [flat_map pick] in O. unfold at_ in O. rewrite N in O. now apply ordered_mid in O.
Qed.
Lemma nth_forall {A} (P : A -> Prop) l n x : Forall P l -> nth_error l n = Some x -> P x.
Proof. intros H E. apply nth_error_In in E. rewrite Forall_forall in H. auto. Qed.

Lemma none_printed x y : has_ty x (YOpt y) -> is_some x = false -> x = Con CNone [].
Proof. intros H E. apply ty_opt in H as [->|(v & -> & _)]; [reflexivity|discriminate]. Qed.
Lemma zip_none pairs y : Forall (fun t => has_ty t (YPair y)) pairs -> forall vecs, Forall (Forall (fun x => printed x = [])) vecs -> zip_pick printed true pairs vecs = flat_map printed pairs.
Proof.
  induction 1 as [|x pairs Hx _ IH]; intros vecs Hv; [reflexivity|]. cbn [zip_pick flat_map]. rewrite IH.
  - rewrite (pair_printed _ _ Hx), <- app_assoc. f_equal. assert (Z : flat_map (at_ printed 0) vecs = []); [|now rewrite Z].
    clear -Hv. induction Hv as [|v vecs H _ IH]; [reflexivity|]. cbn [flat_map]. rewrite IH. destruct H as [|z v Hz _]; [reflexivity|]. unfold at_. cbn [nth_error]. now rewrite Hz.
  - apply Forall_map. eapply Forall_impl; [|exact Hv]. intros v H. destruct H; [constructor|assumption].
Qed.
Lemma names_closed l : Forall (fun t => has_ty t (YPair YTok)) l -> edge l = true.
Proof.
  induction 1 as [|x l Hx _ IH]; [reflexivity|]. cbn [edge]. destruct (forallb _ l); [|exact IH].
  apply ty_pair in Hx as (v & Hv & [->|(p & ->)]); [apply ty_tok in Hv as (r & ->); reflexivity|apply ty_tok in Hv as (r & ->); reflexivity].
Qed.
Lemma nones l : Forall (fun x => has_ty x (YOpt (YNode NTypeSpecifier))) l \/ Forall (fun x => has_ty x (YOpt (YNode NAttribute))) l ->
  existsb is_some l = false -> Forall (fun x => x = Con CNone []) l.
Proof.
  intros H E. induction l as [|x l IH]; constructor; cbn [existsb] in E; apply orb_false_iff in E as [E1 E2].
  - destruct H as [H|H]; inversion H; subst; eapply none_printed; eassumption.
  - apply IH; [|assumption]. destruct H as [H|H]; inversion H; auto.
Qed.

Lemma claim_span k cs : encloses k = true -> Forall claim cs -> claim (Nd k cs).
Proof.
  intros En Hc y Ty0 _ Fi Ft0 O. pose proof Ty0 as Ty. apply wt_nd in Ty as [-> Ty]. apply every_nd in Fi as [Fk Fi].
  pose proof Ft0 as Ft. apply every_nd in Ft as [Fitt Ft].
  assert (Use : forall a n b c z, display_order k = a ++ F n :: b -> nth_error cs n = Some c -> has_ty c z -> sound z = true ->
    starts c /\ stops c /\ (tight z = true -> printed c <> []) /\ (forall a p l, z = YPunctuated a -> c = Con CPunctuated (p :: l) -> printed c <> [])).
  { intros a n b c z Ed Nc Tc Sz. apply (nth_forall _ _ _ _ Hc Nc z Tc Sz (nth_forall _ _ _ _ Fi Nc) (nth_forall _ _ _ _ Ft Nc)). eapply ordered_op; eassumption. }
  destruct k; try discriminate En; cbn [fields] in Ty; fields_inv Ty; spans_inv; toks_inv.
  all: try (match goal with |- starts (Nd _ [_; ?x]) /\ _ => by_span (printed x) end).
  all: try (first_field; intros Cl; discriminate Cl).
  all: try first_field.
  - (* field with an expression key *)
    destruct (Use [L 0; F 1; R 0; F 2] 3 [] c2 (YNode NExpression) eq_refl eq_refl ltac:(assumption) eq_refl) as (A & B & C & _).
    eapply (stops_last _ [_; _; _] c2 []); [reflexivity|exact S3|constructor|reflexivity|apply (printed_last_op _ _ [L 0; F 1; R 0; F 2] 3); reflexivity|now apply C|exact A|exact B].
  - (* numeric for *)
    intros Cl r l E. assert (Nn : is_some c10 = false) by (rewrite closed_nd in Cl; cbn in Cl; apply andb_true_iff in Cl as [Cl _]; now apply negb_true_iff in Cl).
    assert (c10 = Con CNone []) as -> by (eapply none_printed; eassumption). rewrite S3.
    rewrite (fun cs0 => printed_last_op KNumericFor cs0 [F 0; F 1; F 11; F 2; F 3; F 4; F 5; F 6; F 7; F 8; F 9] 10 (Tok k) eq_refl) in E by reflexivity. rewrite printed_tok in E. apply app_inj_tail in E as [_ <-].
    apply (ends_last [_; _; _; _; _; _; _; _; _; _] (Tok k) [_]); [reflexivity|repeat constructor].
  - (* generic for *)
    intros Cl r l E. rewrite closed_nd in Cl. apply andb_true_iff in Cl as [Cl _]. cbn [closes] in Cl. apply negb_true_iff in Cl.
    match goal with H : has_ty c6 _ |- _ => destruct (ty_vec _ _ H) as (ts & -> & Hts) end. unfold vec_at in Cl. cbn [nth_error] in Cl.
    assert (Nn : snd (positions (Con CVec ts)) = None).
    { destruct ts as [|t ts]; [reflexivity|]. cbn [positions map snd]. rewrite last_map. rewrite last_cons in Cl.
      assert (Hl : has_ty (last ts t) (YOpt (YNode NTypeSpecifier))).
      { rewrite Forall_forall in Hts. apply Hts. clear. revert t. induction ts as [|a l IH]; intros x; [now left|]. rewrite last_cons. right. apply IH. }
      rewrite (none_printed _ _ Hl Cl). reflexivity. }
    rewrite S3. rewrite (fun cs0 => printed_last_op KGenericFor cs0 [F 0; Z 1 [7] true; F 2; F 3; F 4; F 5] 6 (Tok k) eq_refl) in E by reflexivity. rewrite printed_tok in E. apply app_inj_tail in E as [_ <-].
    apply (ends_last [_; _; _; _; _; _] (Tok k) [_]); [reflexivity|now constructor].
  - (* function body *)
    destruct (Use [] 0 [L 1; Z 2 [3] true; R 1; F 4; F 5; F 6] c (YOpt (YNode NGenericDeclaration)) eq_refl eq_refl ltac:(assumption) eq_refl) as (A & _).
    assert (G : starts (Nd KFunctionBody [c; Con CSpan [Tok a; Tok b]; c1; c2; c3; c4; Tok k]) /\
      snd (positions (Nd KFunctionBody [c; Con CSpan [Tok a; Tok b]; c1; c2; c3; c4; Tok k])) = first_some (rev (map snd (map positions [c; Con CSpan [Tok a; Tok b]; c1; c2; c3; c4; Tok k])))).
    { destruct A as [[E Pc]|(r & m & E & S & X)].
      - edestruct (starts_first KFunctionBody [c] (Con CSpan [Tok a; Tok b]) [c1; c2; c3; c4; Tok k] (YNode NFunctionBody) a [b]) as (G1 & _ & G2);
          [reflexivity|exact Ty0|exact Ft0|now repeat constructor|reflexivity|apply starts_span| |exact (conj G1 G2)].
        rewrite printed_nd. cbn [display_order flat_map pick app]. unfold at_ at 1. cbn [nth_error]. rewrite E. cbn [app at_ nth_error subs_at subs]. rewrite printed_tok. reflexivity.
      - edestruct (starts_first KFunctionBody [] c [Con CSpan [Tok a; Tok b]; c1; c2; c3; c4; Tok k] (YNode NFunctionBody) r m) as (G1 & _ & G2);
          [reflexivity|exact Ty0|exact Ft0|constructor|exact E|right; eauto 6| |exact (conj G1 G2)].
        cbn [app]. rewrite printed_nd. cbn [display_order flat_map pick]. unfold at_ at 1. cbn [nth_error]. rewrite E. cbn [app]. reflexivity. }
    destruct G as [G S3]. split; [exact G|]. split; [|split; [|discriminate]].
    + eapply (stops_last _ [_; _; _; _; _; _] (Tok k) []); [reflexivity|exact S3|constructor|reflexivity|apply (printed_last_op _ _ [F 0; L 1; Z 2 [3] true; R 1; F 4; F 5] 6); reflexivity|discriminate|apply starts_tok|apply stops_tok].
    + intros _. rewrite (fun cs0 => printed_last_op KFunctionBody cs0 [F 0; L 1; Z 2 [3] true; R 1; F 4; F 5] 6 (Tok k) eq_refl) by reflexivity. rewrite printed_tok. intros X. apply app_eq_nil in X as [_ X]. discriminate.
  - (* local assignment *)
    destruct (Use [F 0; Z 2 [3; 1] true; F 4] 5 [] c4 (YPunctuated (YNode NExpression)) eq_refl eq_refl ltac:(assumption) eq_refl) as (A4 & B4 & _ & D4).
    destruct (Use [F 0; Z 2 [3; 1] true] 4 [F 5] c3 (YOpt YTok) eq_refl eq_refl ltac:(assumption) eq_refl) as (A3 & B3 & _).
    match goal with H : has_ty c4 _ |- _ => destruct (ty_punctuated _ _ H) as (es & -> & Hes) end.
    destruct es as [|e es].
    2: { eapply (stops_last _ [_; _; _; _; _] (Con CPunctuated (e :: es)) []); [reflexivity|exact S3|constructor|reflexivity|apply (printed_last_op _ _ [F 0; Z 2 [3; 1] true; F 4] 5); reflexivity|now apply (D4 _ e es eq_refl)|exact A4|exact B4]. }
    match goal with H : has_ty c3 _ |- _ => destruct (ty_opt _ _ H) as [-> |(eqt & -> & Heq)] end.
    2: { apply ty_tok in Heq as (q & ->).
      eapply (stops_last _ [_; _; _; _] (Con CSome [Tok q]) [Con CPunctuated []]); [reflexivity|exact S3|repeat constructor|reflexivity| |discriminate|exact A3|exact B3].
      cbn [app]. rewrite (fun cs0 => printed_last_op KLocalAssignment cs0 [F 0; Z 2 [3; 1] true; F 4] 5 _ eq_refl) by reflexivity. change (printed (Con CPunctuated [])) with (@nil tokref). rewrite app_nil_r.
      change [F 0; Z 2 [3; 1] true; F 4] with ([F 0; Z 2 [3; 1] true] ++ [F 4]). rewrite flat_map_app. cbn [flat_map pick at_ nth_error]. now rewrite app_nil_r. }
    intros Cl r l E. rewrite closed_nd in Cl. apply andb_true_iff in Cl as [Cl _]. cbn [closes count nth_error List.length Nat.eqb negb is_some orb vec_at] in Cl.
    repeat match goal with H : has_ty _ (YVec _) |- _ => apply ty_vec in H as (? & -> & ?) end. unfold vec_at in Cl. cbn [nth_error] in Cl.
    match goal with H : has_ty c1 _ |- _ => destruct (ty_punctuated _ _ H) as (ps & -> & Hps) end.
    apply andb_true_iff in Cl as [C1 C2]. apply negb_true_iff in C1, C2.
    rename x0 into va. rename x into vb.
    assert (Na : Forall (fun x => x = Con CNone []) va) by (apply nones; [tauto|assumption]).
    assert (Nb : Forall (fun x => x = Con CNone []) vb) by (apply nones; [tauto|assumption]).
    assert (Nones : forall v, Forall (fun x => x = Con CNone []) v -> positions (Con CVec v) = (None, None)).
    { intros v Hv. destruct Hv as [|x v -> Hv]; [reflexivity|].
      change (positions (Con CVec (Con CNone [] :: v))) with (fst (positions (Con CNone [])), snd (last (map positions v) (positions (Con CNone [])))). rewrite last_map.
      assert (Hl : last v (Con CNone []) = Con CNone []). { clear -Hv. induction Hv as [|? v -> Hv IH]; [reflexivity|]. now rewrite last_cons. } rewrite Hl. reflexivity. }
    rewrite printed_nd in E. cbn [display_order flat_map pick] in E. unfold at_ in E. cbn [nth_error subs_at subs map] in E. unfold subs_at in E. cbn [nth_error subs] in E.
    rewrite printed_tok, !printed_con in E. cbn [flat_map] in E. rewrite !app_nil_r in E.
    rewrite (zip_none ps YTok Hps) in E.
    2: { constructor; [|constructor; [|constructor]]; eapply Forall_impl; try eassumption; now intros ? ->. }
    rewrite S3.
    match goal with |- first_some (rev (map snd (map positions [?t0; ?t1; ?t2; ?t3; ?t4; ?t5]))) = _ =>
      assert (Rest : forall e, snd (positions t2) = Some e -> first_some (rev (map snd (map positions [t0; t1; t2; t3; t4; t5]))) = Some e) end.
    { intros e0 Ee. apply (ends_last [_; _] (Con CPunctuated ps) [_; _; _]); [exact Ee|]. constructor; [now rewrite Nones by assumption|repeat constructor]. }
    destruct ps as [|p0 ps].
    + cbn [flat_map app] in E. destruct l as [|? [|? ?]]; try discriminate E. injection E as <-.
      apply (ends_last [] (Tok k) [_; _; _; _; _]); [reflexivity|]. repeat constructor; now rewrite Nones by assumption.
    + apply Rest. assert (G : Forall (fun t => starts t /\ stops t /\ printed t <> []) (p0 :: ps)).
      { eapply Forall_impl; [|exact Hps]. intros t Ht. apply ty_pair in Ht as (v & Hv & [->|(p & ->)]); apply ty_tok in Hv as (r1 & ->).
        - split; [|split; [|discriminate]].
          + right. exists r1, []. repeat split. exists r1. split; [now left|reflexivity].
          + intros _ r' l' E'. cbn in E'. destruct l' as [|? [|? ?]]; try discriminate E'. injection E' as <-. reflexivity.
        - split; [|split; [|discriminate]].
          + right. exists r1, [p]. repeat split. exists p. split; [right; now left|reflexivity].
          + intros _ r' l' E'. cbn in E'. destruct l' as [|? [|? [|? ?]]]; try discriminate E'. injection E' as <- <-. reflexivity. }
      destruct (starts_sequence CPunctuated p0 ps (or_intror eq_refl) G) as (_ & B & C).
      change (k :: flat_map printed (p0 :: ps) = l ++ [r]) in E. destruct l as [|x l]; [destruct (printed (Con CPunctuated (p0 :: ps))) eqn:Z; [congruence|rewrite printed_con in Z; rewrite Z in E; discriminate]|].
      injection E as _ E. apply (B ltac:(rewrite closed_con; now apply names_closed) r l). now rewrite printed_con.
  - (* callback type *)
    destruct (Use [] 0 [L 1; F 2; R 1; F 3; F 4] c (YOpt (YNode NGenericDeclaration)) eq_refl eq_refl ltac:(assumption) eq_refl) as (A & _).
    assert (G : starts (Nd KTypeCallback [c; Con CSpan [Tok a; Tok b]; c1; Tok k; c3]) /\
      snd (positions (Nd KTypeCallback [c; Con CSpan [Tok a; Tok b]; c1; Tok k; c3])) = first_some (rev (map snd (map positions [c; Con CSpan [Tok a; Tok b]; c1; Tok k; c3])))).
    { destruct A as [[E Pc]|(r & m & E & S & X)].
      - edestruct (starts_first KTypeCallback [c] (Con CSpan [Tok a; Tok b]) [c1; Tok k; c3] (YNode NTypeInfo) a [b]) as (G1 & _ & G2);
          [reflexivity|exact Ty0|exact Ft0|now repeat constructor|reflexivity|apply starts_span| |exact (conj G1 G2)].
        rewrite printed_nd. cbn [display_order flat_map pick app]. unfold at_ at 1. cbn [nth_error]. rewrite E. cbn [app at_ nth_error subs_at subs]. rewrite printed_tok. reflexivity.
      - edestruct (starts_first KTypeCallback [] c [Con CSpan [Tok a; Tok b]; c1; Tok k; c3] (YNode NTypeInfo) r m) as (G1 & _ & G2);
          [reflexivity|exact Ty0|exact Ft0|constructor|exact E|right; eauto 6| |exact (conj G1 G2)].
        cbn [app]. rewrite printed_nd. cbn [display_order flat_map pick]. unfold at_ at 1. cbn [nth_error]. rewrite E. cbn [app]. reflexivity. }
    destruct G as [G S3]. destruct (Use [F 0; L 1; F 2; R 1; F 3] 4 [] c3 (YNode NTypeInfo) eq_refl eq_refl ltac:(assumption) eq_refl) as (A3 & B3 & C3 & _).
    split; [exact G|]. split; [|split; [|discriminate]].
    + eapply (stops_last _ [_; _; _; _] c3 []); [reflexivity|exact S3|constructor|reflexivity|apply (printed_last_op _ _ [F 0; L 1; F 2; R 1; F 3] 4); reflexivity|now apply C3|exact A3|exact B3].
    + intros _. rewrite (fun cs0 => printed_last_op KTypeCallback cs0 [F 0; L 1; F 2; R 1; F 3] 4 c3 eq_refl) by reflexivity. intros X. apply app_eq_nil in X as [_ X]. now apply C3.
  - (* type instantiation *)
    assert (A : starts (Nd KTypeInstantiation [Con CSpan [Tok a0; Tok b0]; Con CSpan [Tok a; Tok b]; c1]) /\ stops (Nd KTypeInstantiation [Con CSpan [Tok a0; Tok b0]; Con CSpan [Tok a; Tok b]; c1]) /\
      printed (Nd KTypeInstantiation [Con CSpan [Tok a0; Tok b0]; Con CSpan [Tok a; Tok b]; c1]) <> []).
    { apply full_span; [reflexivity|reflexivity|]. exists (a :: printed c1 ++ [b]). rewrite printed_nd. cbn [display_order flat_map pick at_ nth_error subs_at subs]. rewrite !printed_tok.
      cbn [app]. rewrite <- app_assoc. reflexivity. }
    destruct A as (? & ? & ?). repeat split; [assumption|assumption|intros _; assumption|discriminate].
Qed.

Theorem claim_all t : claim t.
Proof.
  induction t as [r|c cs IH|k cs IH] using tree_ind'; [apply claim_tok|now apply claim_con|]. destruct (encloses k) eqn:E; [now apply claim_span|now apply claim_plain].
Qed.

Theorem node_start k cs r l : well_typed (Nd k cs) -> every filled_node (Nd k cs) = true -> fitting (Nd k cs) = true -> in_source_order (printed (Nd k cs)) ->
  printed (Nd k cs) = r :: l -> start_position (Nd k cs) = Some (t_start (r_token r)).
Proof.
  intros [y H] Fi Ft O E. assert (Sy : sound y = true) by (apply wt_nd in H as [-> _]; reflexivity).
  destruct (claim_all _ y H Sy Fi Ft O) as ([[E' _]|(r' & l' & E' & S & _)] & _); [congruence|]. unfold start_position. rewrite S. congruence.
Qed.
Theorem node_end k cs r l : well_typed (Nd k cs) -> every filled_node (Nd k cs) = true -> fitting (Nd k cs) = true -> in_source_order (printed (Nd k cs)) ->
  closed (Nd k cs) = true -> printed (Nd k cs) = l ++ [r] -> end_position (Nd k cs) = Some (t_end (r_token r)).
Proof.
  intros [y H] Fi Ft O Cl E. assert (Sy : sound y = true) by (apply wt_nd in H as [-> _]; reflexivity).
  destruct (claim_all _ y H Sy Fi Ft O) as (_ & St & _). exact (St Cl r l E).
Qed.
Theorem node_empty k cs : well_typed (Nd k cs) -> every filled_node (Nd k cs) = true -> fitting (Nd k cs) = true ->
  printed (Nd k cs) = [] -> positions (Nd k cs) = (None, None).
Proof.
  intros [y H] Fi Ft E. assert (Sy : sound y = true) by (apply wt_nd in H as [-> _]; reflexivity).
  assert (O : in_source_order (printed (Nd k cs))) by (rewrite E; intros [|? ?] ? ? ? ? X; discriminate).
  destruct (claim_all _ y H Sy Fi Ft O) as ([[_ P]|(r' & l' & E' & _)] & _); [assumption|congruence].
Qed.

Lemma ordered_nil : in_source_order [].
Proof. intros [|? ?] ? ? ? ? X; discriminate. Qed.
Lemma ordered_cons a l : Forall (fun b => (p_bytes (t_start (r_token a)) <= p_bytes (t_start (r_token b)))%N /\ (p_bytes (t_end (r_token a)) <= p_bytes (t_end (r_token b)))%N) l ->
  in_source_order l -> in_source_order (a :: l).
Proof.
  intros H O [|x u] c v b w E; injection E as <- E.
  - rewrite Forall_forall in H. apply H. rewrite E, in_app_iff. right. now left.
  - exact (O u c v b w E).
Qed.
