(** Proofs about the immutable visitor. *)
From Verif Require Export UpdateProofs.
From Verif Require Import LexerSpec.
From Coq Require Import Lia.
Notation op := Node.op.
Local Open Scope nat_scope.

Lemma visit_con c cs : visit (Con c cs) = match c with
  | CSpan => VNode NContainedSpan (Con c cs) :: flat_map visit cs ++ [VNodeEnd NContainedSpan (Con c cs)]
  | _ => flat_map visit cs end.
Proof. unfold visit at 1 3 4. destruct c; cbn [annotate ann visit_node visits_self]; rewrite !flat_map_concat_map, map_map; reflexivity. Qed.
Lemma visit_nd k cs : visit (Nd k cs) =
  if visits_self (kind_type k) then VNode (kind_type k) (Nd k cs) :: flat_map (pick visit cs) (visit_order k) ++ [VNodeEnd (kind_type k) (Nd k cs)]
  else flat_map (pick visit cs) (visit_order k).
Proof. unfold visit at 1. cbn [annotate ann visit_node]. rewrite select_all_pick. reflexivity. Qed.

Lemma pick_flat_map {A B} (proj : A -> list B) (g : tree -> list A) cs o :
  flat_map proj (pick g cs o) = pick (fun t => flat_map proj (g t)) cs o.
Proof.
  assert (At : forall n l, flat_map proj (at_ g n l) = at_ (fun t => flat_map proj (g t)) n l) by (intros n l; unfold at_; destruct (nth_error l n); reflexivity).
  destruct o as [n|n|n|n ms p]; cbn [pick]; try apply At.
  generalize (map (fun m => subs_at m cs) ms) as vecs. induction (subs_at n cs) as [|x pairs IH]; intros vecs; [reflexivity|].
  cbn [zip_pick]. rewrite !flat_map_app, At, IH. f_equal. f_equal; [|f_equal; destruct p; [apply At|reflexivity]].
  induction vecs as [|w vecs IHv]; [reflexivity|]. cbn [flat_map]. rewrite flat_map_app, At, IHv. reflexivity.
Qed.
Lemma flat_map_pick_all {A B} (proj : A -> list B) (g : tree -> list A) cs os :
  flat_map proj (flat_map (pick g cs) os) = flat_map (pick (fun t => flat_map proj (g t)) cs) os.
Proof. rewrite flat_map_flat_map. apply flat_map_ext. intros o. apply pick_flat_map. Qed.

(** [pick] only looks at descendants. *)
Lemma pick_ext {A} (g h : tree -> list A) cs o :
  (forall n c, nth_error cs n = Some c -> g c = h c /\ (forall i d, nth_error (subs c) i = Some d -> g d = h d /\
     forall j e, nth_error (subs d) j = Some e -> g e = h e)) ->
  pick g cs o = pick h cs o.
Proof.
  intros H.
  assert (At : forall n l, (forall i d, nth_error l i = Some d -> g d = h d) -> at_ g n l = at_ h n l).
  { intros n l Hl. unfold at_. destruct (nth_error l n) eqn:E; [eauto|reflexivity]. }
  assert (HS : forall n i d, nth_error (subs_at n cs) i = Some d -> g d = h d /\ forall j e, nth_error (subs d) j = Some e -> g e = h e).
  { intros n i d. unfold subs_at. destruct (nth_error cs n) eqn:E; [|destruct i; discriminate]. intros E2. exact (proj2 (H n t E) i d E2). }
  destruct o as [n|n|n|n ms p]; cbn [pick].
  - apply At. intros i d E. apply (H i d E).
  - apply At. intros i d E. now apply (HS n i d).
  - apply At. intros i d E. now apply (HS n i d).
  - assert (HV : Forall (fun w => forall i d, nth_error w i = Some d -> g d = h d) (map (fun m0 => subs_at m0 cs) ms)).
    { apply Forall_map, Forall_forall. intros i _ j d E. now apply (HS i j d). }
    specialize (HS n). revert HS HV. generalize (map (fun m0 => subs_at m0 cs) ms) as vecs. induction (subs_at n cs) as [|x pairs IH]; intros vecs HP HV; [reflexivity|].
    cbn [zip_pick]. destruct (HP 0%nat x eq_refl) as [_ Hx].
    rewrite !At by assumption. f_equal. f_equal; [|f_equal].
    + clear -HV At. induction HV as [|w vecs Hw _ IH]; [reflexivity|]. cbn [flat_map]. rewrite At, IH by assumption. reflexivity.
    + apply IH.
      * intros i d E. apply (HP (S i) d E).
      * apply Forall_map. eapply Forall_impl; [|exact HV]. intros [|z w] Hw i d E; [destruct i; discriminate|]. apply (Hw (S i) d E).
Qed.

Lemma zip_no_comma {A} (g : tree -> list A) y pairs : Forall (fun t => has_ty t (YPair y)) pairs ->
  existsb (fun t => match t with Con CPunct _ => true | _ => false end) pairs = false ->
  forall vecs, zip_pick g false pairs vecs = zip_pick g true pairs vecs.
Proof.
  induction 1 as [|x pairs Hx _ IH]; intros E vecs; [reflexivity|]. cbn [existsb] in E. apply orb_false_iff in E as [E1 E2]. cbn [zip_pick].
  rewrite IH by assumption. f_equal. f_equal. apply ty_pair in Hx as (v & _ & [->|(p & ->)]); [reflexivity|discriminate].
Qed.

Lemma orders k cs : Forall2 has_ty cs (fields k) -> fully_visited k cs = true ->
  forall (A : Type) (g : tree -> list A), flat_map (pick g cs) (visit_order k) = flat_map (pick g cs) (display_order k).
Proof.
  intros Ty Fv A g. destruct k; try discriminate Fv; try reflexivity; cbn [fields] in Ty; fields_inv Ty; cbn [fully_visited] in Fv; apply negb_true_iff in Fv.
  - apply ty_punctuated in Hc0 as (l & -> & Hl). cbn [visit_order display_order flat_map]. cbn [has_comma nth_error] in Fv. f_equal. f_equal.
    cbn [pick]. unfold subs_at at 1 3. cbn [nth_error subs]. eapply zip_no_comma; eassumption.
  - apply ty_punctuated in Hc1 as (l & -> & Hl). cbn [visit_order display_order flat_map]. cbn [has_comma nth_error] in Fv. f_equal. f_equal. f_equal.
    cbn [pick]. unfold subs_at at 1 3. cbn [nth_error subs]. eapply zip_no_comma; eassumption.
  - apply ty_punctuated in Hc1 as (l & -> & Hl). cbn [visit_order display_order flat_map]. cbn [has_comma nth_error] in Fv. f_equal. f_equal.
    cbn [pick]. unfold subs_at at 1 4. cbn [nth_error subs]. eapply zip_no_comma; eassumption.
Qed.

Theorem events_printed {B} (proj : event -> list B) (Hn : forall n t, proj (VNode n t) = []) (He : forall n t, proj (VNodeEnd n t) = []) t :
  forall y, has_ty t y -> every fully_visited t = true ->
  flat_map proj (visit t) = flat_map (fun r => flat_map proj (ref_events r)) (printed t).
Proof.
  remember (tree_size t) as n eqn:Hs. assert (Hle : tree_size t <= n) by lia. clear Hs. revert t Hle.
  induction n as [|n IH]; intros t Hle y H Fv; [destruct t; cbn in Hle; lia|].
  assert (Sub : forall d, In d (subs t) -> every fully_visited d = true /\ exists z, has_ty d z).
  { intros d I. split; [|eapply sub_ty; eassumption]. destruct t as [r|c cs|k cs]; [easy|apply every_con in Fv|apply every_nd in Fv as [_ Fv]]; rewrite Forall_forall in Fv; auto. }
  destruct t as [r|c cs|k cs]; [cbn; now rewrite app_nil_r| |].
  - assert (E : flat_map proj (visit (Con c cs)) = flat_map proj (flat_map visit cs)).
    { rewrite visit_con. destruct c; try reflexivity. cbn [flat_map]. rewrite flat_map_app. cbn [flat_map]. rewrite Hn, He, !app_nil_r. reflexivity. }
    rewrite E, printed_con, !flat_map_flat_map. apply flat_map_ext_forall, Forall_forall. intros x I. destruct (Sub x I) as [Fx [z Hz]].
    apply (IH x) with (y := z); [|assumption|assumption]. assert (tree_size x < tree_size (Con c cs)) by now apply sub_size. lia.
  - assert (E : flat_map proj (visit (Nd k cs)) = flat_map proj (flat_map (pick visit cs) (visit_order k))).
    { rewrite visit_nd. destruct (visits_self (kind_type k)); [|reflexivity]. cbn [flat_map]. rewrite flat_map_app. cbn [flat_map]. rewrite Hn, He, !app_nil_r. reflexivity. }
    assert (Ty := H). apply wt_nd in Ty as [_ Ty]. assert (Fk := Fv). apply every_nd in Fk as [Fk _].
    rewrite E, (orders k cs Ty Fk), printed_nd, !flat_map_pick_all. apply flat_map_ext. intros o. apply pick_ext.
    assert (D : forall x z, tree_size x <= n -> has_ty x z -> every fully_visited x = true -> flat_map proj (visit x) = flat_map (fun r => flat_map proj (ref_events r)) (printed x))
      by (intros x z Hx Hz Fx; exact (IH x Hx z Hz Fx)).
    assert (Ev : forall x z, every fully_visited x = true -> In z (subs x) -> every fully_visited z = true).
    { intros x z Ex I. destruct x as [r|c ds|k' ds]; [easy|apply every_con in Ex|apply every_nd in Ex as [_ Ex]]; rewrite Forall_forall in Ex; auto. }
    intros i c Ec. apply nth_error_In in Ec. destruct (Sub c Ec) as [Fc [z Hz]]. assert (Lc : tree_size c < tree_size (Nd k cs)) by now apply sub_size.
    split; [apply (D c z); [lia|assumption|assumption]|]. intros j d Ed. apply nth_error_In in Ed. pose proof (sub_size _ _ Ed) as Ld. destruct (sub_ty _ _ _ Hz Ed) as [z2 Hz2].
    pose proof (Ev _ _ Fc Ed) as Fd. split; [apply (D d z2); [lia|assumption|assumption]|].
    intros l e Ee. apply nth_error_In in Ee. pose proof (sub_size _ _ Ee) as Le. destruct (sub_ty _ _ _ Hz2 Ee) as [z3 Hz3]. apply (D e z3); [lia|assumption|eauto].
Qed.

Lemma kinds_of_token t : seen_by_kind (token_events t) = filter has_callback [t].
Proof. unfold token_events, has_callback. cbn. destruct (t_type t); reflexivity. Qed.
Lemma kinds_of_tokens ts : seen_by_kind (flat_map token_events ts) = filter has_callback ts.
Proof. induction ts as [|t ts IH]; [reflexivity|]. cbn [flat_map]. unfold seen_by_kind in *. rewrite flat_map_app, IH. fold (seen_by_kind (token_events t)).
  rewrite kinds_of_token. cbn [filter]. destruct (has_callback t); reflexivity. Qed.
Lemma kinds_of_ref r : seen_by_kind (ref_events r) = filter has_callback (ref_tokens r).
Proof.
  unfold ref_events, ref_tokens. unfold seen_by_kind at 1. cbn [flat_map app]. rewrite !flat_map_app.
  fold (seen_by_kind (flat_map token_events (r_leading r))) (seen_by_kind (token_events (r_token r))) (seen_by_kind (flat_map token_events (r_trailing r))).
  rewrite !kinds_of_tokens, kinds_of_token.
  assert (E : flat_map (fun e => match e with VKind _ t => [t] | _ => [] end) match kind_of (t_type (r_token r)) with KdEof => [VEof r] | _ => [] end = [])
    by (destruct (kind_of (t_type (r_token r))); reflexivity).
  rewrite E, filter_app. cbn [app filter]. destruct (has_callback (r_token r)); reflexivity.
Qed.
Lemma visited_tokens ts : seen_by_visit_token (flat_map token_events ts) = ts.
Proof.
  induction ts as [|t ts IH]; [reflexivity|]. cbn [flat_map]. unfold seen_by_visit_token in *. rewrite flat_map_app, IH.
  unfold token_events. cbn [flat_map app]. destruct (kind_of (t_type t)); reflexivity.
Qed.
Lemma visited_ref r : seen_by_visit_token (ref_events r) = r_token r :: ref_tokens r.
Proof.
  unfold ref_events, ref_tokens. unfold seen_by_visit_token at 1. cbn [flat_map app]. rewrite !flat_map_app. f_equal.
  fold (seen_by_visit_token (flat_map token_events (r_leading r))) (seen_by_visit_token (flat_map token_events (r_trailing r))).
  rewrite !visited_tokens. unfold token_events. destruct (kind_of (t_type (r_token r))); reflexivity.
Qed.

Theorem visit_kinds t : well_typed t -> every fully_visited t = true -> seen_by_kind (visit t) = filter has_callback (flat_map ref_tokens (printed t)).
Proof.
  intros [y H] Fv. unfold seen_by_kind. rewrite (events_printed _ (fun _ _ => eq_refl) (fun _ _ => eq_refl) t y H Fv).
  induction (printed t) as [|r l IH]; [reflexivity|]. cbn [flat_map]. rewrite filter_app, <- IH. f_equal. apply kinds_of_ref.
Qed.
Theorem visit_tokens t : well_typed t -> every fully_visited t = true ->
  seen_by_visit_token (visit t) = flat_map (fun r => r_token r :: ref_tokens r) (printed t).
Proof.
  intros [y H] Fv. unfold seen_by_visit_token. rewrite (events_printed _ (fun _ _ => eq_refl) (fun _ _ => eq_refl) t y H Fv).
  apply flat_map_ext. intros r. apply visited_ref.
Qed.
Theorem visit_ast_kinds a : well_typed (a_nodes a) -> every fully_visited (a_nodes a) = true ->
  seen_by_kind (visit_ast a) = filter has_callback (flat_map ref_tokens (printed (a_nodes a) ++ [a_eof a])).
Proof.
  intros H Fv. unfold visit_ast, seen_by_kind. rewrite flat_map_app. fold (seen_by_kind (visit (a_nodes a))) (seen_by_kind (ref_events (a_eof a))).
  rewrite visit_kinds, kinds_of_ref, flat_map_app, filter_app by assumption. cbn [flat_map]. now rewrite app_nil_r.
Qed.

