(** Theorems about the mutable visitor and [update_positions]. *)
From Verif Require Export VisitProofs.
From Verif Require Import LexerSpec LexerFacts LexerProofs.
From Coq Require Import Lia ZifyBool ZifyN ZifyNat.
Arguments advance p c : simpl never.
Notation op := Node.op.

(** ** Visitors that only override [visit_token_reference] *)
Lemma map_state_id {S A} (f : S -> A -> S * A) (l : list A) s : (forall s x, f s x = (s, x)) -> map_state f s l = (s, l).
Proof. intros H. revert s. induction l as [|x l IH]; intros s; cbn; [reflexivity|]. now rewrite H, IH. Qed.
Lemma refs_only_token {S} (v : visitor_mut S) s t : refs_only v -> visit_mut_token v s t = (s, t).
Proof. intros (_ & H & K). unfold visit_mut_token. rewrite H. destruct (kind_of (t_type t)); rewrite ?K; reflexivity. Qed.
Lemma refs_only_ref {S} (v : visitor_mut S) s r : refs_only v -> visit_mut_ref v s r = vm_token_reference v s r.
Proof.
  intros H. unfold visit_mut_ref. destruct (vm_token_reference v s r) as [s1 r1].
  assert (E : match kind_of (t_type (r_token r1)) with KdEof => vm_eof v s1 r1 | _ => (s1, r1) end = (s1, r1))
    by (destruct (kind_of (t_type (r_token r1))); try reflexivity; apply H).
  assert (T : forall s t, visit_mut_token v s t = (s, t)) by (intros; now apply refs_only_token).
  rewrite E, (map_state_id _ (r_leading r1)), T, (map_state_id _ (r_trailing r1)) by exact T. destruct r1; reflexivity.
Qed.

(** ** Printing follows the mutable visitor *)
Lemma recorder_list l : forall s, map_state (visit_mut_ref recorder) s l = (s ++ l, l).
Proof.
  induction l as [|r l IH]; intros s; cbn [map_state]; [now rewrite app_nil_r|].
  rewrite refs_only_ref by (repeat split). cbn [recorder vm_token_reference]. rewrite IH, <- app_assoc. reflexivity.
Qed.
Theorem recorded t : well_typed t -> fst (visit_mut recorder [] t) = printed t.
Proof.
  intros [y H]. destruct (visit_good recorder t y H []) as (s & t' & E & P & _). rewrite E. cbn.
  rewrite recorder_list in P. now injection P.
Qed.
Theorem display_visits t : well_typed t -> display t = flat_map show_ref (fst (visit_mut recorder [] t)).
Proof. intros H. now rewrite recorded. Qed.

(** ** Rewriting tokens *)
Theorem visit_rewrites {S} (v : visitor_mut S) s t s' t' : well_typed t -> visit_mut v s t = (s', t') ->
  map_state (visit_mut_ref v) s (printed t) = (s', printed t').
Proof. intros [y H] E. destruct (visit_good v t y H s) as (s2 & t2 & E2 & P & _). congruence. Qed.
Theorem visit_retokens {S} (v : visitor_mut S) s t s' t' : well_typed t -> aligned t = true -> visit_mut v s t = (s', t') ->
  retokened (fun r r' => exists s s', visit_mut_ref v s r = (s', r')) t t'.
Proof. intros [y H] Al E. destruct (visit_good v t y H s) as (s2 & t2 & E2 & _ & R). rewrite E in E2. injection E2 as <- <-. auto. Qed.

Lemma retokened_eq t : forall t', retokened eq t t' -> t = t'.
Proof.
  induction t as [r|c cs IH|k cs IH] using tree_ind'; intros t' H; inversion H as [|? ? ? F|? ? ? F]; subst; [reflexivity| |];
    f_equal; clear H; (induction F as [|x y l l' Hx F IHF]; [reflexivity|]; inversion IH; subst; f_equal; auto).
Qed.
Lemma retokened_impl (P Q : tokref -> tokref -> Prop) (HPQ : forall r r', P r r' -> Q r r') t : forall t', retokened P t t' -> retokened Q t t'.
Proof.
  induction t as [r|c cs IH|k cs IH] using tree_ind'; intros t' H; inversion H as [|? ? ? F|? ? ? F]; subst; [now constructor; auto| |];
    constructor; clear H; (induction F as [|x y l l' Hx F IHF]; [constructor|]; inversion IH; subst; constructor; auto).
Qed.
Theorem default_identity t : well_typed t -> aligned t = true -> visit_mut default_visitor tt t = (tt, t).
Proof.
  intros H Al. destruct (visit_mut default_visitor tt t) as [[] t'] eqn:E. f_equal. symmetry. apply retokened_eq.
  eapply retokened_impl; [|exact (visit_retokens _ _ _ _ _ H Al E)]. intros r r' (s & s' & F).
  rewrite refs_only_ref in F by (repeat split). cbn in F. congruence.
Qed.
Theorem default_identity_ast a : well_typed (a_nodes a) -> aligned (a_nodes a) = true -> visit_mut_ast default_visitor tt a = (tt, a).
Proof. intros H Al. unfold visit_mut_ast. rewrite default_identity by assumption. destruct a; reflexivity. Qed.

(** ** Trees with equal shapes and equal printed tokens *)
Lemma printed_map_pick (f : tokref -> tokref) (g h : tree -> list tokref) (m : tree -> tree)
  (Hs : forall t, subs (m t) = map m (subs t)) cs o :
  (forall n c, nth_error cs n = Some c -> g (m c) = h c /\ (forall i d, nth_error (subs c) i = Some d -> g (m d) = h d /\
     forall j e, nth_error (subs d) j = Some e -> g (m e) = h e)) ->
  pick g (map m cs) o = pick h cs o.
Proof.
  intros H.
  assert (At : forall n l, (forall i d, nth_error l i = Some d -> g (m d) = h d) -> at_ g n (map m l) = at_ h n l).
  { intros n l Hl. unfold at_. rewrite nth_error_map. destruct (nth_error l n) eqn:E; cbn; [eauto|reflexivity]. }
  assert (Su : forall n, subs_at n (map m cs) = map m (subs_at n cs)).
  { intros n. unfold subs_at. rewrite nth_error_map. destruct (nth_error cs n); cbn; [apply Hs|reflexivity]. }
  assert (HS : forall n i d, nth_error (subs_at n cs) i = Some d -> g (m d) = h d /\ forall j e, nth_error (subs d) j = Some e -> g (m e) = h e).
  { intros n i d. unfold subs_at. destruct (nth_error cs n) eqn:E; [|destruct i; discriminate]. intros E2. exact (proj2 (H n t E) i d E2). }
  destruct o as [n|n|n|n ms p]; cbn [pick].
  - apply At. intros i d E. apply (H i d E).
  - rewrite Su. apply At. intros i d E. now apply (HS n i d).
  - rewrite Su. apply At. intros i d E. now apply (HS n i d).
  - rewrite Su. replace (map (fun m0 => subs_at m0 (map m cs)) ms) with (map (map m) (map (fun m0 => subs_at m0 cs) ms))
      by (rewrite map_map; apply map_ext; intros i; now rewrite Su).
    assert (HV : Forall (fun w => forall i d, nth_error w i = Some d -> g (m d) = h d) (map (fun m0 => subs_at m0 cs) ms)).
    { apply Forall_map, Forall_forall. intros i _ j d E. now apply (HS i j d). }
    specialize (HS n). revert HS HV. generalize (map (fun m0 => subs_at m0 cs) ms) as vecs. induction (subs_at n cs) as [|x pairs IH]; intros vecs HP HV; [reflexivity|].
    cbn [map zip_pick]. rewrite Hs. destruct (HP 0%nat x eq_refl) as [_ Hx].
    rewrite !At by assumption. f_equal. f_equal; [|f_equal].
    + clear -HV At. induction HV as [|w vecs Hw _ IH]; [reflexivity|]. cbn. rewrite At, IH by assumption. reflexivity.
    + rewrite <- (IH (map (@tl _) vecs)).
      * f_equal. rewrite !map_map. apply map_ext. intros []; reflexivity.
      * intros i d E. apply (HP (S i) d E).
      * apply Forall_map. eapply Forall_impl; [|exact HV]. intros [|z w] Hw i d E; [destruct i; discriminate|]. apply (Hw (S i) d E).
Qed.

Lemma subs_map_tokens f t : subs (map_tokens f t) = map (map_tokens f) (subs t).
Proof. destruct t; reflexivity. Qed.
Lemma nth_error_in_subs {A} (l : list A) n x : nth_error l n = Some x -> In x l.
Proof. apply nth_error_In. Qed.
Theorem printed_map_tokens f t : printed (map_tokens f t) = map f (printed t).
Proof.
  remember (tree_size t) as n eqn:Hn. assert (Hle : (tree_size t <= n)%nat) by lia. clear Hn. revert t Hle.
  induction n as [|n IH]; intros t Hle; [destruct t; cbn in Hle; lia|]. destruct t as [r|c cs|k cs]; [reflexivity| |].
  - cbn [map_tokens]. rewrite !printed_con, !flat_map_concat_map, concat_map, !map_map. f_equal. apply map_ext_in. intros x Hx.
    apply IH. assert (tree_size x < tree_size (Con c cs))%nat by (now apply sub_size). lia.
  - cbn [map_tokens]. rewrite !printed_nd, !flat_map_concat_map, concat_map, map_map. f_equal. apply map_ext. intros o.
    transitivity (pick (fun t => map f (printed t)) cs o).
    + apply (printed_map_pick f printed (fun t => map f (printed t)) (map_tokens f) (subs_map_tokens f)).
      intros i c Ec. apply nth_error_In in Ec. assert (Lc : (tree_size c < tree_size (Nd k cs))%nat) by now apply sub_size.
      split; [apply IH; lia|]. intros j d Ed. apply nth_error_In, sub_size in Ed. split; [apply IH; lia|].
      intros l e Ee. apply nth_error_In, sub_size in Ee. apply IH; lia.
    + destruct o as [m|m|m|m ms p]; cbn [pick].
      * unfold at_. destruct (nth_error cs m); reflexivity.
      * unfold at_. destruct (nth_error (subs_at m cs) 0); reflexivity.
      * unfold at_. destruct (nth_error (subs_at m cs) 1); reflexivity.
      * generalize (map (fun m0 => subs_at m0 cs) ms) as vecs. induction (subs_at m cs) as [|x pairs IHp]; intros vecs; [reflexivity|].
        cbn [zip_pick]. rewrite !map_app, <- IHp. f_equal; [unfold at_; destruct (nth_error (subs x) 0); reflexivity|].
        f_equal; [|f_equal; destruct p; [unfold at_; destruct (nth_error (subs x) 1)|]; reflexivity].
        clear. induction vecs as [|w vecs IHv]; [reflexivity|]. cbn [flat_map]. rewrite map_app, <- IHv. f_equal. unfold at_. destruct (nth_error w 0); reflexivity.
Qed.
