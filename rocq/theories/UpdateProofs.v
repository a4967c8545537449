(** Proofs about [Ast::update_positions]. *)
From Verif Require Export VisitTyped.
From Verif Require Import LexerSpec LexerFacts LexerProofs.
From Coq Require Import Lia ZifyBool ZifyN ZifyNat.
Arguments advance p c : simpl never.
Local Open Scope N_scope.

Definition resolved (nl : bool) (e : position) : position := if nl then mkPos (p_bytes e) (p_line e + 1) 1 else e.

Lemma update_loop_app a : forall b nl e, update_loop (a ++ b) nl e = let '(nl', e') := update_loop a nl e in update_loop b nl' e'.
Proof.
  induction a as [|c a IH]; intros b nl e; [reflexivity|]. cbn [app update_loop].
  destruct (if c =? c_nl then _ else _) as [nl1 e1]. apply IH.
Qed.
Lemma update_loop_spec t : forall nl e nl' e', update_loop t nl e = (nl', e') ->
  resolved nl' e' = adv (resolved nl e) t /\ (t <> [] -> nl' = ends_nl t /\ e' = end_pos (resolved nl e) t) /\ (t = [] -> nl' = nl /\ e' = e).
Proof.
  induction t as [|c t IH] using rev_ind; intros nl e nl' e' H.
  - injection H as <- <-. repeat split; congruence.
  - rewrite update_loop_app in H. destruct (update_loop t nl e) as [nl1 e1] eqn:E. destruct (IH _ _ _ _ E) as (R & N & Z).
    rewrite adv_app, <- R, end_pos_snoc, ends_nl_snoc, adv_app, <- R. change (adv ?p [c]) with (advance p c).
    cbn [update_loop] in H. unfold advance. change (if nl1 then mkPos (p_bytes e1) (p_line e1 + 1) 1 else e1) with (resolved nl1 e1) in H.
    destruct (c =? c_nl) eqn:C.
    + apply N.eqb_eq in C. subst c. injection H as <- <-. split; [reflexivity|]. split; [|intros X; destruct t; discriminate].
      intros _. split; reflexivity.
    + injection H as <- <-. split; [reflexivity|]. split; [|intros X; destruct t; discriminate].
      intros _. split; reflexivity.
Qed.

Definition retimed1 (p : position) (t : token) : token := mkToken p (end_pos p (show_token t)) (t_type t).
Fixpoint retimed (p : position) (ts : list token) : list token :=
  match ts with [] => [] | t :: ts => retimed1 p t :: retimed (adv p (show_token t)) ts end.

Lemma update_token_spec p t : update_token (mkRewriter p false) t = (mkRewriter (adv p (show_token t)) false, retimed1 p t).
Proof.
  unfold update_token. cbn [rw_start rw_next_is_new_line].
  assert (E : match kind_of (t_type t) with KdEof => (false, p) | _ => update_loop (show_token t) false p end = update_loop (show_token t) false p)
    by (unfold show_token; destruct (t_type t); reflexivity).
  rewrite E. clear E. destruct (update_loop (show_token t) false p) as [nl e] eqn:U. destruct (update_loop_spec _ _ _ _ _ U) as (R & N & Z).
  cbn [resolved] in *. change (if nl then mkPos (p_bytes e) (p_line e + 1) 1 else e) with (resolved nl e). rewrite R. unfold retimed1. f_equal.
  f_equal. destruct (show_token t) as [|c u] eqn:S.
  - destruct (Z eq_refl) as [-> ->]. reflexivity.
  - destruct N as [_ ->]; [discriminate|]. reflexivity.
Qed.
Lemma update_tokens_spec ts : forall p, map_state update_token (mkRewriter p false) ts = (mkRewriter (adv p (print_tokens ts)) false, retimed p ts).
Proof.
  induction ts as [|t ts IH]; intros p; [reflexivity|]. cbn [map_state retimed print_tokens flat_map]. rewrite update_token_spec, IH, adv_app. reflexivity.
Qed.
Lemma retimed_app a : forall b p, retimed p (a ++ b) = retimed p a ++ retimed (adv p (print_tokens a)) b.
Proof.
  induction a as [|t a IH]; intros b p; [reflexivity|]. cbn [app retimed print_tokens flat_map]. rewrite IH, adv_app. reflexivity.
Qed.
Definition retimed_ref (p : position) (r : tokref) : tokref :=
  mkRef (retimed p (r_leading r)) (retimed1 (adv p (print_tokens (r_leading r))) (r_token r))
        (retimed (adv (adv p (print_tokens (r_leading r))) (show_token (r_token r))) (r_trailing r)).
Lemma update_ref_spec p r : update_ref (mkRewriter p false) r = (mkRewriter (adv p (show_ref r)) false, retimed_ref p r).
Proof.
  unfold update_ref. rewrite update_tokens_spec, update_token_spec, update_tokens_spec. unfold show_ref. rewrite !adv_app. reflexivity.
Qed.
Lemma print_ref r : print_tokens (ref_tokens r) = show_ref r.
Proof. unfold print_tokens, ref_tokens, show_ref. now rewrite flat_map_app. Qed.
Lemma retimed_ref_tokens p r : ref_tokens (retimed_ref p r) = retimed p (ref_tokens r).
Proof. unfold ref_tokens at 2. rewrite retimed_app. reflexivity. Qed.
Fixpoint retimed_refs (p : position) (rs : list tokref) : list tokref :=
  match rs with [] => [] | r :: rs => retimed_ref p r :: retimed_refs (adv p (show_ref r)) rs end.
Lemma update_refs_spec rs : forall p, map_state (visit_mut_ref update_visitor) (mkRewriter p false) rs =
  (mkRewriter (adv p (flat_map show_ref rs)) false, retimed_refs p rs).
Proof.
  induction rs as [|r rs IH]; intros p; [reflexivity|]. cbn [map_state retimed_refs flat_map]. rewrite refs_only_ref by (repeat split).
  cbn [update_visitor vm_token_reference]. rewrite update_ref_spec, IH, adv_app. reflexivity.
Qed.
Lemma retimed_refs_tokens rs : forall p, flat_map ref_tokens (retimed_refs p rs) = retimed p (flat_map ref_tokens rs).
Proof.
  induction rs as [|r rs IH]; intros p; [reflexivity|]. cbn [retimed_refs flat_map]. rewrite retimed_app, IH, retimed_ref_tokens, print_ref. reflexivity.
Qed.
Lemma retimed_types ts : forall p, map t_type (retimed p ts) = map t_type ts.
Proof. induction ts as [|t ts IH]; intros p; [reflexivity|]. cbn. now rewrite IH. Qed.
Lemma print_types a b : map t_type a = map t_type b -> print_tokens a = print_tokens b.
Proof.
  revert b. induction a as [|x a IH]; intros [|y b] E; try discriminate; [reflexivity|]. cbn [map] in E. injection E as E1 E2.
  change (show_token x ++ print_tokens a = show_token y ++ print_tokens b). rewrite (IH b E2). unfold show_token. now rewrite E1.
Qed.
Lemma retimed_split ts : forall p a t b, retimed p ts = a ++ t :: b ->
  t_start t = adv p (print_tokens a) /\ t_end t = end_pos (adv p (print_tokens a)) (show_token t).
Proof.
  induction ts as [|x ts IH]; intros p a t b E; [destruct a; discriminate|]. cbn [retimed] in E. destruct a as [|y a].
  - injection E as <- _. split; reflexivity.
  - injection E as <- E. cbn [print_tokens flat_map]. rewrite adv_app. apply (IH _ _ _ _ E).
Qed.
(** A list of tokens with the right positions is not changed. *)
Lemma retimed_fixed ts : forall u, (forall a t b, ts = a ++ t :: b ->
    t_start t = pos_of (u ++ print_tokens a) /\ t_end t = end_of (u ++ print_tokens a) (show_token t)) -> retimed (pos_of u) ts = ts.
Proof.
  induction ts as [|x ts IH]; intros u H; [reflexivity|]. cbn [retimed]. destruct (H [] x ts eq_refl) as [H1 H2]. cbn [print_tokens flat_map] in *. rewrite app_nil_r in *.
  f_equal.
  - unfold retimed1. rewrite end_pos_of, <- H1, <- H2. destruct x; reflexivity.
  - rewrite <- adv_pos0, <- adv_app, adv_pos0. apply IH. intros a t b ->. rewrite <- app_assoc. change (show_token x ++ print_tokens a) with (print_tokens (x :: a)).
    apply (H (x :: a) t b). reflexivity.
Qed.
Lemma retimed_ref_inj p r : retimed p (ref_tokens r) = ref_tokens r -> retimed_ref p r = r.
Proof.
  rewrite <- retimed_ref_tokens. destruct r as [l t tr]. unfold retimed_ref, ref_tokens. cbn [r_leading r_token r_trailing]. intros E.
  assert (L : List.length (retimed p l) = List.length l) by (rewrite <- (map_length t_type (retimed p l)), retimed_types, map_length; reflexivity).
  apply app_inj in E as [E1 E2]; [|assumption]. injection E2 as E2 E3. congruence.
Qed.
Lemma retimed_refs_inj rs : forall p, retimed p (flat_map ref_tokens rs) = flat_map ref_tokens rs -> retimed_refs p rs = rs.
Proof.
  induction rs as [|r rs IH]; intros p E; [reflexivity|]. cbn [flat_map] in E. rewrite retimed_app in E.
  assert (L : List.length (retimed p (ref_tokens r)) = List.length (ref_tokens r)) by (rewrite <- (map_length t_type (retimed p _)), retimed_types, map_length; reflexivity).
  apply app_inj in E as [E1 E2]; [|assumption]. cbn [retimed_refs]. rewrite print_ref in E2. f_equal; [now apply retimed_ref_inj|now apply IH].
Qed.

Lemma retimed_same ts : forall p, Forall2 same_token ts (retimed p ts).
Proof. induction ts as [|t ts IH]; intros p; constructor; [reflexivity|apply IH]. Qed.

Lemma update_printed a : well_typed (a_nodes a) -> printed (a_nodes (update_positions a)) = retimed_refs pos0 (printed (a_nodes a)).
Proof.
  intros H. unfold update_positions, visit_mut_ast. destruct (visit_mut update_visitor (mkRewriter (mkPos 0 1 1) false) (a_nodes a)) as [s t] eqn:E.
  apply visit_rewrites in E; [|assumption]. rewrite update_refs_spec in E. injection E as _ E. cbn. now symmetry.
Qed.
Theorem update_tiles a x t y : well_typed (a_nodes a) -> ast_tokens (update_positions a) = x ++ t :: y ->
  t_start t = pos_of (print_tokens x) /\ t_end t = end_of (print_tokens x) (show_token t).
Proof.
  intros H E. unfold ast_tokens in E. rewrite update_printed, retimed_refs_tokens in E by assumption.
  apply retimed_split in E. rewrite adv_pos0, end_pos_of in E. exact E.
Qed.
Theorem update_types a : well_typed (a_nodes a) -> map t_type (ast_tokens (update_positions a)) = map t_type (ast_tokens a).
Proof. intros H. unfold ast_tokens. now rewrite update_printed, retimed_refs_tokens, retimed_types. Qed.
Theorem update_eof a : a_eof (update_positions a) = a_eof a.
Proof. unfold update_positions, visit_mut_ast. now destruct (visit_mut _ _ _). Qed.
Theorem update_display a : well_typed (a_nodes a) -> display_ast (update_positions a) = display_ast a.
Proof.
  intros H. unfold display_ast. rewrite update_eof. f_equal. unfold display.
  assert (P : forall rs, flat_map show_ref rs = print_tokens (flat_map ref_tokens rs)).
  { intros rs. unfold print_tokens. rewrite flat_map_flat_map. apply flat_map_ext. intros r. symmetry. apply print_ref. }
  rewrite !P. apply print_types. now apply update_types.
Qed.
Theorem update_retokens a : well_typed (a_nodes a) -> aligned (a_nodes a) = true -> retokened same_content (a_nodes a) (a_nodes (update_positions a)).
Proof.
  intros H Al. unfold update_positions, visit_mut_ast. destruct (visit_mut update_visitor (mkRewriter (mkPos 0 1 1) false) (a_nodes a)) as [s t] eqn:E. cbn.
  eapply retokened_impl; [|exact (visit_retokens _ _ _ _ _ H Al E)]. intros r r' ([p b] & s' & F). rewrite refs_only_ref in F by (repeat split). cbn in F.
  assert (T : forall w t, same_token t (snd (update_token w t))) by (intros w x; unfold update_token; destruct (match kind_of _ with KdEof => _ | _ => _ end); reflexivity).
  assert (Ts : forall ts w, Forall2 same_token ts (snd (map_state update_token w ts))).
  { induction ts as [|x ts IH]; intros w; cbn [map_state]; [constructor|]. specialize (T w x). destruct (update_token w x) as [w1 x']. specialize (IH w1).
    destruct (map_state update_token w1 ts). constructor; assumption. }
  unfold update_ref in F. pose proof (Ts (r_leading r) (mkRewriter p b)) as F1. destruct (map_state update_token (mkRewriter p b) (r_leading r)) as [w1 l1].
  pose proof (T w1 (r_token r)) as F2. destruct (update_token w1 (r_token r)) as [w2 t2]. pose proof (Ts (r_trailing r) w2) as F3.
  destruct (map_state update_token w2 (r_trailing r)) as [w3 l3]. injection F as <- <-. repeat split; assumption.
Qed.

Lemma retokened_shape Q t : forall t', retokened Q t t' -> shape t = shape t'.
Proof.
  induction t as [r|c cs IH|k cs IH] using tree_ind'; intros t' H; inversion H as [|? ? ? F|? ? ? F]; subst; [reflexivity| |];
    rewrite ?shape_con, ?shape_nd; f_equal; clear H; (induction F as [|x y l l' Hx F IHF]; [reflexivity|]; inversion IH; subst; cbn; f_equal; auto).
Qed.
Lemma aligned_fitting t : aligned t = true -> fitting t = true.
Proof.
  induction t as [r|c cs IH|k cs IH] using tree_ind'; intros H; [reflexivity| |].
  - apply every_con in H. unfold fitting. cbn. apply forallb_forall. rewrite Forall_forall in *. auto.
  - apply every_nd in H as [Hk H]. unfold fitting. cbn. apply andb_true_iff. split; [|apply forallb_forall; rewrite Forall_forall in *; auto].
    destruct k; try reflexivity; cbn in *; rewrite ?andb_true_iff, ?Nat.eqb_eq, ?Nat.leb_le in *; lia.
Qed.
(** Right positions are kept: [update_positions] is then the identity. *)
Theorem update_fixed a : well_typed (a_nodes a) -> aligned (a_nodes a) = true ->
  (forall x t y, ast_tokens a = x ++ t :: y -> t_start t = pos_of (print_tokens x) /\ t_end t = end_of (print_tokens x) (show_token t)) ->
  update_positions a = a.
Proof.
  intros H Al P.
  assert (E : printed (a_nodes (update_positions a)) = printed (a_nodes a)).
  { rewrite update_printed by assumption. apply retimed_refs_inj. apply (retimed_fixed _ []). exact P. }
  pose proof (update_eof a) as Eo. pose proof (retokened_shape _ _ _ (update_retokens a H Al)) as Sh.
  destruct H as [y Hy]. symmetry in E. pose proof (printed_inj _ _ _ Hy (aligned_fitting _ Al) Sh E) as En.
  destruct (update_positions a) as [n e], a as [n' e']. cbn in *. congruence.
Qed.
Theorem update_idempotent a : well_typed (a_nodes a) -> update_positions (update_positions a) = update_positions a.
Proof.
  intros H. assert (K : well_typed (a_nodes (update_positions a)) /\ aligned (a_nodes (update_positions a)) = true).
  { destruct H as [y Hy]. unfold update_positions, visit_mut_ast. destruct (visit_mut update_visitor _ (a_nodes a)) as [s t] eqn:E.
    destruct (visit_typed _ _ _ _ _ _ Hy E) as [T Al]. cbn. split; [now exists y|assumption]. }
  destruct K as [T Al]. apply update_fixed; [assumption|assumption|]. intros x t y. now apply update_tiles.
Qed.
