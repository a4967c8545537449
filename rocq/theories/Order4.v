(** The tokens of trees are drawn from those of the source (C55): function bodies and tables. *)
From Verif Require Import LexerSpec PunctuatedProofs.
From Verif Require Export Order3.
From Coq Require Import Lia Permutation.
Local Open Scope nat_scope.
Import ListNotations.

Definition vec_toks (l : list tree) : list tokref := flat_map printed l.
Lemma o_attributes c b : O b parse_attributes (vkept c b vec_toks []).
Proof.
  unfold parse_attributes. ogo.
  all: apply (O_loop b (fun l u => kept c b (vec_toks l) u)); [apply kept_nil|]. all: intros l u K. all: ogo; try assumption.
  all: first [now rewrite app_nil_r|unfold vec_toks in *; rewrite flat_map_app; kt].
Qed.
#[export] Hint Resolve o_attributes : ospec.

Lemma o_block_end c b p n r : ogood c b p -> O b (expect_block_with_end c p n r) (okept c b (fun x => printed (fst x) ++ [snd x]) []).
Proof. intros G. unfold expect_block_with_end. ogo; kt. Qed.
#[export] Hint Resolve o_block_end : ospec.

(** ** Parameters *)
(** Parameters with their annotations. *)
Definition zipped (l : list (pair_of tree)) (v : list tree) : list tokref := zip_pick printed true (map (pair_tree (fun t : tree => t)) l) [v].
Lemma zipped_cons x l v : zipped (x :: l) v = printed (pair_value x) ++ at_ printed 0 v ++ match x with Punctuated _ p => [p] | End _ => [] end ++ zipped l (tl v).
Proof.
  unfold zipped. cbn [map zip_pick flat_map tl]. rewrite app_nil_r. destruct x; cbn [pair_tree subs at_ nth_error pair_value]; rewrite ?printed_tok; reflexivity.
Qed.
Lemma zipped_nil v : zipped [] v = [].
Proof. reflexivity. Qed.
Lemma zipped_none l : zipped l [] = flat_map (pair_toks printed) l.
Proof. unfold zipped. apply zip_none. constructor. Qed.
Lemma zipped_less c b l v : kept c b (flat_map (pair_toks printed) l) (zipped l v).
Proof.
  revert v. induction l as [|x l IH]; intros v; [apply kept_nil|]. rewrite zipped_cons. cbn [flat_map]. destruct x; cbn [pair_toks pair_value]; knorm; apply kept_common, kept_drop.
  - apply IH.
  - apply kept_same, IH.
Qed.
Lemma zipped_app l x v : zipped (l ++ [x]) v = zipped l v ++ zipped [x] (skipn (List.length l) v).
Proof.
  revert v. induction l as [|y l IH]; intros v; [reflexivity|]. cbn [app List.length]. rewrite !(zipped_cons y), IH. destruct v; cbn [tl skipn]; rewrite ?skipn_nil, <- ?app_assoc; reflexivity.
Qed.
Lemma zipped_long l v w : List.length l <= List.length v -> zipped l (v ++ w) = zipped l v.
Proof.
  revert v. induction l as [|y l IH]; intros v H; [reflexivity|]. destruct v as [|s v]; cbn [List.length] in H; [lia|]. rewrite !zipped_cons. cbn [app tl at_ nth_error]. rewrite IH by lia. reflexivity.
Qed.
Lemma zipped_snoc l x v s : List.length l = List.length v -> zipped (l ++ [x]) (v ++ [s]) = zipped l v ++ printed (pair_value x) ++ printed s ++ match x with Punctuated _ p => [p] | End _ => [] end.
Proof.
  intros H. rewrite zipped_app, zipped_long by lia. rewrite H, skipn_app, skipn_all, Nat.sub_diag. cbn [app skipn]. rewrite zipped_cons, zipped_nil, app_nil_r. reflexivity.
Qed.
Lemma zipped_last l x v : List.length l = List.length v -> zipped (l ++ [x]) v = zipped l v ++ pair_toks printed x.
Proof.
  intros H. rewrite zipped_app, H, skipn_all, zipped_none. cbn [flat_map]. now rewrite app_nil_r.
Qed.
Lemma zipped_pop c b l y q rest v u : p_pop l = (Some (Punctuated y q), rest) -> kept c b (zipped (pairs l) v) u -> kept c b (zipped (pairs (p_push rest (End y))) v) u.
Proof.
  intros P K. eapply kept_trans; [|exact K]. destruct l as [l]. destruct l as [|x l _] using rev_ind; [discriminate|]. rewrite (p_pop_snoc _ l x) in P by reflexivity.
  injection P as -> <-. cbn [p_push pairs]. rewrite !zipped_app, !zipped_cons. cbn [pair_value zipped_nil]. apply kept_common, kept_common, kept_common. apply kept_nil.
Qed.

Lemma o_unfinished c b l m u : kept c b (list_toks printed m) u -> O b (unfinished_function_body c l m) (fun r w => vkept c b printed [] r (l :: u ++ w)).
Proof.
  intros K. unfold unfinished_function_body. cbv zeta. set (m' := match p_pop m with (Some (Punctuated v _), rest) => p_push rest (End v) | _ => m end).
  assert (X : kept c b (list_toks printed m') u).
  { unfold m'. destruct (p_pop m) as [[[v|v q]|] rest] eqn:P; try assumption. eapply pop_kept; eassumption. }
  clearbody m'. ogo. rewrite printed_nd; cbn [display_order flat_map pick at_ subs_at subs nth_error map span vec punct puncts].
  pose proof (zipped_none (pairs m')) as Z. unfold zipped in Z. rewrite Z. fold (list_toks printed m'). change (printed block_new) with (@nil tokref). kt.
Qed.
Lemma o_ellipsis c b p : ogood c b p -> O b (ellipsis_specifier p) (okept c b oprinted []).
Proof. intros G. unfold ellipsis_specifier. ogo; kt. Qed.
#[export] Hint Resolve o_ellipsis : ospec.

Definition param_post c b (r : punctuated tree + punctuated tree * list tree * tokref) (u : list tokref) : Prop :=
  match r with
  | inl l => kept c b (list_toks printed l) u
  | inr (l, v, e) => kept c b (zipped (pairs l) v ++ [e]) u
  end.
Lemma zipped_params c b l v u : kept c b (zipped (pairs l) v) u -> kept c b (list_toks printed l) u.
Proof. intros K. eapply kept_trans; [apply zipped_less|exact K]. Qed.
Lemma o_parameters c b p : ogood c b p -> O b (parameter_loop c p) (param_post c b).
Proof.
  intros G. unfold parameter_loop. apply (O_loop b (fun '(l, v) u => List.length (pairs l) = List.length v /\ kept c b (zipped (pairs l) v) u)); [split; [reflexivity|apply kept_nil]|].
  intros [[l] v] u [HL K]. cbn [pairs] in *. ogo; cbn [param_post p_push pairs] in *; rewrite ?zipped_snoc, ?zipped_last by assumption; rewrite ?app_length; cbn [pair_value pair_toks List.length] in *;
    unfold param_ellipsis, param_name, list_toks; cbn [p_push pairs]; rewrite ?flat_map_app; try (pose proof (kept_trans _ _ _ _ _ (zipped_less c b l v) K) as K2); try (split; [lia|]); try kt.
  match goal with H : kept _ _ (t_toks a) _ |- _ => assert (K3 : kept c b [n_name a] u0) by (eapply kept_trans; [|exact H]; unfold t_toks; apply kept_same, kept_nil) end. clear - K2 K3. kt.
Qed.
#[export] Hint Resolve o_parameters : ospec.
Lemma o_body_return c b p : ogood c b p -> O b (body_return_type c p) (okept c b oprinted []).
Proof. intros G. unfold body_return_type. ogo; kt. Qed.
#[export] Hint Resolve o_body_return : ospec.
Lemma o_function_body c b p : ogood c b p -> O b (parse_function_body c p) (vkept c b printed []).
Proof.
  intros G. unfold parse_function_body. ocut (vkept c b printed []); [ogo; first [assumption|kt]|]. destruct a as [g| |]; [|ogo|].
  all: onorm; cbv zeta; ostep; ostep; [|ogo]; cbv iota; (ocut (param_post c b); [auto with ospec|]).
  all: destruct a as [m|[[m v] e]]; cbn [param_post] in *.
  1, 3: eapply O_conseq; [apply o_unfinished; eassumption|]; intros [r| |] w K2; onorm; auto; apply kept_drop; exact K2.
  all: ocut (fun m' w => w = [] /\ kept c b (zipped (pairs m') v ++ [e]) u0).
  1, 3: destruct (p_pop m) as [[[y|y q]|] rest] eqn:PP; ogo; split; try reflexivity; try assumption.
  1, 2: eapply kept_trans; [|eassumption]; (eapply kept_step; [eapply zipped_pop; [eassumption|apply kept_refl]|apply kept_refl]).
  all: onorm; ogo.
  all: rewrite printed_nd; cbn [display_order flat_map pick at_ subs_at subs nth_error map span vec punct puncts]; fold (zipped (pairs a) v); kt.
Qed.
#[export] Hint Resolve o_function_body : ospec.

(** ** Tables *)
Lemma o_expression_key c b p l : ogood c b p -> O b (expect_expression_key p l) (okept c b printed [l]).
Proof. intros G. unfold expect_expression_key. ogo; kt. Qed.
#[export] Hint Resolve o_expression_key : ospec.
Lemma o_table_field c b p l m t : ogood c b p -> O b (table_field c p l m t) (okept c b printed []).
Proof. intros G. unfold table_field. ogo; kt. Qed.
#[export] Hint Resolve o_table_field : ospec.
Lemma o_table c b p l : ogood c b p -> O b (force_table_constructor c p l) (fun t u => kept c b (printed t) (l :: u)).
Proof.
  intros G. unfold force_table_constructor. cbv zeta.
  ocut (fun (r : tree + punctuated tree) u => match r with inl t => kept c b (printed t) (l :: u) | inr m => kept c b (list_toks printed m) u end).
  - apply (O_loop b (fun m u => kept c b (list_toks printed m) u)); [apply kept_nil|]. intros m v Km. ogo; try kt.
    all: repeat match goal with H : _ \/ _ |- _ => destruct H as [->| ->] end; onorm.
    all: match goal with H : kept _ _ (list_toks printed ?l) _ |- kept _ _ (list_toks printed ?l) _ => eapply kept_trans; [exact H|] end; kt.
  - destruct a as [t|m]; ogo; kt.
Qed.
#[export] Hint Resolve o_table : ospec.
