(** Properties of the visitors and of [update_positions]: C26, C27, C29, C30, C31. Statements only. *)
From Verif Require Import LexerSpec RangeProofs.
From Verif Require Import PropertiesTree1.
Local Open Scope N_scope.

(** An ast whose positions are all wrong. *)
Definition ex_eof : tokref := tok_n cfg_lua51 (str "local x, y = (1) -- c") 8.
Definition ex_ast : ast := mkAst ex_block ex_eof.
Definition ex_lost : ast := mkAst (map_tokens (fun r => mkRef (r_leading r) (mkToken pos0 pos0 (t_type (r_token r))) (r_trailing r)) ex_block) ex_eof.
Example ex_lost_typed : well_typed (a_nodes ex_lost) /\ aligned (a_nodes ex_lost) = true /\ a_nodes ex_lost <> ex_block.
Proof. split; [exists (YNode NBlock); vm_compute; reflexivity|]. split; vm_compute; congruence. Qed.

(** C26. The Eof token keeps its old position: the rewriter only sees [visit_eof], which it does not override. *)
Theorem C26_update_positions_refuted : exists a,
  well_typed (a_nodes a) /\ aligned (a_nodes a) = true /\
  t_start (r_token (a_eof (update_positions a))) <> pos_of (display (a_nodes a) ++ print_tokens (r_leading (a_eof a))).
Proof.
  exists (mkAst ex_block (mkRef [] (mkToken pos0 pos0 TEof) [])). split; [exists (YNode NBlock); vm_compute; reflexivity|]. split; [reflexivity|]. vm_compute. discriminate.
Qed.
Print Assumptions C26_update_positions_refuted.
Theorem C26_eof_partial : forall a, a_eof (update_positions a) = a_eof a.
Proof. exact update_eof. Qed.
Print Assumptions C26_eof_partial.

(** The tokens of the nodes tile the printed text. *)
Theorem C26_tiling_partial : forall a x t y, well_typed (a_nodes a) -> ast_tokens (update_positions a) = x ++ t :: y ->
  t_start t = pos_of (print_tokens x) /\ t_end t = end_of (print_tokens x) (show_token t).
Proof. exact update_tiles. Qed.
Print Assumptions C26_tiling_partial.
(** Nothing but positions changed: not what is printed, and not the tree. *)
Theorem C26_display : forall a, well_typed (a_nodes a) -> display_ast (update_positions a) = display_ast a.
Proof. exact update_display. Qed.
Print Assumptions C26_display.
Theorem C26_only_positions_partial : forall a, well_typed (a_nodes a) -> aligned (a_nodes a) = true ->
  retokened same_content (a_nodes a) (a_nodes (update_positions a)).
Proof. exact update_retokens. Qed.
Print Assumptions C26_only_positions_partial.

Example C26_example : update_positions ex_lost = ex_ast /\ ast_tokens (update_positions ex_lost) <> ast_tokens ex_lost.
Proof. split; vm_compute; congruence. Qed.

(** C27. Twice is once; right positions are left alone. *)
Theorem C27_idempotent : forall a, well_typed (a_nodes a) -> update_positions (update_positions a) = update_positions a.
Proof. exact update_idempotent. Qed.
Print Assumptions C27_idempotent.
Theorem C27_identity_partial : forall a, well_typed (a_nodes a) -> aligned (a_nodes a) = true ->
  (forall x t y, ast_tokens a = x ++ t :: y -> t_start t = pos_of (print_tokens x) /\ t_end t = end_of (print_tokens x) (show_token t)) ->
  update_positions a = a.
Proof. exact update_fixed. Qed.
Print Assumptions C27_identity_partial.
Example C27_example : update_positions ex_ast = ex_ast.
Proof. vm_compute. reflexivity. Qed.
Example C27_example_positions : forall x t y, ast_tokens ex_ast = x ++ t :: y ->
  t_start t = pos_of (print_tokens x) /\ t_end t = end_of (print_tokens x) (show_token t).
Proof.
  intros x t y E. assert (U : update_positions ex_ast = ex_ast) by (vm_compute; reflexivity). rewrite <- U in E.
  eapply update_tiles; [|exact E]. apply ex_typed.
Qed.

(** C29. Printing writes the tokens in the order of the mutable visitor. *)
Theorem C29_display_order : forall t, well_typed t -> display t = flat_map show_ref (fst (visit_mut recorder [] t)).
Proof. exact display_visits. Qed.
Print Assumptions C29_display_order.
Example C29_example : well_typed ex_block /\ List.length (fst (visit_mut recorder [] ex_block)) = 8%nat.
Proof. split; [exact (proj1 ex_typed)|reflexivity]. Qed.

(** C30. A visitor that changes nothing can still change the tree: it fills up the vectors of attributes and type
    specifiers, which [LocalAssignment::new] leaves empty (mod.rs:1851-1862). *)
Definition ex_new_local : tree :=
  Nd KLocalAssignment [ex 0; Con CVec []; Con CPunctuated [Con CEnd [ex 1]]; Con CVec []; none; Con CPunctuated []].
Theorem C30_identity_refuted : exists t, well_typed t /\ snd (visit_mut default_visitor tt t) <> t.
Proof. exists ex_new_local. split; [exists (YNode NLocalAssignment); vm_compute; reflexivity|]. vm_compute. congruence. Qed.
Print Assumptions C30_identity_refuted.

Theorem C30_identity_partial : forall a, well_typed (a_nodes a) -> aligned (a_nodes a) = true ->
  visit_mut_ast default_visitor tt a = (tt, a).
Proof. exact default_identity_ast. Qed.
Print Assumptions C30_identity_partial.

(** Any visitor that overrides token methods: the new printed tokens are the old ones, rewritten in printed order, ... *)
Theorem C30_rewriting : forall (S : Type) (v : visitor_mut S) s t s' t', well_typed t -> visit_mut v s t = (s', t') ->
  map_state (visit_mut_ref v) s (printed t) = (s', printed t').
Proof. intros S. exact visit_rewrites. Qed.
Print Assumptions C30_rewriting.
(** ... nothing else changes, ... *)
Theorem C30_only_tokens_partial : forall (S : Type) (v : visitor_mut S) s t s' t', well_typed t -> aligned t = true -> visit_mut v s t = (s', t') ->
  retokened (fun r r' => exists s s', visit_mut_ref v s r = (s', r')) t t'.
Proof. intros S. exact visit_retokens. Qed.
Print Assumptions C30_only_tokens_partial.
(** ... and the result is a value of the same type with aligned vectors. *)
Theorem C30_typed : forall (S : Type) (v : visitor_mut S) s t s' t' y, wt t y = true -> visit_mut v s t = (s', t') ->
  wt t' y = true /\ aligned t' = true.
Proof. intros S. exact visit_typed. Qed.
Print Assumptions C30_typed.

(** A visitor that counts references and replaces identifiers. *)
Definition renamer : visitor_mut nat :=
  mkVisitorMut (fun n r => (Nat.succ n, r)) (fun s r => (s, r)) (fun s t => (s, t))
    (fun k s t => match k with KdIdentifier => (s, mkToken (t_start t) (t_end t) (TIdentifier (str "z"))) | _ => (s, t) end).
Example C30_example : aligned ex_block = true /\ display (snd (visit_mut renamer O ex_block)) = str "local z, z = (1) -- c" /\ fst (visit_mut renamer O ex_block) = 8%nat.
Proof. vm_compute. auto. Qed.

(** C31. The immutable visitor skips the comma between local names, and calls [visit_token] twice for each main token. *)
Theorem C31_visit_refuted : exists t, well_typed t /\ aligned t = true /\
  seen_by_kind (visit t) <> filter has_callback (flat_map ref_tokens (printed t)).
Proof. exists ex_local. split; [exists (YNode NLocalAssignment); vm_compute; reflexivity|]. split; [reflexivity|]. vm_compute. congruence. Qed.
Print Assumptions C31_visit_refuted.
Theorem C31_visit_token_refuted : exists t, well_typed t /\ aligned t = true /\ every fully_visited t = true /\
  seen_by_visit_token (visit t) <> flat_map ref_tokens (printed t).
Proof. exists ex_paren. split; [exists (YNode NExpression); vm_compute; reflexivity|]. split; [reflexivity|]. split; [reflexivity|]. vm_compute. congruence. Qed.
Print Assumptions C31_visit_token_refuted.

(** Outside such nodes the kind callbacks ([visit_identifier], [visit_symbol], ...) see every token that has one, once, in
    printed order. *)
Theorem C31_visit_partial : forall a, well_typed (a_nodes a) -> every fully_visited (a_nodes a) = true ->
  seen_by_kind (visit_ast a) = filter has_callback (flat_map ref_tokens (printed (a_nodes a) ++ [a_eof a])).
Proof. exact visit_ast_kinds. Qed.
Print Assumptions C31_visit_partial.
(** [visit_token] sees the main token of each reference first, and then all tokens of the reference. *)
Theorem C31_visit_token_partial : forall t, well_typed t -> every fully_visited t = true ->
  seen_by_visit_token (visit t) = flat_map (fun r => r_token r :: ref_tokens r) (printed t).
Proof. exact visit_tokens. Qed.
Print Assumptions C31_visit_token_partial.
Example C31_example : well_typed ex_paren /\ every fully_visited ex_paren = true /\ every fully_visited ex_local = false /\
  map show_token (seen_by_kind (visit ex_paren)) = [str "("; str "1"; str ")"; str " "; str "-- c"].
Proof. split; [exists (YNode NExpression); vm_compute; reflexivity|]. vm_compute. auto. Qed.
