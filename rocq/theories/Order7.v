(** The tokens of trees are drawn from those of the source (C55): whole sources. *)
From Verif Require Import LexerSpec PunctuatedProofs TokenSpec.
From Verif Require Export Order6.
From Verif Require Import ParserTheorems.
From Coq Require Import Lia Permutation.
Local Open Scope nat_scope.
Import ListNotations.

Lemma kept_weak c b l u : kept c b l u -> kept c false l u.
Proof. intros (l' & P & D). exists l'. split; [destruct b; [now subst|assumption]|assumption]. Qed.

(** Statements and the last one, each in order, and all of them in some order. *)
Definition sorted c b (t : tree) (u : list tokref) : Prop :=
  exists l x, t = Nd KBlock [Con CVec l; x] /\ kept c b (vec_toks l) u /\ kept c b (printed x) u /\ kept c false (vec_toks l ++ printed x) u.
Lemma sorted_block c b l o u : kept c b (printed (block_tree l o)) u -> sorted c b (block_tree l o) u.
Proof.
  intros K. unfold block_tree. do 2 eexists. split; [reflexivity|]. set (x := opt_tree _) in *.
  assert (X : printed (block_tree l o) = vec_toks l ++ printed x).
  { unfold block_tree. fold x. rewrite printed_plain by reflexivity. cbn [flat_map]. rewrite printed_vec, app_nil_r. reflexivity. }
  rewrite X in K. repeat split.
  - eapply kept_trans; [|exact K]. rewrite <- (app_nil_r (vec_toks l)) at 1. apply kept_common, kept_nil.
  - eapply kept_trans; [|exact K]. apply kept_drop, kept_refl.
  - now apply kept_weak in K.
Qed.
Lemma sorted_more c b t u v : sorted c b t u -> sorted c b t (u ++ v).
Proof.
  intros (l & x & -> & K1 & K2 & K3). exists l, x. split; [reflexivity|].
  assert (X : forall b m, kept c b m u -> kept c b m (u ++ v)) by (intros b' m K; rewrite <- (app_nil_r m); apply kept_app; [assumption|apply kept_nil]). auto.
Qed.
Lemma sorted_merge c b t t' u v : sorted c b t u -> sorted c b t' v -> sorted c b (merge_blocks t t') (u ++ v).
Proof.
  intros (l & x & -> & K1 & K2 & K3) (m & y & -> & L1 & L2 & L3). cbn [merge_blocks].
  assert (X : forall b k, kept c b k u -> kept c b k (u ++ v)) by (intros b' k K; rewrite <- (app_nil_r k); apply kept_app; [assumption|apply kept_nil]).
  assert (Y : forall b k, kept c b k v -> kept c b k (u ++ v)) by (intros b' k K; now apply kept_drop).
  assert (K4 : kept c b (vec_toks (l ++ m)) (u ++ v)) by (unfold vec_toks; rewrite flat_map_app; now apply kept_app).
  assert (A : sorted c b (Nd KBlock [Con CVec (l ++ m); x]) (u ++ v)).
  { do 2 eexists. split; [reflexivity|]. split; [exact K4|]. split; [auto|]. apply (kept_perm c ((vec_toks l ++ printed x) ++ vec_toks m)).
    - unfold vec_toks. rewrite flat_map_app, <- !app_assoc. apply Permutation_app_head, Permutation_app_comm.
    - apply kept_app; [assumption|]. now apply kept_weak in L1. }
  destruct x as [r|k cs|k cs]; try exact A. destruct k; try exact A.
  do 2 eexists. split; [reflexivity|]. split; [exact K4|]. split; [auto|]. unfold vec_toks. rewrite flat_map_app, <- app_assoc. apply kept_app; [now apply kept_weak in K1|assumption].
Qed.
Lemma o_top_block c b n : O b (p_block (parsers_at c (S n))) (fun r u => match r with Value t => sorted c b t u | _ => True end).
Proof.
  cbn [parsers_at parsers_step p_block]. pose proof (o_parsers c b n) as G. unfold parse_block.
  ocut (fun r u => match r with inl (Value t) => sorted c b t u | inl _ => True | inr l => kept c b (vec_toks l) u end).
  - apply (O_loop b (fun l u => kept c b (vec_toks l) u)); [apply kept_nil|]. intros l u K. ogo.
    all: try apply sorted_block; unfold stmt_pair, vec_toks in *; cbn [stmt_toks] in *; rewrite ?printed_block, ?flat_map_app; unfold last_toks, vec_toks; cbn [fst snd]; first [kt|cbn [flat_map] in *; kt].
  - destruct a as [[r| |]|l]; ogo; rewrite ?app_nil_r; try assumption; apply sorted_block; rewrite ?printed_block; kt.
Qed.
Lemma o_next_block c b pb h t u : O b pb (fun r u => match r with Value t => sorted c b t u | _ => True end) -> sorted c b t u ->
  O b (next_block pb h t) (fun r w => match r with inl t' => sorted c b t' (u ++ w) | inr t' => sorted c b t' (u ++ w) end).
Proof.
  intros HB K. unfold next_block. apply O_bind. eapply O_conseq; [exact HB|]. intros [t'| |] v K'.
  2, 3: apply O_ret; now apply sorted_more.
  destruct (block_stmts t') as [|x l] eqn:E.
  - apply O_bind, O_current; [intros t0 P|]; cbv beta iota.
    + destruct (is_eof t0); [apply O_ret; now apply sorted_more|]. apply O_bind, O_consume; [intros r| |apply O_panic].
      * apply O_bind, O_errors. intros es. destruct (last_error_unexpected es); [apply O_ret; now apply sorted_more|]. apply O_bind, O_error. apply O_ret. now apply sorted_more.
      * apply O_ret. now apply sorted_more.
    + apply O_bind, O_consume; [intros r| |apply O_panic].
      * apply O_bind, O_errors. intros es. destruct (last_error_unexpected es); [apply O_ret; now apply sorted_more|]. apply O_bind, O_error. apply O_ret. now apply sorted_more.
      * apply O_ret. now apply sorted_more.
  - apply O_bind. destruct h.
    + apply O_bind, O_pure; [apply pure_first_token|]. intros r. apply O_error, O_ret. cbn [app]. rewrite app_nil_r. now apply sorted_merge.
    + apply O_ret, O_ret. cbn [app]. rewrite app_nil_r. now apply sorted_merge.
Qed.
Lemma o_fallible c b pb h t u : O b pb (fun r u => match r with Value t => sorted c b t u | _ => True end) -> sorted c b t u ->
  O b (fallible_loop pb h t) (fun t' w => sorted c b t' (u ++ w)).
Proof.
  intros HB K. unfold fallible_loop. apply (O_loop b (fun t' w => sorted c b t' (u ++ w))); [now rewrite app_nil_r|]. intros t' w K'.
  apply O_bind, O_lexer_current. intros o. cbn [app]. assert (N : O b (next_block pb h t') (fun a v => match a with inl t => sorted c b t (u ++ w ++ v) | inr t => sorted c b t (u ++ w ++ v) end)).
  { eapply O_conseq; [apply (o_next_block c b pb h t' (u ++ w) HB K')|]. intros [a|a] v; rewrite <- app_assoc; auto. }
  assert (R : O b (ret (inr t') : M (tree + tree)) (fun a v => match a with inl t => sorted c b t (u ++ w ++ v) | inr t => sorted c b t (u ++ w ++ v) end)) by (apply O_ret; now rewrite app_nil_r).
  destruct o as [[r|e|r e]|]; [|apply O_bind, O_consume; [intros r| |]|exact N|exact R]; [destruct (is_eof r); [exact R|exact N]|..]; apply O_ret; rewrite ?app_nil_r, ?app_assoc; auto using sorted_more.
Qed.
Definition sorted_ast c b (a : ast) (u : list tokref) : Prop :=
  exists l x, a_nodes a = Nd KBlock [Con CVec l; x] /\ kept c b (vec_toks l ++ [a_eof a]) u /\ kept c b (printed x ++ [a_eof a]) u /\ kept c false (printed (a_nodes a) ++ [a_eof a]) u.
Lemma sorted_new c b : sorted c b block_new [].
Proof. unfold block_new. do 2 eexists. split; [reflexivity|]. repeat split; apply kept_nil. Qed.
Lemma o_stream c b : O b (parse_stream c) (sorted_ast c b).
Proof.
  intros s a s' G X. unfold parse_stream in X. revert s a s' G X.
  assert (H : forall n, O b (let! r := p_block (parsers_at c (S n)) in
      let block := match r with Value block => block | _ => block_new end in
      let block_has_last_stmt := match block_last_stmt block with Some _ => true | None => false end in
      let! block := fallible_loop (p_block (parsers_at c (S n))) block_has_last_stmt block in let! eof := final_token in ret (mkAst block eof)) (sorted_ast c b)).
  { intros n. apply O_bind. eapply O_conseq; [apply o_top_block|]. intros r u K. cbv zeta. set (t := match r with Value block => block | _ => block_new end).
    assert (K' : sorted c b t u). { subst t. destruct r; [assumption| |]; apply (sorted_more c b block_new []), sorted_new. }
    apply O_bind. eapply O_conseq; [apply (o_fallible c b _ _ _ _ (o_top_block c b n) K')|]. intros t' w K2. apply O_bind. unfold final_token. apply O_bind, O_consume; [|apply O_panic|apply O_panic].
    intros r'. destruct (is_eof r'); [|apply O_panic]. apply O_ret, O_ret. destruct K2 as (l & x & -> & K3 & K4 & K5). exists l, x. split; [reflexivity|]. cbn [a_eof a_nodes].
    rewrite !app_nil_r, app_assoc. cbn [app]. repeat split; try (apply kept_app; [assumption|apply kept_refl]).
    rewrite printed_plain by reflexivity. cbn [flat_map]. rewrite printed_con, app_nil_r. apply kept_app; [exact K5|apply kept_refl]. }
  intros s a s' G X. exact (H (List.length (st_toks s)) s a s' G X).
Qed.

(** ** C55 *)
Lemma tokens_drawn c source r : cfg_ok c -> parse_fallible c source = Done r -> exists rs l, tokenize c source = Done rs /\
  Permutation l (printed (a_nodes (ar_ast r)) ++ [a_eof (ar_ast r)]) /\ drawn (inserted c) l (refs_of rs).
Proof.
  intros K F. destruct (stream_consumed _ _ _ K F) as (rs & s' & last & T & Ps & St & _). destruct (o_stream c false (mkState rs []) (ar_ast r) s') as (u & U & H); [|exact Ps|].
  { unfold plain_results. apply Forall_forall. intros x _. discriminate. }
  rewrite St, app_nil_r in U. cbn in U. subst u. destruct H as (_ & _ & _ & _ & _ & l & P & D). exists rs, l. auto.
Qed.
Lemma order_drawn c source r rs : cfg_ok c -> parse_fallible c source = Done r -> tokenize c source = Done rs -> Forall (fun t => is_symbol t SElseIf = false) (refs_of rs) ->
  exists l x, a_nodes (ar_ast r) = Nd KBlock [Con CVec l; x] /\ drawn (inserted c) (flat_map printed l ++ [a_eof (ar_ast r)]) (refs_of rs) /\ drawn (inserted c) (printed x ++ [a_eof (ar_ast r)]) (refs_of rs).
Proof.
  intros K F T E. destruct (stream_consumed _ _ _ K F) as (rs' & s' & last & T' & Ps & St & _). assert (rs' = rs) by congruence. subst rs'.
  destruct (o_stream c true (mkState rs []) (ar_ast r) s') as (u & U & H); [|exact Ps|].
  { unfold plain_results. eapply Forall_impl; [|exact E]. intros t Y _. exact Y. }
  rewrite St, app_nil_r in U. cbn in U. subst u. destruct H as (l & x & N & H1 & H2 & _). exists l, x. split; [exact N|]. split; now apply kept_strict.
Qed.
Lemma whole_order_drawn c source r rs l : cfg_ok c -> parse_fallible c source = Done r -> tokenize c source = Done rs -> Forall (fun t => is_symbol t SElseIf = false) (refs_of rs) ->
  a_nodes (ar_ast r) = Nd KBlock [l; Con CNone []] -> drawn (inserted c) (printed (a_nodes (ar_ast r)) ++ [a_eof (ar_ast r)]) (refs_of rs).
Proof.
  intros K F T E N. destruct (order_drawn _ _ _ _ K F T E) as (m & x & N' & D & _). rewrite N' in N. injection N as <- ->. rewrite N'.
  rewrite printed_plain by reflexivity. cbn [flat_map]. rewrite !printed_con. cbn [flat_map]. now rewrite !app_nil_r.
Qed.

(** ** The wrong order *)
Lemma misplaced_at rs l i j t u : nth_error l i = Some t -> nth_error (skipn (S i) l) j = Some u -> In t (refs_of rs) -> In u (refs_of rs) ->
  N.lt (p_bytes (t_start (r_token u))) (p_bytes (t_start (r_token t))) -> misplaced rs l.
Proof.
  intros H1 H2 I1 I2 L. apply nth_error_split in H1 as (x & y & -> & <-). replace (S (List.length x)) with (List.length (x ++ [t])) in H2 by (rewrite app_length; cbn; lia).
  replace (x ++ t :: y) with ((x ++ [t]) ++ y) in H2 by (rewrite <- app_assoc; reflexivity).
  rewrite skipn_app, skipn_all, PeanoNat.Nat.sub_diag in H2. cbn [app skipn] in H2. apply nth_error_split in H2 as (y' & z & -> & _). exists x, t, y', u, z. auto.
Qed.
