(** Error-free runs of the whole parser. *)
From Verif Require Import LexerSpec PunctuatedProofs.
From Verif Require Export ParserClean3.
From Coq Require Import Lia.
Local Open Scope nat_scope.

(** As [E], from a state without errors. *)
Definition E0 {A} (m : M A) (ts : list tokref) (Q : A -> list tokref -> Prop) : Prop :=
  forall a s', m (at_toks ts []) = Done (a, s') -> st_errors s' = [] -> exists ts', s' = at_toks ts' [] /\ Q a ts'.
Lemma E_0 {A} (m : M A) ts Q : E m ts Q -> E0 m ts Q.
Proof. intros H a s'. apply H. Qed.
Lemma E0_bind {A B} (m : M A) (k : A -> M B) ts Q : mono m -> (forall a, mono (k a)) -> E0 m ts (fun a ts' => E0 (k a) ts' Q) -> E0 (bind m k) ts Q.
Proof.
  intros H1 H2 H b s' X Y. unfold bind in X. destruct (m (at_toks ts [])) as [[a s1]| |] eqn:X1; try discriminate.
  pose proof (H1 _ _ _ X1) as G1. pose proof (H2 _ _ _ _ X) as G2. pose proof (grows_eq _ _ _ [] G1 G2 eq_refl Y) as Z.
  destruct (H a s1 X1 Z) as (ts1 & -> & K). exact (K b s' X Y).
Qed.
Lemma E0_conseq {A} (m : M A) ts (P Q : A -> list tokref -> Prop) : E0 m ts P -> (forall a ts', P a ts' -> Q a ts') -> E0 m ts Q.
Proof. intros H I a s' X Y. destruct (H a s' X Y) as (ts' & Z & HP). eauto. Qed.
Lemma E0_loop {A B} (I : A -> list tokref -> Prop) (body : A -> M (A + B)) a ts (Q : B -> list tokref -> Prop) :
  (forall a, mono (body a)) -> I a ts ->
  (forall a ts1, I a ts1 -> E0 (body a) ts1 (fun r ts2 => match r with inl a' => I a' ts2 | inr b => Q b ts2 end)) -> E0 (loop body a) ts Q.
Proof.
  intros Hm Ia Hb b s'. unfold loop. generalize (S (List.length (st_toks (at_toks ts [])))). intros n. revert a ts Ia.
  induction n as [|n IH]; intros a ts Ia X Y; [discriminate|]. cbn [loop_] in X.
  destruct (body a (at_toks ts [])) as [[r s1]| |] eqn:X1; try discriminate.
  assert (Z : st_errors s1 = []).
  { destruct r as [a1|b1]; [|now injection X as _ <-]. eapply grows_eq; [exact (Hm _ _ _ _ X1)| |reflexivity|exact Y].
    assert (L : mono (fun s => loop_ n body a1 s)); [|exact (L _ _ _ X)].
    clear - Hm. revert a1. induction n as [|n IH]; intros a1 s b s' X; [discriminate|]. cbn [loop_] in X.
    destruct (body a1 s) as [[[a2|b1] s1]| |] eqn:X1; try discriminate.
    - eapply grows_trans; [eapply Hm; eassumption|eapply IH; eassumption].
    - injection X as <- <-. eapply Hm; eassumption. }
  destruct (Hb a ts Ia r s1 X1 Z) as (ts1 & -> & K). destruct r as [a1|b1].
  - exact (IH a1 ts1 K X Y).
  - injection X as <- <-. now exists ts1.
Qed.

(** The block, its tokens, and what is left in front of the end: nothing, or one more last statement. *)
Definition leftover (c : cfg) (b : tree) (R : list tokref) : Prop :=
  R = [] \/ block_last_stmt b <> None /\ exists t o, R = printed (block_tree [] (Some (t, o))) /\ proper (block_tree [] (Some (t, o))) /\ last_shape t.
Lemma e_next_block c p b ts : has_luau c = false -> egood c p -> (block_last_stmt b = None -> opens c ts = false) ->
  match ts with t :: _ => is_eof t = false | [] => True end ->
  E0 (next_block (p_block p) (match block_last_stmt b with Some _ => true | None => false end) b) ts (fun r ts' => match r with
    | inl _ => False
    | inr b' => b' = b /\ exists R, ts = R ++ ts' /\ leftover c b R
    end).
Proof.
  intros L H Hb Ht. pose proof (eg_mono _ _ H) as Hm. unfold next_block. apply E0_bind; [solve [mono_tac]|solve [mono_tac]|].
  apply (E0_conseq _ _ _ _ (E_0 _ _ _ (eg_block c p ts H))). intros [nb| |] ts1 K; cbn [block_post] in K; try contradiction.
  destruct K as (T & Pn & (stmts & last & -> & O1 & O3) & O2). cbn [block_stmts block_tree vec]. destruct stmts as [|x stmts].
  - apply E0_bind; [solve [mono_tac]|solve [mono_tac]|]. apply E_0, E_current. intros t r ->. destruct (is_eof t) eqn:Et; [apply E_0, E_ret|].
    + split; [reflexivity|]. exists (printed (block_tree [] last)). split; [assumption|]. destruct last as [[u o]|].
      * right. split; [|eauto 6]. intros X. specialize (Hb X). destruct (O2 Hb) as [Y _]. discriminate.
      * exfalso. rewrite printed_block in T. cbn in T. subst ts. rewrite Et in Ht. discriminate.
    + apply E0_bind; [solve [mono_tac]|solve [mono_tac]|]. apply E_0, E_consume. intros a s' X Y. exfalso.
      unfold bind, errors in X. cbn in X. injection X as <- <-. discriminate Y.
  - destruct (block_last_stmt b) as [l|] eqn:Lb.
    + apply E0_bind; [solve [mono_tac]|solve [mono_tac]|]. apply E0_bind; [solve [mono_tac]|solve [mono_tac]|]. apply E_0, E_pure; [apply pure_first_token|]. intros t. apply E_0, E_error.
    + exfalso. destruct (O2 (Hb eq_refl)) as [Y _]. discriminate.
Qed.
Lemma e_stream c ts : has_luau c = false ->
  E0 (parse_stream c) ts (fun a ts' => exists R, ts = printed (a_nodes a) ++ R ++ a_eof a :: ts' /\ proper (a_nodes a) /\ is_eof (a_eof a) = true /\ leftover c (a_nodes a) R).
Proof.
  intros L. unfold parse_stream. set (n := S (List.length (st_toks (at_toks ts [])))). pose proof (egood_at c n L) as H. pose proof (eg_mono _ _ H) as Hm.
  intros a s' X Y. change (st_toks (at_toks ts [])) with (map LOk ts) in *. fold n in X. revert a s' X Y.
  match goal with |- forall a s', ?m (at_toks ts []) = _ -> _ -> exists ts', _ /\ @?Q a ts' => change (E0 m ts Q) end.
  apply E0_bind; [solve [mono_tac]|intros; mono_tac; auto using mono_fallible_loop, mono_final_token with mono|].
  apply (E0_conseq _ _ _ _ (E_0 _ _ _ (eg_block c _ ts H))). intros [b| |] ts1 K; cbn [block_post] in K; try contradiction.
  destruct K as (T & Pb & (stmts & last & Eb & O1 & _) & _). cbv zeta.
  assert (Hb : block_last_stmt b = None -> opens c ts1 = false). { subst b. destruct last as [[t o]|]; [discriminate|auto]. }
  apply E0_bind; [now apply mono_fallible_loop, Hm|intros; mono_tac; auto using mono_final_token with mono|].
  apply (E0_conseq _ _ (fun b' ts2 => b' = b /\ exists R, ts1 = R ++ ts2 /\ leftover c b R)).
  - unfold fallible_loop.
    eapply (E0_loop (fun b' ts2 => b' = b /\ ts2 = ts1)); [intros; mono_tac; auto using mono_next_block with mono|auto|].
    intros b' ts2 (-> & ->). destruct ts1 as [|t ts1].
    + intros a s' X Y. injection X as <- <-. exists []. repeat split. exists []. split; [reflexivity|now left].
    + destruct (is_eof t) eqn:Et.
      * intros a s' X Y. unfold bind, lexer_current in X. cbn in X. rewrite Et in X. injection X as <- <-. exists (t :: ts1). repeat split. exists []. split; [reflexivity|now left].
      * intros a s' X Y. unfold bind, lexer_current in X. cbn [st_toks at_toks map hd_error] in X. rewrite Et in X.
        destruct (e_next_block c _ b (t :: ts1) L H Hb Et a s' X Y) as (ts2 & -> & K). exists ts2. split; [reflexivity|]. destruct a; [contradiction|assumption].
  - intros b' ts2 (-> & R & -> & HR). apply E0_bind; [apply mono_final_token|intros; mono_tac|]. unfold final_token.
    apply E0_bind; [solve [mono_tac]|solve [mono_tac]|]. destruct ts2 as [|e ts2]; [intros a s' [= <- <-] _; exists []; split; [reflexivity|apply E_0, E_panic]|]. apply E_0, E_consume. destruct (is_eof e) eqn:Ee; [|apply E_0, E_panic].
    apply E_0, E_ret, E_0, E_ret. exists R. cbn [a_nodes a_eof]. auto.
Qed.
