(** What is accepted outside Luau is a tree of the tree grammar (C49): whole sources. *)
From Verif Require Import LexerSpec PunctuatedProofs TokenSpec.
From Verif Require Import ParserTop ParserTheorems ParserAccept LexerTheorems LexerTheorems3.
From Verif Require Export Exact3.
From Coq Require Import Lia.
Local Open Scope nat_scope.
Import ListNotations.

(** What is left in front of the end: nothing, or one more last statement. *)
Definition spare (c : cfg) (b : tree) (R : list tokref) : Prop := R = [] \/ block_last_stmt b <> None /\ exists z, last_line c z /\ R = printed z.
Lemma x_next_block c p b ts : has_luau c = false -> sgood c p -> (block_last_stmt b = None -> opens c ts = false) ->
  match ts with t :: _ => is_eof t = false | [] => True end ->
  E0 (next_block (p_block p) (match block_last_stmt b with Some _ => true | None => false end) b) ts (fun r ts' => match r with
    | inl _ => False
    | inr b' => b' = b /\ exists R, ts = R ++ ts' /\ spare c b R
    end).
Proof.
  intros L H Hb Ht. pose proof (sg_mono _ _ H) as Hm. unfold next_block. apply E0_bind; [solve [mono_tac]|solve [mono_tac]|].
  apply (E0_conseq _ _ _ _ (E_0 _ _ _ (E_and _ _ _ _ (eg_block c p ts (sg_good _ _ H)) (sg_block c p ts H)))). intros [nb| |] ts1 [K KB]; cbn [block_post] in K; try contradiction.
  destruct K as (T & Pn & (stmts & last & -> & O1 & O3) & O2). cbn [block_stmts block_tree vec]. destruct stmts as [|x stmts].
  - apply E0_bind; [solve [mono_tac]|solve [mono_tac]|]. apply E_0, E_current. intros t r ->. destruct (is_eof t) eqn:Et; [apply E_0, E_ret|].
    + split; [reflexivity|]. exists (printed (block_tree [] last)). split; [assumption|]. destruct last as [[u o]|].
      * right. split; [intros X; specialize (Hb X); destruct (O2 Hb) as [Y _]; discriminate|]. exists (stmt_pair u o). rewrite printed_block, printed_pair. split; [|reflexivity].
        inversion KB as [l z _ _ Z]; subst. cbn in Z. now inversion Z.
      * exfalso. rewrite printed_block in T. cbn in T. subst ts. rewrite Et in Ht. discriminate.
    + apply E0_bind; [solve [mono_tac]|solve [mono_tac]|]. apply E_0, E_consume. intros a s' X Y. exfalso.
      unfold bind, errors in X. cbn in X. injection X as <- <-. discriminate Y.
  - destruct (block_last_stmt b) as [l|] eqn:Lb.
    + apply E0_bind; [solve [mono_tac]|solve [mono_tac]|]. apply E0_bind; [solve [mono_tac]|solve [mono_tac]|]. apply E_0, E_pure; [apply pure_first_token|]. intros t. apply E_0, E_error.
    + exfalso. destruct (O2 (Hb eq_refl)) as [Y _]. discriminate.
Qed.
Lemma x_stream c ts : has_luau c = false ->
  E0 (parse_stream c) ts (fun a ts' => block c (a_nodes a) /\ is_eof (a_eof a) = true /\ exists R, ts = printed (a_nodes a) ++ R ++ a_eof a :: ts' /\ spare c (a_nodes a) R).
Proof.
  intros L. unfold parse_stream. set (n := S (List.length (st_toks (at_toks ts [])))). pose proof (sgood_at c n L) as H. pose proof (sg_mono _ _ H) as Hm.
  intros a s' X Y. change (st_toks (at_toks ts [])) with (map LOk ts) in *. fold n in X. revert a s' X Y.
  match goal with |- forall a s', ?m (at_toks ts []) = _ -> _ -> exists ts', _ /\ @?Q a ts' => change (E0 m ts Q) end.
  apply E0_bind; [solve [mono_tac]|intros; mono_tac; auto using mono_fallible_loop, mono_final_token with mono|].
  apply (E0_conseq _ _ _ _ (E_0 _ _ _ (E_and _ _ _ _ (eg_block c _ ts (sg_good _ _ H)) (sg_block c _ ts H)))). intros [b| |] ts1 [K KB]; cbn [block_post] in K; try contradiction.
  destruct K as (T & Pb & (stmts & last & Eb & O1 & _) & _). cbv zeta.
  assert (Hb : block_last_stmt b = None -> opens c ts1 = false). { subst b. destruct last as [[t o]|]; [discriminate|auto]. }
  apply E0_bind; [now apply mono_fallible_loop, Hm|intros; mono_tac; auto using mono_final_token with mono|].
  apply (E0_conseq _ _ (fun b' ts2 => b' = b /\ exists R, ts1 = R ++ ts2 /\ spare c b R)).
  - unfold fallible_loop.
    eapply (E0_loop (fun b' ts2 => b' = b /\ ts2 = ts1)); [intros; mono_tac; auto using mono_next_block with mono|auto|].
    intros b' ts2 (-> & ->). destruct ts1 as [|t ts1].
    + intros a s' X Y. injection X as <- <-. exists []. repeat split. exists []. split; [reflexivity|now left].
    + destruct (is_eof t) eqn:Et.
      * intros a s' X Y. unfold bind, Parsers.lexer_current in X. cbn in X. rewrite Et in X. injection X as <- <-. exists (t :: ts1). repeat split. exists []. split; [reflexivity|now left].
      * intros a s' X Y. unfold bind, Parsers.lexer_current in X. cbn [st_toks at_toks map hd_error] in X. rewrite Et in X.
        destruct (x_next_block c _ b (t :: ts1) L H Hb Et a s' X Y) as (ts2 & -> & K). exists ts2. split; [reflexivity|]. destruct a; [contradiction|assumption].
  - intros b' ts2 (-> & R & -> & HR). apply E0_bind; [apply mono_final_token|intros; mono_tac|]. unfold final_token.
    apply E0_bind; [solve [mono_tac]|solve [mono_tac]|]. destruct ts2 as [|e ts2]; [intros a s' [= <- <-] _; exists []; split; [reflexivity|apply E_0, E_panic]|]. apply E_0, E_consume. destruct (is_eof e) eqn:Ee; [|apply E_0, E_panic].
    apply E_0, E_ret, E_0, E_ret. cbn [a_nodes a_eof]. repeat split; auto. exists R. auto.
Qed.
Lemma accepted_exactly c source a : cfg_ok c -> has_luau c = false -> parse c source = Done (inl a) ->
  block c (a_nodes a) /\ exists R, tokenize c source = Done (map LOk (printed (a_nodes a) ++ R ++ [a_eof a])) /\ spare c (a_nodes a) R.
Proof.
  intros K L P. pose proof P as P0. unfold parse in P. destruct (parse_fallible c source) as [r| |] eqn:F; try discriminate. injection P as P.
  destruct (into_result_exact r) as [X _]. apply X in P as [E ->]. clear X.
  destruct (stream_consumed _ _ _ K F) as (rs & s' & last & T & Ps & St & Er & _).
  pose proof (ok_is_clean _ _ _ _ K T P0) as C. apply clean_map in C as (ts & ->).
  rewrite E in Er. symmetry in Er. destruct (x_stream c ts L _ _ Ps Er) as (ts' & Es & B & Eo & R & -> & Sp).
  rewrite Es in St. destruct ts'; [|discriminate]. split; [assumption|]. exists R. auto.
Qed.
