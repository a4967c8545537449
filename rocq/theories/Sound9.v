(** What is accepted in Luau, without the tokens that the parser drops, is a tree of the tree grammar (C58): whole sources. *)
From Verif Require Import LexerSpec PunctuatedProofs TokenSpec.
From Verif Require SoundLex.
From Verif Require Import ParserTop ParserTheorems ParserAccept PrintProofs LexerTheorems LexerTheorems3.
From Verif Require Export Sound8.
From Coq Require Import Lia Permutation.
Local Open Scope nat_scope.
Import ListNotations.

Definition kept (c : cfg) (ts0 : list tokref) (hl : bool) (b : tree) (ts : list tokref) : Prop :=
  (ts = ts0 \/ reals ts) /\ tw b + w ts <= w ts0 /\ (tw b + w ts = w ts0 -> block c b /\ (hl = false -> opens_luau ts = false)).
Lemma tw_merge a b : tw (merge_blocks a b) <= tw a + tw b.
Proof.
  unfold merge_blocks. destruct a as [?|? ?|k1 cs1]; try lia. destruct k1; try lia. destruct cs1 as [|[?|? ?|? ?] cs1]; try lia. match goal with k : container |- _ => destruct k end; try lia.
  all: destruct cs1 as [|x [|? ?]]; try lia; destruct b as [?|? ?|k2 cs2]; try lia; destruct k2; try lia; destruct cs2 as [|[?|[] ?|? ?] cs2]; try lia; destruct cs2 as [|y [|? ?]]; try lia.
  all: rewrite !tw_nd, !tws_cons, !tw_con, !tws_app, !tws_nil; destruct x as [?|[] ?|? ?]; lia.
Qed.
Lemma eof_opens t r : is_eof t = true -> opens_luau (t :: r) = false.
Proof. unfold is_eof, opens_luau, is_symbol, is_identifier. destruct (t_type (r_token t)); try discriminate. reflexivity. Qed.
Lemma j_next_block c n hl b ts ts0 : luau c -> reals (tl ts0) -> kept c ts0 hl b ts ->
  E0 (next_block (p_block (parsers_at c (S n))) hl b) ts (fun r ts' => kept c ts0 hl (match r with inl b' => b' | inr b' => b' end) ts').
Proof.
  intros L R0 (K1 & K2 & K3). pose proof (jgood_at c n L) as H. pose proof (jg_mono _ _ (jgood_at c (S n) L)) as Hm.
  assert (R : reals (tl ts)) by (destruct K1 as [->|?]; [assumption|now apply reals_tail]).
  unfold next_block. apply E0_bind; [solve [mono_tac]|solve [mono_tac]|].
  apply (E0_conseq _ _ _ _ (E_0 _ _ _ (j_parse_block c _ ts H R))). intros x ts1 ((A1 & A2 & A3) & A4).
  assert (B1 : ts1 = ts0 \/ reals ts1) by (destruct A1 as [->|?]; auto).
  destruct x as [nb| |]; cbn [vw bpost empty_block] in *.
  2,3: apply E_0, E_ret; split; [assumption|]; split; [lia|intros F; exfalso; apply A3; lia].
  destruct (block_stmts nb) as [|s0 ss] eqn:Es.
  - apply E0_bind; [solve [mono_tac]|solve [mono_tac]|]. apply E_0, E_current. intros t r ->. destruct (is_eof t) eqn:Et; [apply E_0, E_ret|].
    + split; [assumption|]. split; [lia|]. intros F. destruct (K3 ltac:(lia)) as [Bb Ob]. split; [assumption|]. intros _. now apply eof_opens.
    + apply E0_bind; [solve [mono_tac]|solve [mono_tac]|]. apply E_0, E_consume. intros a s' X Y. exfalso.
      unfold bind, errors in X. cbn in X. injection X as <- <-. discriminate Y.
  - destruct hl.
    + apply E0_bind; [solve [mono_tac]|solve [mono_tac]|]. apply E0_bind; [solve [mono_tac]|solve [mono_tac]|]. apply E_0, E_pure; [apply pure_first_token|]. intros t. apply E_0, E_error.
    + apply E0_bind; [solve [mono_tac]|solve [mono_tac]|]. apply E_0, E_ret, E_0, E_ret. pose proof (tw_merge b nb). split; [assumption|]. split; [lia|]. intros F. destruct (K3 ltac:(lia)) as [_ Ob]. specialize (A4 (Ob eq_refl)). congruence.
Qed.
Lemma j_stream c ts : luau c -> reals (tl ts) ->
  E0 (parse_stream c) ts (fun a ts' => tw (a_nodes a) + Sound0.wt (a_eof a) + w ts' <= w ts /\ (tw (a_nodes a) + Sound0.wt (a_eof a) + w ts' = w ts -> block c (a_nodes a))).
Proof.
  intros L R. unfold parse_stream. set (n := List.length (st_toks (at_toks ts []))). pose proof (jgood_at c n L) as H. pose proof (jg_mono _ _ (jgood_at c (S n) L)) as Hm.
  intros a s' X Y. change (st_toks (at_toks ts [])) with (map LOk ts) in *. fold n in X. revert a s' X Y.
  match goal with |- forall a s', ?m (at_toks ts []) = _ -> _ -> exists ts', _ /\ @?Q a ts' => change (E0 m ts Q) end.
  apply E0_bind; [solve [mono_tac]|intros; mono_tac; auto using mono_fallible_loop, mono_final_token with mono|].
  apply (E0_conseq _ _ _ _ (E_0 _ _ _ (j_parse_block c _ ts H R))). intros x ts1 ((A1 & A2 & A3) & _). cbv zeta.
  set (b := match x with Value block => block | _ => block_new end). set (hl := match block_last_stmt b with Some _ => true | None => false end).
  assert (K : kept c ts hl b ts1).
  { split; [assumption|]. subst b hl. destruct x as [b| |]; cbn [vw bpost] in *; rewrite ?tw_block_new; (split; [lia|intros F]).
    - destruct (A3 ltac:(lia)) as [Bb Ob]. split; [assumption|]. destruct (block_last_stmt b); [discriminate|auto].
    - exfalso. apply A3. lia.
    - exfalso. apply A3. lia. }
  clearbody b hl. clear A1 A2 A3. apply E0_bind; [now apply mono_fallible_loop, Hm|intros; mono_tac; auto using mono_final_token with mono|].
  apply (E0_conseq _ _ (kept c ts hl)).
  - unfold fallible_loop. eapply (E0_loop (kept c ts hl)); [intros; mono_tac; auto using mono_next_block with mono|assumption|].
    intros b' ts2 K'. destruct ts2 as [|t ts2].
    + intros a s' X Y. injection X as <- <-. exists []. split; [reflexivity|exact K'].
    + destruct (is_eof t) eqn:Et.
      * intros a s' X Y. unfold bind, Parsers.lexer_current in X. cbn in X. rewrite Et in X. injection X as <- <-. exists (t :: ts2). split; [reflexivity|exact K'].
      * intros a s' X Y. unfold bind, Parsers.lexer_current in X. cbn [st_toks at_toks map hd_error] in X. rewrite Et in X.
        destruct (j_next_block c _ _ b' (t :: ts2) ts L R K' a s' X Y) as (ts3 & -> & K3). exists ts3. split; [reflexivity|]. destruct a; exact K3.
  - intros b' ts2 (K1 & K2 & K3). apply E0_bind; [apply mono_final_token|intros; mono_tac|]. unfold final_token.
    apply E0_bind; [solve [mono_tac]|solve [mono_tac]|]. destruct ts2 as [|e ts2]; [intros a s' [= <- <-] _; exists []; split; [reflexivity|apply E_0, E_panic]|]. apply E_0, E_consume. destruct (is_eof e) eqn:Ee; [|apply E_0, E_panic].
    apply E_0, E_ret, E_0, E_ret. cbn [a_nodes a_eof]. cbn [w] in *. split; [lia|]. intros F. apply K3. lia.
Qed.

(** ** Printed trees weigh as much as the trees *)
Lemma w_app a b : w (a ++ b) = w a + w b.
Proof. induction a; cbn; lia. Qed.
Lemma w_leaves t : w (leaves t) = tw t.
Proof.
  induction t as [r|k cs IH|k cs IH] using tree_ind'; cbn [leaves tw]; [cbn; lia| |].
  all: induction IH as [|x l Hx Hl IHl]; [reflexivity|]; cbn [flat_map map list_sum fold_right]; rewrite w_app, Hx, IHl; reflexivity.
Qed.
Lemma w_perm a b : Permutation a b -> w a = w b.
Proof. induction 1; cbn; lia. Qed.
Lemma accepted_luau c source t e : cfg_ok c -> luau c -> tokenize c source = Done (map LOk (printed t ++ [e])) ->
  parse c source = Done (inl (mkAst t e)) -> block c t.
Proof.
  intros K L T P. unfold parse in P. destruct (parse_fallible c source) as [r| |] eqn:F; try discriminate. injection P as P.
  destruct (into_result_exact r) as [X _]. apply X in P as [E H]. clear X.
  destruct (stream_consumed _ _ _ K F) as (rs & s' & last & T' & Ps & St & Er & _). rewrite T in T'. injection T' as <-.
  rewrite E in Er. symmetry in Er. 
  assert (R : reals (tl (printed t ++ [e]))).
  { pose proof (SoundLex.later_tokens _ _ _ T) as Z. eapply Forall_impl; [|exact Z]. intros x Hx. unfold SoundLex.first_start in Hx. unfold Sound0.wt. destruct (N.eqb_spec (p_bytes (t_start (hd (r_token x) (r_leading x)))) 0); [|reflexivity]. rewrite e0 in Hx. discriminate. }
  destruct (j_stream c _ L R _ _ Ps Er) as (ts' & Es & _ & B). rewrite Es in St. destruct ts'; [|discriminate].
  match goal with X : mkAst t e = _ |- _ => rewrite <- X in * end. cbn [a_nodes a_eof] in B. apply B.
  rewrite w_app, <- w_leaves. cbn. rewrite (w_perm (leaves t) (printed t)); [lia|].
  pose proof (parsed_well_typed _ _ _ K F) as Ty. pose proof (parsed_fitting _ _ _ K F) as Fi. rewrite <- H in Ty, Fi. cbn [a_nodes] in *. eapply leaves_printed; eassumption.
Qed.
Print Assumptions accepted_luau.
