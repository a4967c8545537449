(** Ranges of errors begin before they end (C56): the whole parse. Proof file. *)
From Verif Require Import LexerSpec PunctuatedProofs LexerProofs LexerTheorems3.
From Verif Require Import TokenSpec Order7 ParserTop ParserTheorems.
From Verif Require Import ErrorSpec Errors1 Errors2 Compare Compare1 Ranges4.
From Coq Require Import Lia.
Local Open Scope nat_scope.
Import ListNotations.

Lemma V_panic c l : V c l (lift OutOfFuel).
Proof. intros pre. split; [apply E_lift|]. intros s a s' _ _ _ X. discriminate X. Qed.
Lemma rgood_at c l n : rgood c l (parsers_at c n).
Proof.
  induction n as [|n IH].
  - split; [apply o_parsers|]. cbn [parsers_at no_fuel p_block p_expression p_primary p_precedence p_type p_type_or_pack]. split; [apply V_panic|]. split; [apply V_panic|]. split; [intros pre; apply E_lift|]. split; [intros e k pre; apply E_lift|]. split; intros _; apply V_panic.
  - pose proof (o_parsers c true (S n)) as G. pose proof (typed_at c (S n)) as (T1 & T2 & T3). split; [exact G|].
    split; [|split; [|split; [|split; [|split]]]].
    + apply (V_of _ _ _ _ T1 (og_block _ _ _ G)). intros pre. now apply r_parse_block.
    + apply (V_of _ _ _ _ T2 (og_expression _ _ _ G)). intros pre. now apply r_parse_expression.
    + intros pre. now apply r_parse_primary_expression.
    + intros e k pre. now apply r_parse_expression_with_precedence.
    + intros L. apply (V_of _ _ _ _ (proj1 (T3 L)) (og_type _ _ _ G)). intros pre. now apply r_parse_type.
    + intros L. apply (V_of _ _ _ _ (proj2 (T3 L)) (og_type_or_pack _ _ _ G)). intros pre. now apply r_parse_type_or_pack.
Qed.
Lemma r_next_block c l pre q b t : (forall pre, E c l pre q) -> E c l pre (next_block q b t).
Proof. intros. unfold next_block. r_tac. Qed.
#[export] Hint Resolve r_next_block : rdb.
Lemma r_fallible_loop c l pre q b t : (forall pre, E c l pre q) -> E c l pre (fallible_loop q b t).
Proof. intros. unfold fallible_loop. r_tac. Qed.
Lemma r_final_token c l pre : E c l pre final_token.
Proof. unfold final_token. r_tac. Qed.
Lemma r_parse_stream c l pre : E c l pre (parse_stream c).
Proof.
  intros s. unfold parse_stream. generalize (S (List.length (st_toks s))). intros n. revert s. fold (@E c l pre ast (let! r := p_block (parsers_at c n) in
    let block := match r with Value block => block | _ => block_new end in
    let block_has_last_stmt := match block_last_stmt block with Some _ => true | None => false end in
    let! block := fallible_loop (p_block (parsers_at c n)) block_has_last_stmt block in let! eof := final_token in ret (mkAst block eof))).
  pose proof (rgood_at c l n) as P.
  apply E_bind; [now apply rg_block'|]. intros r u. cbv zeta. apply E_bind; [apply r_fallible_loop; intros; now apply rg_block'|]. intros b v. apply E_bind; [apply r_final_token|]. intros e w. apply E_ret.
Qed.

Lemma tokens_stretch c source rs a b : tokenize c source = Done rs -> bef (refs_of rs) a b -> stretch source (t_start (r_token a)) (t_end (r_token b)).
Proof.
  intros T B. apply bef_split in B as (x & y & z & R). pose proof (refs_compared _ _ _ _ _ _ _ _ T R) as L. unfold compare_ref, compare_token, compare_position in L.
  destruct (ref_place c source rs a T) as (u & v & w & S & E1 & _); [rewrite R; apply in_elt|].
  destruct (ref_place c source rs b T) as (u' & v' & w' & S' & E2 & E3); [rewrite R; apply in_or_app; right; right; apply in_elt|].
  rewrite E1, E2 in L. rewrite E1, E3. clear E1 E2 E3. rewrite S in S'. apply app_eq_app in S' as (d & [[-> D]|[-> D]]).
  - exfalso. revert L. rewrite !bytes_pos_of, bytes_of_app. intros L. apply N.compare_lt_iff, N.lt_nge in L. apply L, N.le_add_r.
  - exists u, (d ++ v'), w'. rewrite S, D, <- !app_assoc. auto.
Qed.
Lemma error_stretch c source r rs e : cfg_ok c -> tokenize c source = Done rs -> parse_fallible c source = Done r -> Forall (fun t => is_symbol t SElseIf = false) (refs_of rs) -> In e (ar_errors r) ->
  stretch source (fst (error_range e)) (snd (error_range e)) \/
  (exists x, inserted c x /\ (fst (error_range e) = t_start (r_token x) \/ snd (error_range e) = t_end (r_token x))).
Proof.
  intros K T P El I. destruct e as [e|t msg [[p q]|]]; cbn [error_range fst snd].
  - left. destruct (error_ranges c source rs e T) as (a & b & d & E1 & _ & ->); [|exists a, b, d; auto]. rewrite <- (lexical_exact c source rs r K T P). now apply lexical_in.
  - assert (F : Forall (fine c (refs_of rs)) (ar_errors r)).
    { destruct (stream_consumed _ _ _ K P) as (rs' & s' & last & T' & Ps & _ & Er & _). assert (rs' = rs) by congruence. subst rs'.
      destruct (tokenize_eof _ _ _ T) as (eo & (pre & x & E1 & X & Ee & _) & _); [intros ->; discriminate Ps|].
      assert (J : inv c True (mkState rs [])). { split; [exists pre, x, eo; auto|]. split; [now apply (tokenize_enabled c source)|now left]. }
      destruct (r_parse_stream c (refs_of rs) [] (mkState rs []) (ar_ast r) s') as (_ & es & Es & F); [now right| |reflexivity|exact Ps|].
      - unfold plain_results. eapply Forall_impl; [|exact El]. intros t' Y _. exact Y.
      - rewrite Er, Es. exact F. }
    rewrite Forall_forall in F. destruct (F _ I) as (a & b & -> & -> & A & B & O). destruct O as [->|[X|[X|X]]].
    + destruct A as [A|A]; [right; eauto|]. left. now apply (ref_place c source rs b T).
    + right. eauto.
    + right. eauto.
    + left. now apply (tokens_stretch c source rs).
  - pose proof (errors_own c source r rs T P) as F. rewrite Forall_forall in F. specialize (F _ I). inversion F; subst.
    match goal with H : own _ _ _ |- _ => destruct H as [H|H] end; [left; now apply (ref_place c source rs _ T)|right; eauto].
Qed.
