(** The parser looks only at the sorts of tokens (C51): the whole parser. *)
From Verif Require Import LexerSpec PunctuatedProofs TokenSpec.
From Verif Require Import TreeFacts LexerStep ParserTop.
From Verif Require Export Layout3.
From Coq Require Import Lia.
Local Open Scope nat_scope.
Import ListNotations.

Lemma tw_at c n : ptwins c (parsers_at c n) (parsers_at c n).
Proof.
  induction n as [|n IH]; cbn [parsers_at no_fuel parsers_step].
  - repeat split; intros; apply twins_lift; exact I.
  - repeat split; cbn [p_block p_expression p_primary p_precedence p_type p_type_or_pack parsers_step]; intros; eauto with twins nocore.
Qed.
Lemma tw_unexpected c es es' : Forall2 (same_error (tied c)) es es' -> last_error_unexpected es = last_error_unexpected es'.
Proof.
  intros F. unfold last_error_unexpected. pose proof (tv_last_of (A := error) c es es' F) as T. destruct T as [|e e' E]; [reflexivity|]. destruct E; reflexivity.
Qed.
Lemma tw_next_block c q q' h b b' : twins c q q' -> twin c b b' -> twins c (next_block q h b) (next_block q' h b').
Proof.
  intros Q B. unfold next_block. eapply twins_bind; [eassumption|]. intros r r' [n n' N| |]; [|tws..]. pose proof (tv_block_stmts c n n' N) as S. destruct S; [|tws].
  eapply twins_bind; [tws|]. intros o o' O. case_of (match o with Some t => is_eof t | None => false end) (match o' with Some t => is_eof t | None => false end); [tws|].
  eapply twins_bind; [tws|]. intros z z' [t t' T| |]; [|tws..]. eapply twins_bind; [apply twins_errors|]. intros es es' E. rewrite <- (tw_unexpected c es es' E). tws.
Qed.
Lemma tw_fallible_loop c q q' h b b' : twins c q q' -> twin c b b' -> twins c (fallible_loop q h b) (fallible_loop q' h b').
Proof.
  intros Q B. unfold fallible_loop. eapply twins_loop; [|assumption]. intros x x' X. eapply twins_bind; [apply twins_lexer_current|].
  intros o o' [|r r' R]; [tws|]. destruct R as [t t' T|es es' E|t t' es es' T E]; [|tws|now apply tw_next_block].
  change (twin c t t') in T. case_of (is_eof t) (is_eof t'); [tws|now apply tw_next_block].
Qed.
Lemma tw_final_token c : twins c final_token final_token.
Proof. unfold final_token. tws. Qed.
Lemma tw_parse_stream c s s' : state_twin c s s' ->
  out_twin (fun x x' => twin c (fst x) (fst x') /\ state_twin c (snd x) (snd x')) (parse_stream c s) (parse_stream c s').
Proof.
  intros S. unfold parse_stream. rewrite <- (forall2_length _ _ _ (proj1 S)). generalize (tw_at c (Datatypes.S (List.length (st_toks s)))).
  generalize (parsers_at c (Datatypes.S (List.length (st_toks s)))). intros p P. revert s s' S.
  match goal with |- forall s s', _ -> out_twin _ (?f s) (?g s') => change (twins c f g) end.
  eapply twins_bind; [now apply pt_block|]. intros r r' R. cbv zeta.
  assert (B : twin c (match r with Value b => b | _ => block_new end) (match r' with Value b => b | _ => block_new end)) by vals.
  revert B. generalize (match r with Value b => b | _ => block_new end) (match r' with Value b => b | _ => block_new end). intros b b' B.
  destruct (tv_block_last_stmt c b b' B); (eapply twins_bind; [apply tw_fallible_loop; [now apply pt_block|assumption]|]); intros d d' D; (eapply twins_bind; [apply tw_final_token|]); tws.
Qed.

(** Results at the same places. *)
Lemma results_placed c rs rs' us vs us' vs' : Forall2 (same_result (same_ref c)) us us' -> rs = vs ++ us -> rs' = vs' ++ us' -> List.length vs = List.length vs' ->
  Forall2 (same_result (counterpart c rs rs')) us us'.
Proof.
  intros F. revert vs vs'. induction F as [|x x' us us' X F IH]; intros vs vs' E E' L; constructor.
  - assert (N : nth_error rs (List.length vs) = Some x) by (rewrite E, nth_error_app2, PeanoNat.Nat.sub_diag by lia; reflexivity).
    assert (N' : nth_error rs' (List.length vs) = Some x') by (rewrite E', L, nth_error_app2, PeanoNat.Nat.sub_diag by lia; reflexivity).
    destruct X; constructor; try assumption; eapply cp_read; try eassumption; reflexivity.
  - apply (IH (vs ++ [x]) (vs' ++ [x'])); [now rewrite <- app_assoc|now rewrite <- app_assoc|]. rewrite !app_length. cbn. lia.
Qed.
Lemma counterpart_same c rs rs' r r' : counterpart c rs rs' r r' -> same_ref c r r'.
Proof. intros [|]; [assumption|apply same_ref_refl]. Qed.
Definition tie_of c rs rs' : tie := mkTie c (counterpart c rs rs') (counterpart_same c rs rs') (cp_inserted c rs rs').

Definition result_twin (R : tokref -> tokref -> Prop) (r r' : ast_result) : Prop :=
  alike R (a_nodes (ar_ast r)) (a_nodes (ar_ast r')) /\ R (a_eof (ar_ast r)) (a_eof (ar_ast r')) /\ Forall2 (same_error R) (ar_errors r) (ar_errors r').
Lemma tied_twins (c : tie) s s' rs rs' : tokenize c s = Done rs -> tokenize c s' = Done rs' -> Forall2 (same_result (tied c)) rs rs' ->
  out_twin (result_twin (tied c)) (parse_fallible c s) (parse_fallible c s').
Proof.
  intros T T' R. unfold parse_fallible. rewrite (lex_all_tokenize c s), (lex_all_tokenize c s'), T, T'. pose proof (tw_parse_stream c (mkState rs []) (mkState rs' [])) as X.
  destruct (parse_stream c (mkState rs [])) as [[a u]| |], (parse_stream c (mkState rs' [])) as [[a' u']| |]; try exact I; try (apply X; split; [assumption|constructor]).
  destruct X as [X1 [_ X2]]; [split; [assumption|constructor]|]. cbn in X1, X2. destruct X1. split; [assumption|split; assumption].
Qed.
Lemma fallible_twins c s s' rs rs' : tokenize c s = Done rs -> tokenize c s' = Done rs' -> Forall2 (same_result (same_ref c)) rs rs' ->
  out_twin (result_twin (counterpart c rs rs')) (parse_fallible c s) (parse_fallible c s').
Proof.
  intros T T' R. apply (tied_twins (tie_of c rs rs') s s' rs rs' T T'). now apply (results_placed c rs rs' rs [] rs' []).
Qed.
Lemma accepted_twins c s s' rs rs' : tokenize c s = Done rs -> tokenize c s' = Done rs' -> Forall2 (same_result (same_ref c)) rs rs' ->
  forall t e, parse c s = Done (inl (mkAst t e)) ->
  exists t' e', parse c s' = Done (inl (mkAst t' e')) /\ alike (counterpart c rs rs') t t' /\ counterpart c rs rs' e e'.
Proof.
  intros T T' R t e P. pose proof (fallible_twins c s s' rs rs' T T' R) as X. unfold parse, into_result in *.
  destruct (parse_fallible c s) as [[a es]| |], (parse_fallible c s') as [[[t' e'] es']| |]; try discriminate; try contradiction.
  destruct X as (X1 & X2 & X3). cbn in *. destruct X3; [|discriminate]. injection P as ->. eauto.
Qed.
Lemma same_sort_sym c t t' : same_sort c t t' -> same_sort c t' t.
Proof. destruct t, t'; cbn; auto; try discriminate. intros H L N. destruct (H L); [congruence|tauto]. Qed.
Lemma same_ref_sym c r r' : same_ref c r r' -> same_ref c r' r.
Proof.
  intros [H K]. split; [now apply same_sort_sym|]. intros w k E. destruct (t_type (r_token r)) eqn:F; rewrite E in H; cbn in H; try discriminate. symmetry. eapply K, eq_refl.
Qed.
Lemma same_result_sym c r r' : same_result (same_ref c) r r' -> same_result (same_ref c) r' r.
Proof.
  assert (X : forall es es', Forall2 same_lex_error es es' -> Forall2 same_lex_error es' es). { induction 1; constructor; auto. symmetry. assumption. }
  intros []; constructor; auto using same_ref_sym.
Qed.
Lemma results_sym c rs rs' : Forall2 (same_result (same_ref c)) rs rs' -> Forall2 (same_result (same_ref c)) rs' rs.
Proof. induction 1; constructor; auto using same_result_sym. Qed.
Lemma accepted_iff c s s' rs rs' : tokenize c s = Done rs -> tokenize c s' = Done rs' -> Forall2 (same_result (same_ref c)) rs rs' ->
  ((exists a, parse c s = Done (inl a)) <-> (exists a, parse c s' = Done (inl a))).
Proof.
  intros T T' R. split; intros ([t e] & P).
  - destruct (accepted_twins c s s' rs rs' T T' R t e P) as (t' & e' & P' & _). eauto.
  - destruct (accepted_twins c s' s rs' rs T' T (results_sym c rs rs' R) t e P) as (t' & e' & P' & _). eauto.
Qed.
