(** The errors of the lexer are reported once each, in order (C57). Proof file. *)
From Verif Require Import LexerSpec PunctuatedProofs.
From Verif Require Import TokenSpec ErrorSpec ParserRun ParserTheorems.
Local Open Scope nat_scope.
Import ListNotations.

Definition tally (s s' : pstate) : Prop := exists u, st_toks s = u ++ st_toks s' /\ lexical (st_errors s') = lexical (st_errors s) ++ flat_map errors_of u.
Lemma lexical_app l m : lexical (l ++ m) = lexical l ++ lexical m.
Proof. induction l as [|[e|t msg o] l IH]; cbn; [reflexivity|now rewrite IH|assumption]. Qed.
Lemma lexical_map es : lexical (map TokenizerError es) = es.
Proof. induction es as [|e es IH]; cbn; [reflexivity|now rewrite IH]. Qed.
Lemma tally_refl s : tally s s.
Proof. exists []. now rewrite app_nil_r. Qed.
Lemma tally_trans s s1 s2 : tally s s1 -> tally s1 s2 -> tally s s2.
Proof. intros (u & T & L) (v & T' & L'). exists (u ++ v). now rewrite T, T', L', L, flat_map_app, !app_assoc. Qed.
Lemma tally_consume s a s' : consume s = Done (a, s') -> tally s s'.
Proof.
  unfold consume. destruct (st_toks s) as [|[t|es|t es] rest] eqn:E; intros [= <- <-].
  - apply tally_refl.
  - exists [LOk t]. cbn. now rewrite E, app_nil_r.
  - exists [LFatal es]. cbn. rewrite E, lexical_app, lexical_map, app_nil_r. auto.
  - exists [LRecovered t es]. cbn. rewrite E, lexical_app, lexical_map, app_nil_r. auto.
Qed.
Lemma tally_error s a s' r msg : token_error r msg s = Done (a, s') -> tally s s'.
Proof. intros [= <- <-]. exists []. cbn [flat_map st_toks st_errors]. rewrite lexical_app. now split. Qed.
Lemma tally_error_ranged s a s' r msg x y : token_error_ranged r msg x y s = Done (a, s') -> tally s s'.
Proof. intros [= <- <-]. exists []. cbn [flat_map st_toks st_errors]. rewrite lexical_app. now split. Qed.
Definition tallying : transition := mkTransition tally tally_refl tally_trans tally_consume tally_error tally_error_ranged.
Lemma lexical_exact c source rs r : cfg_ok c -> tokenize c source = Done rs -> parse_fallible c source = Done r -> lexical (ar_errors r) = all_errors rs.
Proof.
  intros K T P. destruct (stream_consumed c source r K P) as (rs' & s' & z & T' & S & E & Er & _). rewrite T in T'. injection T' as <-.
  destruct (al_parse_stream tallying c _ _ _ S) as (u & U & L). cbn [st_toks st_errors lexical app] in U, L. rewrite E, app_nil_r in U. now rewrite Er, L, U.
Qed.
Lemma lexical_in e es : In (TokenizerError e) es -> In e (lexical es).
Proof. induction es as [|[x|t msg o] es IH]; intros []; cbn; [left; congruence|right; auto|discriminate|auto]. Qed.
