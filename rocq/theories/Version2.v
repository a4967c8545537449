(** What is accepted outside Luau stays accepted in versions that have more (C50). *)
From Verif Require Import LexerSpec PunctuatedProofs TokenSpec.
From Verif Require Import VisitTheorems ParserTheorems ParserAccept Exact5.
From Verif Require Export Version1.
Local Open Scope nat_scope.
Import ListNotations.

Lemma steady_same c c' : extends c c' -> steady c c' (fun r => r).
Proof. intros X. repeat split; auto; apply X. Qed.
Lemma map_tokens_same t : map_tokens (fun r => r) t = t.
Proof.
  induction t as [r|k cs IH|k cs IH] using tree_ind'; [reflexivity| |]; cbn; f_equal; induction IH as [|x l E F IH']; cbn; congruence.
Qed.
Lemma block_extends c c' t : extends c c' -> block c t -> block c' t.
Proof. intros X B. rewrite <- (map_tokens_same t). exact (up_block c c' _ (steady_same c c' X) t B). Qed.
Lemma last_extends c c' t : extends c c' -> last_line c t -> last_line c' t.
Proof. intros X B. rewrite <- (map_tokens_same t). exact (up_last_line c c' _ (steady_same c c' X) t B). Qed.
Lemma parse_extends c c' source a : cfg_ok c -> cfg_ok c' -> has_luau c = false -> extends c c' -> tokenize c' source = tokenize c source ->
  parse c source = Done (inl a) -> parse c' source = Done (inl a).
Proof.
  intros C C' L X T P. destruct a as [t e]. pose proof X as (L' & _). rewrite L in L'. apply exactly; [assumption..|]. apply exactly in P as (B & H); [|assumption..].
  split; [now apply (block_extends c)|]. rewrite T. destruct H as [H|(l & z & y & E & Y & H)]; [now left|]. right. exists l, z, y. split; [assumption|]. split; [now apply (last_extends c)|assumption].
Qed.
