(** Accepted sources and the tree grammar (C49): both directions. *)
From Verif Require Import LexerSpec PunctuatedProofs TokenSpec.
From Verif Require Import ParserTop ParserTheorems ParserAccept LexerTheorems LexerTheorems3 RoundSpec Exact4 Round14.
Local Open Scope nat_scope.
Import ListNotations.

Lemma last_some c t : block c t -> block_last_stmt t <> None -> exists l z, t = Nd KBlock [vector l; some z].
Proof. intros B H. inversion B as [l z L A Z]; subst. destruct Z as [|z Z]; [now destruct H|eauto]. Qed.
Lemma exactly c source t e : cfg_ok c -> has_luau c = false ->
  (parse c source = Done (inl (mkAst t e)) <->
   block c t /\ (tokenize c source = Done (map LOk (printed t ++ [e])) \/
     exists l z y, t = Nd KBlock [vector l; some z] /\ last_line c y /\ tokenize c source = Done (map LOk (printed t ++ printed y ++ [e])))).
Proof.
  intros C L. split.
  - intros P. destruct (accepted_exactly c source _ C L P) as (B & R & T & [->|(H & y & Y & ->)]); cbn [a_nodes a_eof app] in *; (split; [assumption|]); [now left|].
    right. destruct (last_some c t B H) as (l & z & E). eauto 6.
  - intros (B & [T|(l & z & y & -> & Y & T)]); [now apply (round_trip c source (printed t))|]. now apply (round_trip_then c source l z y e).
Qed.
Lemma exactly_accepted c source : cfg_ok c -> has_luau c = false ->
  ((exists a, parse c source = Done (inl a)) <->
   exists t e, block c t /\ (tokenize c source = Done (map LOk (printed t ++ [e])) \/
     exists l z y, t = Nd KBlock [vector l; some z] /\ last_line c y /\ tokenize c source = Done (map LOk (printed t ++ printed y ++ [e])))).
Proof.
  intros C L. split.
  - intros ([t e] & P). exists t, e. now apply exactly.
  - intros (t & e & H). exists (mkAst t e). now apply exactly.
Qed.
