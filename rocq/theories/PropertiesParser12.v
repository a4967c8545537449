(** C58: in Luau, what the parser accepts without dropping a token is exactly what the tree grammar of RoundSpec.v describes.
    Specification vocabulary: RoundSpec.v. *)
From Verif Require Import LexerSpec PunctuatedProofs.
From Verif Require Import TokenSpec ParserTheorems ParserAccept Sound9 Round14 RoundSpec Exact4 Exact5 PropertiesParser5 PropertiesParser6.
Local Open Scope nat_scope.
Import ListNotations.

(** ** C58. The tree and the end of the file make up the tokens. *)
Theorem C58_exact : forall c source t e, cfg_ok c -> has_luau c = true -> has_lua52 c = false -> has_luajit c = false ->
  tokenize c source = Done (map LOk (printed t ++ [e])) ->
  (parse c source = Done (inl (mkAst t e)) <-> block c t).
Proof.
  intros c source t e C L F J T. split; [intros P; exact (accepted_luau c source t e C (conj L (conj F J)) T P)|intros B; exact (C48_round_trip c source t e C T B)].
Qed.
Print Assumptions C58_exact.
(** Which sources are accepted with all their tokens. *)
Theorem C58_accepted : forall c source, cfg_ok c -> has_luau c = true -> has_lua52 c = false -> has_luajit c = false ->
  ((exists a, parse c source = Done (inl a) /\ tokenize c source = Done (map LOk (printed (a_nodes a) ++ [a_eof a]))) <->
   exists t e, block c t /\ tokenize c source = Done (map LOk (printed t ++ [e]))).
Proof.
  intros c source C L F J. split.
  - intros ([t e] & P & T). exists t, e. split; [apply (C58_exact c source t e C L F J T); exact P|exact T].
  - intros (t & e & B & T). exists (mkAst t e). split; [now apply (C58_exact c source t e C L F J T)|exact T].
Qed.
Print Assumptions C58_accepted.
(** A source is rejected, or some of its tokens are not in its tree, if no tree of the grammar has its tokens. *)
Theorem C58_rejected : forall c source rs e, cfg_ok c -> has_luau c = true -> has_lua52 c = false -> has_luajit c = false ->
  tokenize c source = Done (map LOk (rs ++ [e])) -> (forall t, block c t -> printed t <> rs) ->
  forall a, parse c source = Done (inl a) -> printed (a_nodes a) ++ [a_eof a] <> rs ++ [e].
Proof.
  intros c source rs e C L F J T N [t e'] P X. cbn [a_nodes a_eof] in X. apply app_inj_tail in X as (<- & ->). exact (N t (proj1 (C58_exact c source t e C L F J T) P) eq_refl).
Qed.
Print Assumptions C58_rejected.

Example C58_example : has_luau cfg_luau = true /\ has_lua52 cfg_luau = false /\ has_luajit cfg_luau = false /\
  exists t e, tokenize cfg_luau luau_source = Done (map LOk (printed t ++ [e])) /\ block cfg_luau t.
Proof. repeat split. parsed_tree cfg_luau luau_source. split; [vm_compute; reflexivity|tree_in]. Qed.

(** *** What the grammar shows about the accepted programs. *)
Definition takes (s : string) : bool := match parse cfg_luau (str s) with Done (inl _) => true | _ => false end.
(** FINDING: a type that can be written after a name need not be accepted as the type of a result: a leading | or & is not. *)
Theorem C58_results_refuted : exists t, takes ("local x: " ++ t) = true /\ takes ("local function f(): " ++ t ++ " end") = false /\ takes ("type A = B<" ++ t ++ ">") = false.
Proof. exists "| A | B"%string. now vm_compute. Qed.
Print Assumptions C58_results_refuted.
(** FINDING: a cast can be compared with < or not, depending on the type. *)
Theorem C58_casts_refuted : exists t u, takes ("local x = y :: " ++ t ++ " < 3") = true /\ takes ("local x = y :: " ++ u ++ " < 3") = false /\
  takes ("local x = y :: " ++ t ++ " <= 3") = true /\ takes ("local x = y :: " ++ u ++ " <= 3") = true.
Proof. exists "nil"%string, "T"%string. now vm_compute. Qed.
Print Assumptions C58_casts_refuted.
(** FINDING: an expression can be cast twice after an operator only. *)
Theorem C58_two_casts_refuted : exists e, takes ("local x = " ++ e) = false /\ takes ("local x = -" ++ e) = true /\ takes ("local x = if a then b else " ++ e) = true.
Proof. exists "y :: T :: U"%string. now vm_compute. Qed.
Print Assumptions C58_two_casts_refuted.
(** FINDING: programs that are not Luau are accepted: a pack in parentheses as a type, a pack in a union, a string in a hole of a string, and assignments
    to a type instantiation and to parentheses. *)
Theorem C58_accepted_refuted :
  takes "type A = (T...)" = true /\ takes "type A = () -> (...T) | X" = true /\ takes "local x = `{a `b` c}`" = true /\ takes "f<<T>> = 1" = true /\ takes "(e) = 1" = true /\ takes "local x in y" = true.
Proof. now vm_compute. Qed.
Print Assumptions C58_accepted_refuted.
(** They are trees of the grammar. *)
Example C58_hole : exists t e, block cfg_luau t /\ tokenize cfg_luau (str "local x = -y :: T :: nil < 3, `{a `b` c}`") = Done (map LOk (printed t ++ [e])).
Proof.
  parsed_tree cfg_luau (str "local x = -y :: T :: nil < 3, `{a `b` c}`"). split; [tree_in|vm_compute; reflexivity].
Qed.
(** Without the hypothesis on the tokens: a token is dropped. *)
Example C58_dropped : exists t e, parse cfg_luau (str "type A = {read }") = Done (inl (mkAst t e)) /\ tokenize cfg_luau (str "type A = {read }") <> Done (map LOk (printed t ++ [e])).
Proof. parsed_tree cfg_luau (str "type A = {read }"). split; [vm_compute; reflexivity|vm_compute; discriminate]. Qed.
