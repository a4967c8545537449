(** C49: outside Luau, what the parser accepts is exactly what the tree grammar of RoundSpec.v describes. Specification vocabulary:
    RoundSpec.v. *)
From Verif Require Import LexerSpec PunctuatedProofs.
From Verif Require Import TokenSpec ParserTheorems ParserAccept Round14 RoundSpec Exact4 Exact5 PropertiesParser5.
Local Open Scope nat_scope.
Import ListNotations.

(** ** C49. The tree and the end of the file make up the tokens, but for one last statement after the last statement of the source (C23). *)
Theorem C49_exact : forall c source t e, cfg_ok c -> has_luau c = false ->
  (parse c source = Done (inl (mkAst t e)) <->
   block c t /\ (tokenize c source = Done (map LOk (printed t ++ [e])) \/
     exists l z y, t = Nd KBlock [vector l; some z] /\ last_line c y /\ tokenize c source = Done (map LOk (printed t ++ printed y ++ [e])))).
Proof. exact exactly. Qed.
Print Assumptions C49_exact.
(** Which sources are accepted. *)
Theorem C49_accepted : forall c source, cfg_ok c -> has_luau c = false ->
  ((exists a, parse c source = Done (inl a)) <->
   exists t e, block c t /\ (tokenize c source = Done (map LOk (printed t ++ [e])) \/
     exists l z y, t = Nd KBlock [vector l; some z] /\ last_line c y /\ tokenize c source = Done (map LOk (printed t ++ printed y ++ [e])))).
Proof. exact exactly_accepted. Qed.
Print Assumptions C49_accepted.

(** A concrete source with its tree. *)
Ltac parsed_tree c s :=
  let a := eval vm_compute in (match parse c s with Done (inl a) => a | _ => mkAst none end_of_file end) in
  let t := eval cbn in (a_nodes a) in let e := eval cbn in (a_eof a) in exists t, e.
Example C49_example : exists t e, block cfg_lua51 t /\ tokenize cfg_lua51 lua_source = Done (map LOk (printed t ++ [e])).
Proof. parsed_tree cfg_lua51 lua_source. split; [tree_in|vm_compute; reflexivity]. Qed.
Definition two_returns := str "local x <const> = 1 // 2
(f)(x);
return x, function() return end; break".
Example C49_dropped : exists t e l z y, block cfg_lua54 t /\ t = Nd KBlock [vector l; some z] /\ last_line cfg_lua54 y /\
  tokenize cfg_lua54 two_returns = Done (map LOk (printed t ++ printed y ++ [e])).
Proof.
  parsed_tree cfg_lua54 two_returns.
  let r := eval vm_compute in (match tokenize cfg_lua54 two_returns with Done l => match rev l with _ :: LOk r :: _ => r | _ => end_of_file end | _ => end_of_file end) in
  do 2 eexists; exists (Con CTuple [Nd KLastBreak [Tok r]; none]).
  split; [tree_in|]. split; [reflexivity|]. split; [tree_in|vm_compute; reflexivity].
Qed.
(** (e) = x is a tree of the grammar; a statement that goes on with the parenthesis of the next one is not. *)
Example C49_parenthesised : exists t e, block cfg_lua51 t /\ tokenize cfg_lua51 (str "(f) = 1 ; (g)()") = Done (map LOk (printed t ++ [e])).
Proof. parsed_tree cfg_lua51 (str "(f) = 1 ; (g)()"). split; [tree_in|vm_compute; reflexivity]. Qed.
Example C49_rejected : exists es, parse cfg_lua51 (str "x = f return (g) y()") = Done (inr es).
Proof. eexists. vm_compute. reflexivity. Qed.
