(** C50: versions that have more accept what others accept. Specification vocabulary: VersionSpec.v. *)
From Verif Require Import LexerSpec PunctuatedProofs.
From Verif Require Import TokenSpec ParserTheorems ParserAccept GrammarAccept VersionSpec Version2 PropertiesParser1 PropertiesParser4 PropertiesParser5.
Local Open Scope nat_scope.
Import ListNotations.

(** ** C50. With the same tokens the same tree. *)
Theorem C50_versions : forall c c' source a, cfg_ok c -> cfg_ok c' -> has_luau c = false -> extends c c' ->
  tokenize c' source = tokenize c source -> parse c source = Done (inl a) -> parse c' source = Done (inl a).
Proof. exact parse_extends. Qed.
Print Assumptions C50_versions.
(** New words and operators change the tokens: what is a name in Lua 5.1 is a keyword in Lua 5.2. *)
Theorem C50_same_tokens_refuted : exists source a es, extends cfg_lua51 cfg_lua54 /\
  parse cfg_lua51 source = Done (inl a) /\ parse cfg_lua54 source = Done (inr es) /\ es <> [].
Proof.
  exists (str "goto = 1"). do 2 eexists. split; [now repeat split|]. split; [vm_compute; reflexivity|]. split; [vm_compute; reflexivity|discriminate].
Qed.
Print Assumptions C50_same_tokens_refuted.
(** Luau gives another tree for the same tokens: a parameter list that ends in dots gets one more type specifier, the missing one of the dots. *)
Theorem C50_luau_refuted : exists source a a', tokenize cfg_luau source = tokenize cfg_lua51 source /\
  parse cfg_lua51 source = Done (inl a) /\ parse cfg_luau source = Done (inl a') /\ a <> a'.
Proof.
  exists (str "local function f(...) end"). do 2 eexists. split; [vm_compute; reflexivity|]. split; [vm_compute; reflexivity|].
  split; [vm_compute; reflexivity|discriminate].
Qed.
Print Assumptions C50_luau_refuted.

Example C50_example : exists a, cfg_ok cfg_lua51 /\ cfg_ok cfg_lua54 /\ extends cfg_lua51 cfg_lua54 /\
  tokenize cfg_lua54 lua_source = tokenize cfg_lua51 lua_source /\ parse cfg_lua51 lua_source = Done (inl a).
Proof.
  eexists. split; [apply configurations|]. split; [apply configurations|]. split; [now repeat split|]. split; vm_compute; reflexivity.
Qed.
