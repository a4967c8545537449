(** C55: the tokens of trees, also of those returned with errors, come from the source. Specification vocabulary: OrderSpec.v. *)
From Verif Require Import LexerSpec PunctuatedProofs.
From Verif Require Import TokenSpec ParserTheorems OrderSpec Order7 PropertiesParser1.
From Coq Require Import Permutation.
Local Open Scope nat_scope.
Import ListNotations.

(** ** C55. For every source, accepted or not, and every Lua version: the tokens of the tree are, in some order, tokens of the source,
    each taken at most once, and tokens that the parser puts in for missing ones. *)
Theorem C55_tokens : forall c source r, cfg_ok c -> parse_fallible c source = Done r ->
  exists rs l, tokenize c source = Done rs /\ Permutation l (printed (a_nodes (ar_ast r)) ++ [a_eof (ar_ast r)]) /\ drawn (inserted c) l (refs_of rs).
Proof. exact tokens_drawn. Qed.
Print Assumptions C55_tokens.
(** Without [elseif] in the source: the statements are in the order of the source, and so is the last statement. *)
Theorem C55_order : forall c source r rs, cfg_ok c -> parse_fallible c source = Done r -> tokenize c source = Done rs ->
  Forall (fun t => is_symbol t SElseIf = false) (refs_of rs) ->
  exists l x, a_nodes (ar_ast r) = Nd KBlock [Con CVec l; x] /\ drawn (inserted c) (flat_map printed l ++ [a_eof (ar_ast r)]) (refs_of rs) /\
    drawn (inserted c) (printed x ++ [a_eof (ar_ast r)]) (refs_of rs).
Proof. exact order_drawn. Qed.
Print Assumptions C55_order.
(** Hence the whole tree is in order if it has no last statement. *)
Theorem C55_whole : forall c source r rs l, cfg_ok c -> parse_fallible c source = Done r -> tokenize c source = Done rs ->
  Forall (fun t => is_symbol t SElseIf = false) (refs_of rs) -> a_nodes (ar_ast r) = Nd KBlock [l; Con CNone []] ->
  drawn (inserted c) (printed (a_nodes (ar_ast r)) ++ [a_eof (ar_ast r)]) (refs_of rs).
Proof. exact whole_order_drawn. Qed.
Print Assumptions C55_whole.

(** Broken sources that meet the hypotheses; most of the tokens are kept. *)
Example C55_lua : exists r rs, parse_fallible cfg_lua51 ex_broken = Done r /\ tokenize cfg_lua51 ex_broken = Done rs /\
  Forall (fun t => is_symbol t SElseIf = false) (refs_of rs) /\ 4 < List.length (printed (a_nodes (ar_ast r))) /\ ar_errors r <> [].
Proof. do 2 eexists. split; [vm_compute; reflexivity|]. split; [vm_compute; reflexivity|]. split; [repeat constructor|]. split; [apply PeanoNat.Nat.ltb_lt; vm_compute; reflexivity|vm_compute; discriminate]. Qed.
Example C55_luau : exists r rs l, parse_fallible cfg_luau (str "local x: { read y: number = f<<T>>(a ) while x do y() local function g(a: T, ...: U return `a{b`") = Done r /\
  tokenize cfg_luau (str "local x: { read y: number = f<<T>>(a ) while x do y() local function g(a: T, ...: U return `a{b`") = Done rs /\
  Forall (fun t => is_symbol t SElseIf = false) (refs_of rs) /\ a_nodes (ar_ast r) = Nd KBlock [l; Con CNone []] /\ 4 < List.length (printed (a_nodes (ar_ast r))) /\ ar_errors r <> [].
Proof. do 3 eexists. split; [vm_compute; reflexivity|]. split; [vm_compute; reflexivity|]. split; [repeat constructor|]. split; [reflexivity|]. split; [apply PeanoNat.Nat.ltb_lt; vm_compute; reflexivity|vm_compute; discriminate]. Qed.

(** ** The order of the whole tree, refuted. *)
Definition disordered (c : cfg) (source : text) : Prop :=
  exists r rs, parse_fallible c source = Done r /\ tokenize c source = Done rs /\ misplaced rs (printed (a_nodes (ar_ast r))).
Ltac disorder i j := do 2 eexists; split; [vm_compute; reflexivity|]; split; [vm_compute; reflexivity|];
  eapply (misplaced_at _ _ i j); [vm_compute; reflexivity|vm_compute; reflexivity|vm_compute; tauto|vm_compute; tauto|vm_compute; reflexivity].
(** An unfinished [if] takes the condition of its last [elseif] as its own, parsers.rs:1063-1083: this prints [if c then elseif b then end]. *)
Theorem C55_elseif_refuted : disordered cfg_lua51 (str "if a then elseif b then elseif c").
Proof. disorder 1 1. Qed.
Print Assumptions C55_elseif_refuted.
(** Statements after the last statement are put in front of it, mod.rs:110-116. *)
Theorem C55_last_refuted : disordered cfg_lua51 (str "return 1 local x").
Proof. disorder 1 0. Qed.
Print Assumptions C55_last_refuted.
(** That is reported only when the first of the blocks has a last statement: here the only error is about the parenthesis. *)
Theorem C55_silent_refuted : disordered cfg_lua51 (str ") local a return 1 local b") /\
  exists r e, parse_fallible cfg_lua51 (str ") local a return 1 local b") = Done r /\ ar_errors r = [e] /\
    display_ast (ar_ast r) = str "local a local breturn 1 ".
Proof. split; [disorder 3 0|do 2 eexists; split; [vm_compute; reflexivity|]; split; vm_compute; reflexivity]. Qed.
Print Assumptions C55_silent_refuted.
