(** Properties of the parser and the reference grammars of the versions after Lua 5.1. *)
From Verif Require Import PunctuatedProofs LexerSpec TokenSpec PrintProofs.
From Verif Require Import ParserTheorems PropertiesParser1 PropertiesParser2 ParserAccept GrammarAccept GrammarClear ParserComplete4 PropertiesParser3.
Local Open Scope nat_scope.

(** ** C45. In a build without the [cfxlua] feature, the tokens of the tree of an accepted source are derivable in the grammar of the version
    (Lua 5.2, 5.3, 5.4), with variables in parentheses as the only deviation; a second last statement is the only other one. Missing: nothing
    but these two, as for Lua 5.1 (C35). *)
Theorem C45_versions_partial : forall v c source a, cfg_ok c -> as_version v c -> parse c source = Done (inl a) ->
  exists rs R, tokenize c source = Done rs /\ refs_of rs = printed (a_nodes a) ++ R ++ [a_eof a] /\
    derives (relaxed (reference v)) [GrammarSpec.N Chunk] (terminals (printed (a_nodes a))) /\
    (every strict_node (a_nodes a) = true -> derives (reference v) [GrammarSpec.N Chunk] (terminals (printed (a_nodes a)))) /\
    (R = [] \/ block_last_stmt (a_nodes a) <> None /\ exists t R', R = t :: R' /\ (is_symbol t SReturn || is_symbol t SBreak) = true).
Proof. exact accepted_version. Qed.
Print Assumptions C45_versions_partial.
(** LuaJIT: the grammar of Lua 5.1 with labels and [goto]. *)
Theorem C45_luajit_partial : forall c source a, cfg_ok c -> as_luajit c -> parse c source = Done (inl a) ->
  exists rs R, tokenize c source = Done rs /\ refs_of rs = printed (a_nodes a) ++ R ++ [a_eof a] /\
    derives (relaxed luajit) [GrammarSpec.N Chunk] (terminals (printed (a_nodes a))) /\
    (every strict_node (a_nodes a) = true -> derives luajit [GrammarSpec.N Chunk] (terminals (printed (a_nodes a)))) /\
    (R = [] \/ block_last_stmt (a_nodes a) <> None /\ exists t R', R = t :: R' /\ (is_symbol t SReturn || is_symbol t SBreak) = true).
Proof. exact accepted_luajit. Qed.
Print Assumptions C45_luajit_partial.

(** Builds with all features but [cfxlua]. *)
Definition no_cfxlua : features := mkFeatures true true true true true false.
Definition cfg_in (v : version) : cfg := mkCfg no_cfxlua (match v with V52 => lv_lua52 | V53 => lv_lua53 | V54 => lv_lua54 end).
Definition cfg_jit : cfg := mkCfg no_cfxlua lv_luajit.
Example C45_example : (forall v, cfg_ok (cfg_in v) /\ as_version v (cfg_in v)) /\ cfg_ok cfg_jit /\ as_luajit cfg_jit /\
  ast_bits (fun a => every strict_node (a_nodes a)) (cfg_in V54) ex_chunk = Some true /\
  ast_bits (fun a => every strict_node (a_nodes a)) (cfg_in V53) (str "goto a; b = c // ~ d | e ::a:: while f do break; end") = Some true /\
  ast_bits (fun a => every strict_node (a_nodes a)) (cfg_in V52) (str "goto a ::a:: return b;") = Some true /\
  ast_bits (fun a => every strict_node (a_nodes a)) cfg_jit (str "goto a ::a:: return 1ULL, b;") = Some true /\
  parsed_ast (parse (cfg_in V53) ex_chunk) = None /\ parsed_ast (parse (cfg_in V52) (str "b = c // d")) = None.
Proof.
  split; [intros []; repeat split; constructor|]. split; [repeat split; constructor|]. split; [repeat split|]. vm_compute. repeat split.
Qed.

(** ** C46. The converse: token sequences with a clear derivation (see C36) in the grammar of the version, with blocks as in Lua 5.1, are parsed
    without errors, and the tree has all the tokens. Missing: the call ambiguity of C36, empty statements, and [break] before the end of a block;
    the last two are rejected ([C46_empty_refuted], [C46_break_refuted]). *)
Theorem C46_tokens_partial : forall v c ts e o, cfg_ok c -> as_version v c -> clear_in (lua51_blocks (reference v)) [GrammarSpec.N Chunk] (terminals ts) o -> is_eof e = true ->
  exists a, parse_stream c (mkState (map LOk (ts ++ [e])) []) = Done (a, mkState [] []) /\ printed (a_nodes a) = ts /\ a_eof a = e.
Proof. exact stream_accepts_version. Qed.
Print Assumptions C46_tokens_partial.
Theorem C46_sources_partial : forall v c source rs o, cfg_ok c -> as_version v c -> tokenize c source = Done rs -> clean rs -> rs <> [] ->
  clear_in (lua51_blocks (reference v)) [GrammarSpec.N Chunk] (terminals (removelast (refs_of rs))) o ->
  exists a, parse c source = Done (inl a) /\ refs_of rs = printed (a_nodes a) ++ [a_eof a] /\ (shebang_kept source rs -> display_ast a = source).
Proof. exact clear_accepted_version. Qed.
Print Assumptions C46_sources_partial.
(** LuaJIT; blocks are as in Lua 5.1 there. *)
Theorem C46_luajit_tokens_partial : forall c ts e o, as_luajit c -> clear_in luajit [GrammarSpec.N Chunk] (terminals ts) o -> is_eof e = true ->
  exists a, parse_stream c (mkState (map LOk (ts ++ [e])) []) = Done (a, mkState [] []) /\ printed (a_nodes a) = ts /\ a_eof a = e.
Proof. exact stream_accepts_jit. Qed.
Print Assumptions C46_luajit_tokens_partial.
Theorem C46_luajit_sources_partial : forall c source rs o, as_luajit c -> tokenize c source = Done rs -> clean rs -> rs <> [] ->
  clear_in luajit [GrammarSpec.N Chunk] (terminals (removelast (refs_of rs))) o ->
  exists a, parse c source = Done (inl a) /\ refs_of rs = printed (a_nodes a) ++ [a_eof a] /\ (shebang_kept source rs -> display_ast a = source).
Proof. exact clear_accepted_jit. Qed.
Print Assumptions C46_luajit_sources_partial.

Definition ex_modern : text := str "goto a; local x <const>, y = 1 & ~2 ::a:: (f)() return x".
Definition ex_jit : text := str "goto a ::a:: return x".
Example C46_example : (exists rs, tokenize (cfg_in V54) ex_modern = Done rs /\ refs_of rs = refs_in (cfg_in V54) ex_modern /\ clean rs /\ rs <> []) /\
  (exists o, clear_in (lua51_blocks (reference V54)) [GrammarSpec.N Chunk] (terminals (removelast (refs_in (cfg_in V54) ex_modern))) o) /\
  (exists rs, tokenize cfg_jit ex_jit = Done rs /\ refs_of rs = refs_in cfg_jit ex_jit /\ clean rs /\ rs <> []) /\
  exists o, clear_in luajit [GrammarSpec.N Chunk] (terminals (removelast (refs_in cfg_jit ex_jit))) o.
Proof.
  split; [|split; [|split]].
  - eexists. split; [vm_compute; reflexivity|]. split; [vm_compute; reflexivity|]. split; [|discriminate]. unfold clean. repeat (constructor; [eexists; reflexivity|]). constructor.
  - eexists. apply (derivation_clear (lua51_blocks (reference V54)) 200 [1; 1; 1; 1; 2; 0; 14; 17; 1; 0; 1; 0; 0; 9; 3; 16; 10; 3; 3; 15; 1; 0; 2; 7; 0; 0; 0; 1; 0; 7; 0; 0]). vm_compute. reflexivity.
  - eexists. split; [vm_compute; reflexivity|]. split; [vm_compute; reflexivity|]. split; [|discriminate]. unfold clean. repeat (constructor; [eexists; reflexivity|]). constructor.
  - eexists. apply (derivation_clear luajit 200 [1; 1; 1; 0; 14; 15; 1; 0; 7; 0; 0]). vm_compute. reflexivity.
Qed.
(** In the grammars of Lua 5.2 to 5.4 a semicolon alone is a statement and [break] is one like the others. full-moon rejects both. *)
Theorem C46_empty_refuted : exists source, source = str "f();; g()" /\ forall v, exists rs es, tokenize (cfg_in v) source = Done rs /\ clean rs /\
  derives (reference v) [GrammarSpec.N Chunk] (terminals (removelast (refs_of rs))) /\ parse (cfg_in v) source = Done (inr es).
Proof.
  exists (str "f();; g()"). split; [reflexivity|]. intros [].
  all: eexists; eexists; split; [vm_compute; reflexivity|]; split; [|split; [|vm_compute; reflexivity]];
    [unfold clean; repeat (constructor; [eexists; reflexivity|]); constructor|].
  1: apply (derivation_derives (reference V52) 200 [0; 1; 1; 1; 1; 0; 1; 0; 0; 0; 0; 14; 14; 1; 0; 0; 0; 0]).
  2: apply (derivation_derives (reference V53) 200 [0; 1; 1; 1; 1; 0; 1; 0; 0; 0; 0; 14; 14; 1; 0; 0; 0; 0]).
  3: apply (derivation_derives (reference V54) 200 [0; 1; 1; 1; 1; 0; 1; 0; 0; 0; 0; 14; 14; 1; 0; 0; 0; 0]).
  all: vm_compute; reflexivity.
Qed.
Print Assumptions C46_empty_refuted.
Theorem C46_break_refuted : exists source, source = str "while x do break x = 1 end" /\ forall v, exists rs es, tokenize (cfg_in v) source = Done rs /\ clean rs /\
  derives (reference v) [GrammarSpec.N Chunk] (terminals (removelast (refs_of rs))) /\ parse (cfg_in v) source = Done (inr es).
Proof.
  exists (str "while x do break x = 1 end"). split; [reflexivity|]. intros [].
  all: eexists; eexists; split; [vm_compute; reflexivity|]; split; [|split; [|vm_compute; reflexivity]];
    [unfold clean; repeat (constructor; [eexists; reflexivity|]); constructor|].
  1: apply (derivation_derives (reference V52) 200 [0; 1; 0; 3; 7; 0; 0; 0; 1; 1; 0; 15; 0; 0; 0; 0; 3]).
  2: apply (derivation_derives (reference V53) 200 [0; 1; 0; 3; 7; 0; 0; 0; 1; 1; 0; 15; 0; 0; 0; 0; 3]).
  3: apply (derivation_derives (reference V54) 200 [0; 1; 0; 3; 7; 0; 0; 0; 1; 1; 0; 15; 0; 0; 0; 0; 3]).
  all: vm_compute; reflexivity.
Qed.
Print Assumptions C46_break_refuted.
