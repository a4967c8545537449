(** Properties of the parser on words of the Lua 5.1 reference grammar. *)
From Verif Require Import PunctuatedProofs LexerSpec TokenSpec PrintProofs.
From Verif Require Import ParserTheorems PropertiesParser1 PropertiesParser2 ParserAccept GrammarAccept GrammarClear ParserComplete4.
Local Open Scope nat_scope.

(** ** C36. Every token sequence with a clear derivation is parsed without errors, and the tree has all its tokens in order. Missing: token
    sequences of the grammar all of whose derivations have a statement that begins with a parenthesis right after one that ends with a prefix
    expression; Lua 5.1 takes them for calls too. [C36_ambiguous_refuted] has one. *)
Theorem C36_tokens_partial : forall c ts e o, as_lua51 c -> clear_in lua51 [GrammarSpec.N Chunk] (terminals ts) o -> is_eof e = true ->
  exists a, parse_stream c (mkState (map LOk (ts ++ [e])) []) = Done (a, mkState [] []) /\ printed (a_nodes a) = ts /\ a_eof a = e.
Proof. exact stream_accepts_51. Qed.
Print Assumptions C36_tokens_partial.
Theorem C36_sources_partial : forall c source rs o, as_lua51 c -> tokenize c source = Done rs -> clean rs -> rs <> [] ->
  clear_in lua51 [GrammarSpec.N Chunk] (terminals (removelast (refs_of rs))) o ->
  exists a, parse c source = Done (inl a) /\ refs_of rs = printed (a_nodes a) ++ [a_eof a] /\ (shebang_kept source rs -> display_ast a = source).
Proof. exact clear_accepted_51. Qed.
Print Assumptions C36_sources_partial.
Theorem C36_clear_derives : forall g ss w o, clear_in g ss w o -> derives g ss w.
Proof. exact clear_derives. Qed.
Print Assumptions C36_clear_derives.

Definition ex_clear : text := str "local a = f (x) ; (a).b = { 1 } if a then (f)'s' end -- c
  return - a".
Definition ex_derivation : list nat := [1; 1; 1; 2; 0; 13; 0; 0; 7; 1; 0; 0; 0; 1; 0; 7; 0; 0; 0; 0; 2; 2; 7; 0; 0; 0; 8; 1; 0; 2; 3; 5; 7; 0; 0; 0; 1; 0; 1; 0; 2; 7; 0; 0; 3; 0; 1; 0; 10; 0; 7; 0; 0].
Definition refs_in (c : cfg) (source : text) : list tokref := match tokenize c source with Done rs => refs_of rs | _ => [] end.
(** [ex_clear] has a clear derivation, although statements begin with a parenthesis. *)
Example C36_example : (exists rs, tokenize cfg_lua51 ex_clear = Done rs /\ refs_of rs = refs_in cfg_lua51 ex_clear /\ clean rs /\ rs <> []) /\ as_lua51 cfg_lua51 /\
  exists o, clear_in lua51 [GrammarSpec.N Chunk] (terminals (removelast (refs_in cfg_lua51 ex_clear))) o.
Proof.
  split; [|split; [now split|]].
  - eexists. split; [vm_compute; reflexivity|]. split; [vm_compute; reflexivity|]. split; [|discriminate]. unfold clean. repeat (constructor; [eexists; reflexivity|]). constructor.
  - eexists. apply (derivation_clear lua51 200 ex_derivation). vm_compute. reflexivity.
Qed.
(** A word of the grammar that is rejected: after [a = f] the parser goes on with a call. *)
Theorem C36_ambiguous_refuted : exists source rs es, tokenize cfg_lua51 source = Done rs /\ clean rs /\ source = str "a = f (g).x = 1" /\
  derives lua51 [GrammarSpec.N Chunk] (terminals (removelast (refs_of rs))) /\ parse cfg_lua51 source = Done (inr es).
Proof.
  exists (str "a = f (g).x = 1"). eexists. eexists. split; [vm_compute; reflexivity|]. split; [|split; [reflexivity|split; [|vm_compute; reflexivity]]].
  - unfold clean. repeat (constructor; [eexists; reflexivity|]). constructor.
  - apply (derivation_derives lua51 200 [0; 1; 1; 0; 0; 0; 0; 0; 7; 0; 0; 0; 0; 2; 2; 7; 0; 0; 0; 3]). vm_compute. reflexivity.
Qed.
Print Assumptions C36_ambiguous_refuted.
