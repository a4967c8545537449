(** Properties of sources that parse without errors: losslessness, positions, operators, grammar. *)
From Verif Require Import PunctuatedProofs LexerSpec LexerTheorems3 TokenSpec TokenTheorems.
From Verif Require Import NodeProofs PrintProofs VisitTheorems VisitTyped UpdateProofs VisitEvents RangeProofs.
From Verif Require Import ParserTheorems PropertiesParser1 ParserAccept Precedence GrammarAccept GrammarFacts.
Local Open Scope nat_scope.

Definition parsed_ast (o : out (ast + list error)) : option ast := match o with Done (inl a) => Some a | _ => None end.
Definition ast_bits {A} (f : ast -> A) (c : cfg) (source : text) : option A := option_map f (parsed_ast (parse c source)).

(** ** C40, C23. Outside Luau the tokens of an accepted source are those of the tree, in order, then possibly one more last statement, then the
    end. Missing: Luau, where more is lost ([C23_luau_lossless_refuted]). *)
Theorem C40_skipped_partial : forall c source a, cfg_ok c -> has_luau c = false -> parse c source = Done (inl a) ->
  exists rs R, tokenize c source = Done rs /\ refs_of rs = printed (a_nodes a) ++ R ++ [a_eof a] /\
    (shebang_kept source rs -> source = display (a_nodes a) ++ flat_map show_ref R ++ show_ref (a_eof a)) /\
    (R = [] \/ block_last_stmt (a_nodes a) <> None /\ exists t R', R = t :: R' /\ (is_symbol t SReturn || is_symbol t SBreak) = true).
Proof. exact accepted_text. Qed.
Print Assumptions C40_skipped_partial.
(** A chunk that has no last statement is printed back. *)
Theorem C23_lossless_partial : forall c source rs a, cfg_ok c -> has_luau c = false -> parse c source = Done (inl a) -> tokenize c source = Done rs ->
  shebang_kept source rs -> block_last_stmt (a_nodes a) = None -> display_ast a = source.
Proof. exact accepted_lossless. Qed.
Print Assumptions C23_lossless_partial.
Definition ex_chunk : text := str "local a <const> = (b or c) .. 'd' --[[ e ]] goto f ::f:: a.g[1] = ~ - 2 ^ 3 // 4".
Example C23_example : ast_bits (fun a => (block_last_stmt (a_nodes a), List.length (printed (a_nodes a)))) cfg_lua54 ex_chunk = Some (None, 32) /\
  ast_bits (fun a => List.length (display_ast a)) cfg_lua54 ex_chunk = Some (List.length ex_chunk).
Proof. vm_compute. auto. Qed.
Example C40_example2 : ast_bits (fun a => List.length (printed (a_nodes a))) cfg_lua51 ex_program = Some 82 /\
  ast_bits (fun a => List.length (printed (a_nodes a))) cfg_lua51 (str "f() return a, b; return c") = Some 8.
Proof. vm_compute. auto. Qed.

(** ** C27 *)
Theorem C27_parsed_partial : forall c source rs a, cfg_ok c -> has_luau c = false -> parse c source = Done (inl a) -> tokenize c source = Done rs -> shebang_kept source rs ->
  printed (a_nodes (update_positions a)) = printed (a_nodes a) /\ a_eof (update_positions a) = a_eof a /\ (aligned (a_nodes a) = true -> update_positions a = a).
Proof. exact accepted_update. Qed.
Print Assumptions C27_parsed_partial.
Example C27_parsed_example : ast_bits (fun a => aligned (a_nodes a)) cfg_lua51 (str "return f { 1, x = 2 }") = Some true /\
  ast_bits (fun a => aligned (a_nodes a)) cfg_lua51 ex_program = Some false.
Proof. vm_compute. auto. Qed.

(** ** C28 *)
Theorem C28_precedence_partial : forall c source a, cfg_ok c -> has_luau c = false -> parse c source = Done (inl a) ->
  every precedence_node (a_nodes a) = true /\ every known_operator (a_nodes a) = true.
Proof. exact accepted_precedence. Qed.
Print Assumptions C28_precedence_partial.
Theorem C28_unique : forall e1 e2, wt e1 (YNode NExpression) = true -> wt e2 (YNode NExpression) = true ->
  every precedence_node e1 = true -> every precedence_node e2 = true -> every known_operator e1 = true -> every known_operator e2 = true ->
  flatten e1 = flatten e2 -> e1 = e2.
Proof. exact precedence_unique. Qed.
Print Assumptions C28_unique.
Theorem C28_parsed_unique_partial : forall c source a e e', cfg_ok c -> has_luau c = false -> parse c source = Done (inl a) -> within e (a_nodes a) ->
  wt e (YNode NExpression) = true -> wt e' (YNode NExpression) = true -> every precedence_node e' = true -> every known_operator e' = true ->
  flatten e' = flatten e -> e' = e.
Proof. exact accepted_unique. Qed.
Print Assumptions C28_parsed_unique_partial.
(** In Luau an operand can vanish, and with it the structure. *)
Theorem C28_luau_refuted : exists source a, parse cfg_luau source = Done (inl a) /\ every precedence_node (a_nodes a) = false.
Proof. exists (str "return - a ^ b ^ if ^ c"). eexists. split; [vm_compute; reflexivity|]. vm_compute. reflexivity. Qed.
Print Assumptions C28_luau_refuted.
Definition ex_operators : text := str "return a or b and c < d | e ~ f & g << h .. i .. j + k * - l ^ m ^ not n // o == p".
(** The operators from the outside in. *)
Fixpoint shape (e : tree) : list text :=
  match e with
  | Nd KExprBinary [l; Nd (KBinOp s) _; r] => str "(" :: shape l ++ sym_text s :: shape r ++ [str ")"]
  | Nd KExprUnary [Nd (KUnOp s) _; e] => sym_text s :: shape e
  | _ => [str "_"]
  end.
Definition returned (b : tree) : option tree :=
  match b with Nd KBlock [_; Con CSome [Con CTuple [Nd KLastReturn [Nd KReturn [_; Con CPunctuated [Con CEnd [e]]]]; _]]] => Some e | _ => None end.
Definition shape_of (c : cfg) (source : text) : option text :=
  match ast_bits (fun a => returned (a_nodes a)) c source with Some (Some e) => Some (flat_map (fun x => x) (shape e)) | _ => None end.
Example C28_example : shape_of cfg_lua54 ex_operators = Some (str "(_or(_and((_<(_|(_~(_&(_<<(_..(_..(_+((_*-(_^(_^not_)))//_)))))))))==_)))") /\
  shape_of cfg_lua51 (str "return - a ^ - b ^ c - d - (e .. f) .. g .. h") = Some (str "(((-(_^-(_^_))-_)-_)..(_.._))").
Proof. vm_compute. auto. Qed.

(** ** C33 *)
Theorem C33_parsed_start_partial : forall c source rs a k cs r l, cfg_ok c -> has_luau c = false -> parse c source = Done (inl a) -> tokenize c source = Done rs ->
  shebang_kept source rs -> within (Nd k cs) (a_nodes a) -> printed (Nd k cs) = r :: l -> start_position (Nd k cs) = Some (t_start (r_token r)).
Proof. exact accepted_start. Qed.
Print Assumptions C33_parsed_start_partial.
Theorem C33_parsed_end_partial : forall c source rs a k cs r l, cfg_ok c -> has_luau c = false -> parse c source = Done (inl a) -> tokenize c source = Done rs ->
  shebang_kept source rs -> within (Nd k cs) (a_nodes a) -> closed (Nd k cs) = true -> printed (Nd k cs) = l ++ [r] -> end_position (Nd k cs) = Some (t_end (r_token r)).
Proof. exact accepted_end. Qed.
Print Assumptions C33_parsed_end_partial.
Example C33_parsed_example : ast_bits (fun a => (closed (a_nodes a), start_position (a_nodes a), end_position (a_nodes a))) cfg_lua51 (str " f(x[1]) ") =
  Some (true, Some (pos_of (str " ")), Some (pos_of (str " f(x[1])"))).
Proof. vm_compute. reflexivity. Qed.

(** ** C35. The tokens of the tree are derivable, with variables in parentheses as the only deviation; a second last statement is the only other
    one. Missing: nothing but these two, which are refuted below. *)
Theorem C35_grammar_partial : forall c source a, cfg_ok c -> as_lua51 c -> parse c source = Done (inl a) ->
  exists rs R, tokenize c source = Done rs /\ refs_of rs = printed (a_nodes a) ++ R ++ [a_eof a] /\
    derives lua51_relaxed [GrammarSpec.N Chunk] (terminals (printed (a_nodes a))) /\
    (every strict_node (a_nodes a) = true -> derives lua51 [GrammarSpec.N Chunk] (terminals (printed (a_nodes a)))) /\
    (R = [] \/ block_last_stmt (a_nodes a) <> None /\ exists t R', R = t :: R' /\ (is_symbol t SReturn || is_symbol t SBreak) = true).
Proof. exact accepted_lua51. Qed.
Print Assumptions C35_grammar_partial.
Example C35_example : as_lua51 cfg_lua51 /\ ast_bits (fun a => every strict_node (a_nodes a)) cfg_lua51 ex_program = Some true.
Proof. split; [now split|vm_compute; reflexivity]. Qed.
(** Both deviations are real. *)
Theorem C35_grammar_refuted : exists source rs a, parse cfg_lua51 source = Done (inl a) /\ tokenize cfg_lua51 source = Done rs /\ source = str "(x) = 1" /\
  ~ derives lua51 [GrammarSpec.N Chunk] (terminals (removelast (refs_of rs))).
Proof.
  exists (str "(x) = 1"). eexists. eexists. split; [vm_compute; reflexivity|]. split; [vm_compute; reflexivity|]. split; [reflexivity|].
  intros D. apply no_call_assigned in D. vm_compute in D. discriminate D.
Qed.
Print Assumptions C35_grammar_refuted.
Theorem C35_last_refuted : exists source rs a, parse cfg_lua51 source = Done (inl a) /\ tokenize cfg_lua51 source = Done rs /\ source = str "return return" /\
  ~ derives lua51_relaxed [GrammarSpec.N Chunk] (terminals (removelast (refs_of rs))).
Proof.
  exists (str "return return"). eexists. eexists. split; [vm_compute; reflexivity|]. split; [vm_compute; reflexivity|]. split; [reflexivity|].
  intros D. apply no_two_returns in D. vm_compute in D. discriminate D.
Qed.
Print Assumptions C35_last_refuted.
(** With the cargo feature cfxlua there is more, also as Lua 5.1. *)
Theorem C35_features_refuted : exists source rs a, parse cfg_all51 source = Done (inl a) /\ tokenize cfg_all51 source = Done rs /\ source = str "a = { .b }" /\
  ~ derives lua51_relaxed [GrammarSpec.N Chunk] (terminals (removelast (refs_of rs))).
Proof.
  exists (str "a = { .b }"). eexists. eexists. split; [vm_compute; reflexivity|]. split; [vm_compute; reflexivity|]. split; [reflexivity|].
  intros D. apply no_set_constructor in D. vm_compute in D. discriminate D.
Qed.
Print Assumptions C35_features_refuted.
