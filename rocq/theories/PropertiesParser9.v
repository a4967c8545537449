(** C53: a tree of the tree grammar, printed and parsed again. Specification vocabulary: RoundSpec.v (which trees), ScanSpec.v (which texts),
    ReprintSpec.v (trivia, equality up to positions). *)
From Verif Require Import LexerSpec PunctuatedProofs.
From Verif Require Import TokenSpec ParserTheorems ParserAccept RoundSpec Round13 ReprintSpec Scan5 Reprint1 Reprint2 PropertiesParser1 PropertiesParser5 PropertiesLexer5.
Local Open Scope nat_scope.
Import ListNotations.

(** ** C53. Let the tokens of a tree, with their trivia, be the tokens of the text it prints. Then this text is accepted, with the same
    tree: the same nodes with the same tokens at the same places. *)
Theorem C53_print_parse : forall c t e, cfg_ok c -> block c t -> Forall proper (printed t ++ [e]) -> attached part_of_string (printed t ++ [e]) ->
  file c (types_of (printed t ++ [e])) (display_ast (mkAst t e)) ->
  exists t' e', parse c (display_ast (mkAst t e)) = Done (inl (mkAst t' e')) /\ alike same_token t t' /\ same_token e e'.
Proof. exact print_parse. Qed.
Print Assumptions C53_print_parse.
(** If trivia is attached by the rule of the lexer (C06), the trivia is the same too, and the text. *)
Theorem C53_trivia : forall c t e, cfg_ok c -> block c t -> Forall proper (printed t ++ [e]) -> attached (fun _ => True) (printed t ++ [e]) ->
  file c (types_of (printed t ++ [e])) (display_ast (mkAst t e)) ->
  exists t' e', parse c (display_ast (mkAst t e)) = Done (inl (mkAst t' e')) /\ alike same_with_trivia t t' /\ same_with_trivia e e' /\
    display_ast (mkAst t' e') = display_ast (mkAst t e).
Proof. exact print_parse_trivia. Qed.
Print Assumptions C53_trivia.
(** If the positions are right as well, the result is the very tree. *)
Theorem C53_fixed : forall c t e, cfg_ok c -> block c t -> Forall proper (printed t ++ [e]) -> attached (fun _ => True) (printed t ++ [e]) ->
  file c (types_of (printed t ++ [e])) (display_ast (mkAst t e)) ->
  (forall x tok y, flat_map ref_tokens (printed t ++ [e]) = x ++ tok :: y ->
    t_start tok = pos_of (print_tokens x) /\ t_end tok = end_of (print_tokens x) (show_token tok)) ->
  parse c (display_ast (mkAst t e)) = Done (inl (mkAst t e)).
Proof. exact print_parse_fixed. Qed.
Print Assumptions C53_fixed.

(** Without interpolated strings only the tokens count, not the trivia: it is enough that the text is read as the tokens of the tree. *)
Theorem C53_tokens : forall c t ts source, cfg_ok c -> block c t -> (forall r, In r (printed t) -> ~ part_of_string r) ->
  file c ts source -> mains ts = main_types (printed t) ++ [TEof] ->
  exists t' e', parse c source = Done (inl (mkAst t' e')) /\ alike same_token t t'.
Proof. exact tokens_parse. Qed.
Print Assumptions C53_tokens.

(** A tree without positions, as programs make it. *)
Definition unplaced_token (t : token) : token := mkToken pos0 pos0 (t_type t).
Definition unplaced (r : tokref) : tokref := mkRef (map unplaced_token (r_leading r)) (unplaced_token (r_token r)) (map unplaced_token (r_trailing r)).
Definition unplaced_ast (a : ast) : ast := mkAst (map_tokens unplaced (a_nodes a)) (unplaced (a_eof a)).
Definition the_ast (c : cfg) (s : text) : ast := match parse c s with Done (inl a) => a | _ => mkAst none end_of_file end.
Ltac unplaced_tree c s :=
  let a := eval vm_compute in (unplaced_ast (the_ast c s)) in let t := eval cbn in (a_nodes a) in let e := eval cbn in (a_eof a) in exists t, e.
Ltac reprinted := split; [apply configurations|]; split; [tree_in|]; split; [apply check_sound; vm_compute; reflexivity|]; split; [apply check_sound; vm_compute; reflexivity|];
  apply lexed_file; [apply configurations|vm_compute; reflexivity|intros x r K; vm_compute in K; injection K as <- _; reflexivity].
Example C53_lua : exists t e, cfg_ok cfg_lua51 /\ block cfg_lua51 t /\ Forall proper (printed t ++ [e]) /\ attached (fun _ => True) (printed t ++ [e]) /\
  file cfg_lua51 (types_of (printed t ++ [e])) (display_ast (mkAst t e)).
Proof. unplaced_tree cfg_lua51 lua_source. reprinted. Qed.
Example C53_luau : exists t e, cfg_ok cfg_luau /\ block cfg_luau t /\ Forall proper (printed t ++ [e]) /\ attached (fun _ => True) (printed t ++ [e]) /\
  file cfg_luau (types_of (printed t ++ [e])) (display_ast (mkAst t e)).
Proof. unplaced_tree cfg_luau luau_source. reprinted. Qed.

Example C53_tokens_lua : exists t ts source, block cfg_lua51 t /\ (forall r, In r (printed t) -> ~ part_of_string r) /\ file cfg_lua51 ts source /\ mains ts = main_types (printed t) ++ [TEof] /\ display t <> source.
Proof.
  let a := eval vm_compute in (a_nodes (unplaced_ast (the_ast cfg_lua51 (str "x = f(a) -- c")))) in exists a. exists [TIdentifier (str "x"); TSymbol SEqual; TIdentifier (str "f"); TSymbol SLeftParen; TIdentifier (str "a"); TSymbol SRightParen; TEof], (str "x=f(a)").
  split; [tree_in|]. split; [vm_compute; intros r I (w & k & E); intuition (subst; discriminate)|]. split; [|split; [vm_compute; reflexivity|vm_compute; discriminate]].
  apply lexed_file; [apply configurations|vm_compute; reflexivity|intros x r K; vm_compute in K; injection K as <- _; reflexivity].
Qed.

(** The hypothesis about the text is needed: without the space [a - -b] prints as [a--b], and the tree loses its operand. *)
Definition no_trivia (r : tokref) : tokref := mkRef [] (r_token r) [].
Ltac bare_tree c s := let a := eval vm_compute in (map_tokens no_trivia (a_nodes (the_ast c s))) in exists a, end_of_file.
Theorem C53_spaces_refuted : exists t e t' e', block cfg_lua51 t /\ Forall proper (printed t ++ [e]) /\ attached (fun _ => True) (printed t ++ [e]) /\
  parse cfg_lua51 (display_ast (mkAst t e)) = Done (inl (mkAst t' e')) /\ ~ alike same_token t t'.
Proof.
  bare_tree cfg_lua51 (str "x=a- -b"). do 2 eexists. split; [tree_in|]. split; [apply check_sound; vm_compute; reflexivity|]. split; [apply check_sound; vm_compute; reflexivity|].
  split; [vm_compute; reflexivity|]. intros A. apply alike_printed in A. apply forall2_length in A. vm_compute in A. discriminate A.
Qed.
Print Assumptions C53_spaces_refuted.
(** Nor is every text accepted: [1 .. 2] becomes the malformed number [1..2]. *)
Theorem C53_dots_refuted : exists t e es, block cfg_lua51 t /\ Forall proper (printed t ++ [e]) /\ attached (fun _ => True) (printed t ++ [e]) /\
  parse cfg_lua51 (display_ast (mkAst t e)) = Done (inr es).
Proof.
  bare_tree cfg_lua51 (str "x=1 ..2"). eexists. split; [tree_in|]. split; [apply check_sound; vm_compute; reflexivity|]. split; [apply check_sound; vm_compute; reflexivity|].
  vm_compute. reflexivity.
Qed.
Print Assumptions C53_dots_refuted.
