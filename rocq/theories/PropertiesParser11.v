(** C56, C57: where the errors of a parse point, and which errors of the lexer it holds. Specification vocabulary: ErrorSpec.v. *)
From Verif Require Import LexerSpec PunctuatedProofs.
From Verif Require Import TokenSpec ParserTheorems ErrorSpec Errors1 Errors2 Ranges5 PropertiesParser1.
Local Open Scope nat_scope.
Import ListNotations.

(** ** C56. Every error of the parser is about a token of the source, or about one that the parser has put in for a missing one;
    its range begins where such a token begins and ends where such a token ends. *)
Theorem C56_tokens : forall c source r rs, tokenize c source = Done rs -> parse_fallible c source = Done r ->
  Forall (points_at (fun x => In x (refs_of rs) \/ inserted c x)) (ar_errors r).
Proof. intros c source r rs. exact (errors_own c source r rs). Qed.
Print Assumptions C56_tokens.
(** The tokens of a source, also of a broken one, are where they say (C03 says more, of sources without lexical errors). *)
Theorem C56_places : forall c source rs x, tokenize c source = Done rs -> In x (refs_of rs) ->
  stretch source (t_start (r_token x)) (t_end (r_token x)).
Proof. exact ref_place. Qed.
Print Assumptions C56_places.
(** Hence the ranges of the errors of both kinds begin and end in the source, but for those that take an end from a token put in. *)
Theorem C56_start : forall c source r rs e, cfg_ok c -> tokenize c source = Done rs -> parse_fallible c source = Done r -> In e (ar_errors r) ->
  (exists a d, source = a ++ d /\ fst (error_range e) = pos_of a) \/ (exists x, inserted c x /\ fst (error_range e) = t_start (r_token x)).
Proof. exact error_start. Qed.
Print Assumptions C56_start.
Theorem C56_end : forall c source r rs e, cfg_ok c -> tokenize c source = Done rs -> parse_fallible c source = Done r -> In e (ar_errors r) ->
  (exists a d, source = a ++ d /\ snd (error_range e) = pos_of a) \/ (exists x, inserted c x /\ snd (error_range e) = t_end (r_token x)).
Proof. exact error_end. Qed.
Print Assumptions C56_end.

(** A range that takes no end from a token put in is a stretch of the source: it begins at or before its end. Missing: sources with [elseif],
    for which C55 gives the order of the tokens of a tree only up to a permutation. *)
Theorem C56_stretch_partial : forall c source r rs e, cfg_ok c -> tokenize c source = Done rs -> parse_fallible c source = Done r ->
  Forall (fun t => is_symbol t SElseIf = false) (refs_of rs) -> In e (ar_errors r) ->
  stretch source (fst (error_range e)) (snd (error_range e)) \/
  (exists x, inserted c x /\ (fst (error_range e) = t_start (r_token x) \/ snd (error_range e) = t_end (r_token x))).
Proof. exact error_stretch. Qed.
Print Assumptions C56_stretch_partial.
(** The bracket that is missing is reported for the bytes 17 to 23, from the open bracket to the last token of the key. *)
Example C56_example_stretch : exists r rs t msg p q, tokenize cfg_lua51 (str "local t = f(x, { [a + 1") = Done rs /\ parse_fallible cfg_lua51 (str "local t = f(x, { [a + 1") = Done r /\
  Forall (fun t => is_symbol t SElseIf = false) (refs_of rs) /\ In (AstError t msg (Some (p, q))) (ar_errors r) /\ p_bytes p = 17%N /\ p_bytes q = 23%N.
Proof.
  do 6 eexists. split; [vm_compute; reflexivity|]. split; [vm_compute; reflexivity|]. split; [repeat constructor|]. split; [left; reflexivity|]. split; reflexivity.
Qed.

(** A source with errors of both kinds, one of them with a range of its own. *)
Definition ex_errors : text := str "local a = = $ 'x" ++ [c_nl] ++ str "while a do f(" ++ [c_nl].
Example C56_example : exists r rs, tokenize cfg_lua51 ex_errors = Done rs /\ parse_fallible cfg_lua51 ex_errors = Done r /\
  (exists e, In (TokenizerError e) (ar_errors r)) /\ (exists t msg, In (AstError t msg None) (ar_errors r)) /\ (exists t msg p q, In (AstError t msg (Some (p, q))) (ar_errors r)).
Proof. do 2 eexists. split; [vm_compute; reflexivity|]. split; [vm_compute; reflexivity|]. split; [eexists; vm_compute; tauto|]. split; [do 2 eexists; vm_compute; tauto|do 4 eexists; vm_compute; tauto]. Qed.

(** ** Ranges of errors are not always ranges. *)
(** Two blocks without [end]: the error about the outer one goes from byte 11 to byte 3, because the [end] that is put in for the inner one
    says that it is at the bytes 0 to 3. *)
Theorem C56_range_refuted : exists r e, parse_fallible cfg_lua51 (str "while a do while b do c()") = Done r /\ In e (ar_errors r) /\
  p_bytes (fst (error_range e)) = 11%N /\ p_bytes (snd (error_range e)) = 3%N.
Proof. do 2 eexists. split; [vm_compute; reflexivity|]. split; [right; left; reflexivity|]. split; reflexivity. Qed.
Print Assumptions C56_range_refuted.
(** lib.rs:102: "phantom tokens will have a null position". The [end] above has the positions of a token at the beginning of a file. *)
Theorem C56_phantom_refuted : exists x, basic_symbol (c_feat cfg_lua51) (str "end") = Done x /\
  r_token x = mkToken (mkPos 0%N 1%N 1%N) (mkPos 3%N 1%N 4%N) (TSymbol SEnd) /\
  exists r, parse_fallible cfg_lua51 (str "while a do while b do c()") = Done r /\ In x (printed (a_nodes (ar_ast r))).
Proof. eexists. split; [vm_compute; reflexivity|]. split; [reflexivity|]. eexists. split; [vm_compute; reflexivity|]. vm_compute. tauto. Qed.
Print Assumptions C56_phantom_refuted.
(** lib.rs:100-101: "[if x == 2 code()] will produce a phantom [then] token in order to produce a usable If struct". There is no [If]. *)
Theorem C56_then_refuted : exists r, parse_fallible cfg_lua51 (str "if x == 2 code()") = Done r /\ display_ast (ar_ast r) = str "code()".
Proof. eexists. split; vm_compute; reflexivity. Qed.
Print Assumptions C56_then_refuted.
(** An error about a token that is not in the source: the name that is put in for the missing one. *)
Theorem C56_token_refuted : exists r rs t msg, tokenize cfg_luau (str "type A<T..., 1> = T") = Done rs /\ parse_fallible cfg_luau (str "type A<T..., 1> = T") = Done r /\
  In (AstError t msg None) (ar_errors r) /\ show_token t = str "%error-id%" /\ ~ In t (map r_token (refs_of rs)).
Proof.
  do 4 eexists. split; [vm_compute; reflexivity|]. split; [vm_compute; reflexivity|]. split; [right; left; reflexivity|]. split; [reflexivity|].
  vm_compute. intros H. repeat (destruct H as [H|H]; [discriminate H|]). exact H.
Qed.
Print Assumptions C56_token_refuted.
(** lib.rs:41: "AstError: ... but tokenizing must have succeeded". Both kinds occur together. *)
Theorem C56_kinds_refuted : exists r t msg o e, parse_fallible cfg_lua51 (str "x = $") = Done r /\ ar_errors r = [AstError t msg o; TokenizerError e].
Proof. do 5 eexists. split; vm_compute; reflexivity. Qed.
Print Assumptions C56_kinds_refuted.

(** ** C57. The errors of the lexer that a parse reports are those of the lexer: all of them, each once, in their order. *)
Theorem C57_lexical : forall c source r rs, cfg_ok c -> tokenize c source = Done rs -> parse_fallible c source = Done r ->
  lexical (ar_errors r) = all_errors rs.
Proof. intros c source r rs K T P. exact (lexical_exact c source rs r K T P). Qed.
Print Assumptions C57_lexical.
Example C57_example : exists r rs, tokenize cfg_lua51 ex_errors = Done rs /\ parse_fallible cfg_lua51 ex_errors = Done r /\ List.length (all_errors rs) = 2 /\ 4 < List.length (ar_errors r).
Proof. do 2 eexists. split; [vm_compute; reflexivity|]. split; [vm_compute; reflexivity|]. split; [reflexivity|apply PeanoNat.Nat.ltb_lt; reflexivity]. Qed.
