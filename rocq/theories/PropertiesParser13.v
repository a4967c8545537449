(** C23, C27, C28 and C33 in every dialect, Luau included, for the sources whose tokens are all in their tree. Together with the refutations for the
    other sources (PropertiesParser1.v, PropertiesParser2.v) this covers Luau. *)
From Verif Require Import PunctuatedProofs LexerSpec LexerTheorems3 TokenSpec.
From Verif Require Import NodeProofs PrintProofs VisitTheorems VisitTyped UpdateProofs VisitEvents RangeProofs.
From Verif Require Import ParserTheorems PropertiesParser1 ParserAccept Precedence GrammarAccept PropertiesParser2 Kept2.
From Verif Require PropertiesParser5.
Local Open Scope nat_scope.
Import ListNotations.

(** ** C23. A source of which no token is dropped is printed back. *)
Theorem C23_kept_partial : forall c source a, cfg_ok c -> parse c source = Done (inl a) ->
  tokenize c source = Done (map LOk (printed (a_nodes a) ++ [a_eof a])) -> shebang_kept source (map LOk (printed (a_nodes a) ++ [a_eof a])) -> display_ast a = source.
Proof. exact kept_text. Qed.
Print Assumptions C23_kept_partial.
(** ** C27. The positions of its tokens are those of its text. *)
Theorem C27_kept_partial : forall c source a, cfg_ok c -> parse c source = Done (inl a) ->
  tokenize c source = Done (map LOk (printed (a_nodes a) ++ [a_eof a])) -> shebang_kept source (map LOk (printed (a_nodes a) ++ [a_eof a])) ->
  printed (a_nodes (update_positions a)) = printed (a_nodes a) /\ a_eof (update_positions a) = a_eof a /\ (aligned (a_nodes a) = true -> update_positions a = a).
Proof. exact kept_update. Qed.
Print Assumptions C27_kept_partial.
Theorem C27_kept_tiles_partial : forall c source a, cfg_ok c -> parse c source = Done (inl a) ->
  tokenize c source = Done (map LOk (printed (a_nodes a) ++ [a_eof a])) -> shebang_kept source (map LOk (printed (a_nodes a) ++ [a_eof a])) ->
  forall x t y, ast_tokens a = x ++ t :: y -> t_start t = pos_of (print_tokens x) /\ t_end t = end_of (print_tokens x) (show_token t).
Proof. exact kept_tiles. Qed.
Print Assumptions C27_kept_tiles_partial.
(** ** C28. In Luau the operators of such a source nest by precedence, and in one way only. *)
Theorem C28_luau_partial : forall c source a, cfg_ok c -> has_luau c = true -> has_lua52 c = false -> has_luajit c = false -> parse c source = Done (inl a) ->
  tokenize c source = Done (map LOk (printed (a_nodes a) ++ [a_eof a])) ->
  every precedence_node (a_nodes a) = true /\ every known_operator (a_nodes a) = true.
Proof. exact kept_precedence. Qed.
Print Assumptions C28_luau_partial.
Theorem C28_luau_unique_partial : forall c source a e e', cfg_ok c -> has_luau c = true -> has_lua52 c = false -> has_luajit c = false -> parse c source = Done (inl a) ->
  tokenize c source = Done (map LOk (printed (a_nodes a) ++ [a_eof a])) -> within e (a_nodes a) ->
  wt e (YNode NExpression) = true -> wt e' (YNode NExpression) = true -> every precedence_node e' = true -> every known_operator e' = true ->
  flatten e' = flatten e -> e' = e.
Proof. exact kept_unique. Qed.
Print Assumptions C28_luau_unique_partial.
(** ** C33. The range of a node of such a source begins and ends at its first and last token. *)
Theorem C33_kept_start_partial : forall c source a k cs r l, cfg_ok c -> parse c source = Done (inl a) ->
  tokenize c source = Done (map LOk (printed (a_nodes a) ++ [a_eof a])) -> shebang_kept source (map LOk (printed (a_nodes a) ++ [a_eof a])) ->
  within (Nd k cs) (a_nodes a) -> printed (Nd k cs) = r :: l -> start_position (Nd k cs) = Some (t_start (r_token r)).
Proof. exact kept_start. Qed.
Print Assumptions C33_kept_start_partial.
Theorem C33_kept_end_partial : forall c source a k cs r l, cfg_ok c -> parse c source = Done (inl a) ->
  tokenize c source = Done (map LOk (printed (a_nodes a) ++ [a_eof a])) -> shebang_kept source (map LOk (printed (a_nodes a) ++ [a_eof a])) ->
  within (Nd k cs) (a_nodes a) -> closed (Nd k cs) = true -> printed (Nd k cs) = l ++ [r] -> end_position (Nd k cs) = Some (t_end (r_token r)).
Proof. exact kept_end. Qed.
Print Assumptions C33_kept_end_partial.

(** A program in which everything Luau adds occurs meets the hypotheses, and its operators nest in a way that is not the only one its tokens allow. *)
Definition luau_operators : text := str "return - a :: T ^ b ^ if c then d .. e else f or g, #h + i // j < k :: nil == `{l - m * n}`".
Example kept_luau : Forall (fun source => exists t e, parse cfg_luau source = Done (inl (mkAst t e)) /\ tokenize cfg_luau source = Done (map LOk (printed t ++ [e])) /\
  shebang_kept source (map LOk (printed t ++ [e])) /\ 20 < List.length (printed t)) [PropertiesParser5.luau_source; luau_operators].
Proof.
  assert (N : forall source rs, hd_error source <> hd_error (str "#!") -> shebang_kept source rs) by (intros source rs H (w & ->); now destruct H).
  Ltac meets s := let a := eval vm_compute in (parsed_ast (parse cfg_luau s)) in
    match a with Some (mkAst ?t ?e) => exists t, e end; split; [vm_compute; reflexivity|split; [vm_compute; reflexivity|split; [|apply Nat.ltb_lt; vm_compute; reflexivity]]].
  apply Forall_cons; [meets PropertiesParser5.luau_source|apply Forall_cons; [meets luau_operators|apply Forall_nil]]; apply N; vm_compute; discriminate.
Qed.
Example C28_luau_example : shape_of cfg_luau (str "return - a :: T ^ b ^ if c then d .. e else f or g") = Some (str "-(_^(_^_))") /\
  shape_of cfg_luau (str "return #h + i // j < k :: nil == `{l - m * n}`") = Some (str "(((#_+(_//_))<_)==_)").
Proof. vm_compute. auto. Qed.
(** A shebang line that is kept. *)
Example C23_shebang_luau : exists a, parse cfg_luau (str "#!/bin/lua" ++ nl_text ++ str "x += 1") = Done (inl a) /\
  tokenize cfg_luau (str "#!/bin/lua" ++ nl_text ++ str "x += 1") = Done (map LOk (printed (a_nodes a) ++ [a_eof a])) /\
  shebang_kept (str "#!/bin/lua" ++ nl_text ++ str "x += 1") (map LOk (printed (a_nodes a) ++ [a_eof a])).
Proof.
  let a := eval vm_compute in (parsed_ast (parse cfg_luau (str "#!/bin/lua" ++ nl_text ++ str "x += 1"))) in match a with Some ?a => exists a end.
  split; [vm_compute; reflexivity|split; [vm_compute; reflexivity|]]. intros _. eexists. eexists. eexists. split; [vm_compute; reflexivity|reflexivity].
Qed.
