(** Facts about the sources whose tokens are all in their tree, in every dialect: text, positions, ranges, operators. *)
From Verif Require Import PunctuatedProofs LexerSpec LexerTheorems3 TokenSpec TokenTheorems.
From Verif Require Import NodeProofs PrintProofs VisitTheorems VisitTyped UpdateProofs VisitEvents RangeProofs.
From Verif Require Import ParserTheorems ParserAccept Precedence GrammarAccept.
From Verif Require Sound9 Kept1.
From Coq Require Import Lia.
Local Open Scope nat_scope.
Import ListNotations.

Lemma kept_text c source a : cfg_ok c -> parse c source = Done (inl a) -> tokenize c source = Done (map LOk (printed (a_nodes a) ++ [a_eof a])) ->
  shebang_kept source (map LOk (printed (a_nodes a) ++ [a_eof a])) -> display_ast a = source.
Proof.
  intros K P T S. rewrite <- (lexing_lossless c source _ T); [|exact (ok_is_clean _ _ _ _ K T P)|assumption].
  unfold print_refs, display_ast, display. rewrite refs_of_oks, flat_map_app. cbn [flat_map]. now rewrite app_nil_r.
Qed.
Lemma kept_tiles c source a : cfg_ok c -> parse c source = Done (inl a) -> tokenize c source = Done (map LOk (printed (a_nodes a) ++ [a_eof a])) ->
  shebang_kept source (map LOk (printed (a_nodes a) ++ [a_eof a])) ->
  forall x t y, ast_tokens a = x ++ t :: y -> t_start t = pos_of (print_tokens x) /\ t_end t = end_of (print_tokens x) (show_token t).
Proof.
  intros K P T S x t y E.
  destruct (positions_match c source _ T (ok_is_clean _ _ _ _ K T P) S x t (y ++ flat_map ref_tokens [a_eof a])) as (rest & _ & H); [|exact H].
  rewrite tokens_of_oks, flat_map_app. unfold ast_tokens in E. now rewrite E, <- app_assoc.
Qed.
Lemma kept_update c source a : cfg_ok c -> parse c source = Done (inl a) -> tokenize c source = Done (map LOk (printed (a_nodes a) ++ [a_eof a])) ->
  shebang_kept source (map LOk (printed (a_nodes a) ++ [a_eof a])) ->
  printed (a_nodes (update_positions a)) = printed (a_nodes a) /\ a_eof (update_positions a) = a_eof a /\ (aligned (a_nodes a) = true -> update_positions a = a).
Proof.
  intros K P T S. pose proof (kept_tiles c source a K P T S) as Q.
  assert (W : well_typed (a_nodes a)).
  { unfold parse in P. destruct (parse_fallible c source) as [r| |] eqn:F; try discriminate. injection P as P. apply into_result_exact in P as [_ ->].
    exists (YNode NBlock). now apply (parsed_well_typed c source). }
  split; [|split; [apply update_eof|intros Al; now apply update_fixed]].
  rewrite update_printed by assumption. apply retimed_refs_inj. apply (retimed_fixed _ []). exact Q.
Qed.
Lemma kept_node c source a u : cfg_ok c -> parse c source = Done (inl a) -> tokenize c source = Done (map LOk (printed (a_nodes a) ++ [a_eof a])) ->
  shebang_kept source (map LOk (printed (a_nodes a) ++ [a_eof a])) ->
  within u (a_nodes a) -> well_typed u /\ every filled_node u = true /\ fitting u = true /\ in_source_order (printed u).
Proof.
  intros K P T S W. pose proof (kept_tiles c source a K P T S) as Q.
  unfold parse in P. destruct (parse_fallible c source) as [r| |] eqn:F; try discriminate. injection P as P. apply into_result_exact in P as [_ ->].
  pose proof (parsed_well_typed _ _ _ K F) as Ty. pose proof (parsed_fitting _ _ _ K F) as Ft. pose proof (parsed_filled _ _ _ K F) as Fi.
  destruct (within_typed _ _ W _ Ty Ft) as [A B]. split; [exact A|]. split; [now apply (every_within _ _ _ W)|]. split; [now apply (every_within _ _ _ W)|].
  apply (sub_ordered _ _ B), tiles_ordered, Q.
Qed.
Lemma kept_start c source a k cs r l : cfg_ok c -> parse c source = Done (inl a) -> tokenize c source = Done (map LOk (printed (a_nodes a) ++ [a_eof a])) ->
  shebang_kept source (map LOk (printed (a_nodes a) ++ [a_eof a])) ->
  within (Nd k cs) (a_nodes a) -> printed (Nd k cs) = r :: l -> start_position (Nd k cs) = Some (t_start (r_token r)).
Proof. intros K P T S W E. destruct (kept_node _ _ _ _ K P T S W) as (A & B & C & D). now apply (node_start k cs r l). Qed.
Lemma kept_end c source a k cs r l : cfg_ok c -> parse c source = Done (inl a) -> tokenize c source = Done (map LOk (printed (a_nodes a) ++ [a_eof a])) ->
  shebang_kept source (map LOk (printed (a_nodes a) ++ [a_eof a])) ->
  within (Nd k cs) (a_nodes a) -> closed (Nd k cs) = true -> printed (Nd k cs) = l ++ [r] -> end_position (Nd k cs) = Some (t_end (r_token r)).
Proof. intros K P T S W X E. destruct (kept_node _ _ _ _ K P T S W) as (A & B & C & D). now apply (node_end k cs r l). Qed.

Lemma kept_precedence c source a : cfg_ok c -> has_luau c = true -> has_lua52 c = false -> has_luajit c = false ->
  parse c source = Done (inl a) -> tokenize c source = Done (map LOk (printed (a_nodes a) ++ [a_eof a])) ->
  every precedence_node (a_nodes a) = true /\ every known_operator (a_nodes a) = true.
Proof.
  intros K L F J P T. split.
  - destruct a as [t e]. exact (Kept1.pr_block c t (Sound9.accepted_luau c source t e K (conj L (conj F J)) T P)).
  - unfold parse in P. destruct (parse_fallible c source) as [r| |] eqn:X; try discriminate. injection P as P. apply into_result_exact in P as [_ ->].
    eapply every_impl; [|exact (parsed_dialect _ _ _ K X)]. cbn. intros k cs H. destruct k; try reflexivity. destruct s; try discriminate H; reflexivity.
Qed.
Lemma kept_unique c source a e e' : cfg_ok c -> has_luau c = true -> has_lua52 c = false -> has_luajit c = false ->
  parse c source = Done (inl a) -> tokenize c source = Done (map LOk (printed (a_nodes a) ++ [a_eof a])) -> within e (a_nodes a) ->
  wt e (YNode NExpression) = true -> wt e' (YNode NExpression) = true -> every precedence_node e' = true -> every known_operator e' = true -> flatten e' = flatten e -> e' = e.
Proof.
  intros K L F J P T W T1 T2 Pr Kn E. destruct (kept_precedence c source a K L F J P T) as [A B]. apply precedence_unique; try assumption; eapply every_within; eassumption.
Qed.
