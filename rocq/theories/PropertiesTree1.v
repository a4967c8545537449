(** Properties of syntax trees: C18, C19, C32, C33, C34, C41. Statements only. *)
From Coq Require Import Permutation.
From Verif Require Import LexerSpec RangeProofs PunctuatedProofs.
Local Open Scope N_scope.

(** ** A tree for the examples: [local x, y = (1) -- c], as the parser builds it, with the tokens of the lexer. *)
Definition tok_n (c : cfg) (source : text) (n : nat) : tokref :=
  match tokenize c source with Done rs => nth n (refs_of rs) (mkRef [] (mkToken pos0 pos0 TEof) []) | _ => mkRef [] (mkToken pos0 pos0 TEof) [] end.
Definition none : tree := Con CNone [].
Definition ex (n : nat) : tree := Tok (tok_n cfg_lua51 (str "local x, y = (1) -- c") n).
Definition ex_paren : tree := Nd KExprParentheses [Con CSpan [ex 5; ex 7]; Nd KExprNumber [ex 6]].
Definition ex_local : tree :=
  Nd KLocalAssignment [ex 0; Con CVec [none; none]; Con CPunctuated [Con CPunct [ex 1; ex 2]; Con CEnd [ex 3]];
    Con CVec [none; none]; Con CSome [ex 4]; Con CPunctuated [Con CEnd [ex_paren]]].
Definition ex_block : tree := Nd KBlock [Con CVec [Con CTuple [Nd KStmtLocalAssignment [ex_local]; none]]; none].
Example ex_typed : well_typed ex_block /\ display ex_block = str "local x, y = (1) -- c".
Proof. split; [exists (YNode NBlock)|]; vm_compute; reflexivity. Qed.

(** [x[1]] *)
Definition ex2 (n : nat) : tree := Tok (tok_n cfg_lua51 (str "x[1]") n).
Definition ex_index : tree := Nd KIndexBrackets [Con CSpan [ex2 1; ex2 3]; Nd KExprNumber [ex2 2]].

(** C18. Any mix of [next] and [next_back] answers as a double-ended queue of the tokens would, and the tokens taken at
    both ends and those not taken yet make up the token list. *)
Theorem C18_iteration : forall t ops,
  exists os its, iter_ops ops (items t) = Done (os, its) /\ fst (deque_ops ops (leaves t)) = os.
Proof. exact iteration. Qed.
Print Assumptions C18_iteration.

Theorem C18_partition : forall t ops os its,
  iter_ops ops (items t) = Done (os, its) -> exists left, leaves t = taken_front ops os ++ left ++ taken_back ops os.
Proof. intros t ops os its H. eexists. exact (iteration_partition t ops os its H). Qed.
Print Assumptions C18_partition.

(** Taking from the front until the end gives every token once and then [None] for ever. *)
Theorem C18_exhausted : forall t n, (List.length (leaves t) <= n)%nat ->
  exists its, iter_ops (repeat Front n) (items t) = Done (map Some (leaves t) ++ repeat None (n - List.length (leaves t)), its).
Proof. exact iteration_exhausts. Qed.
Print Assumptions C18_exhausted.

Example C18_example :
  match iter_ops [Front; Back; Front; Back; Back] (items ex_block) with
  | Done (os, _) => map (option_map (fun r => show_token (r_token r))) os
  | _ => []
  end = [Some (str "local"); Some (str "1"); Some (str "x"); Some (str ")"); Some (str "(")].
Proof. vm_compute. reflexivity. Qed.

(** C19. Any history of calls on a [Punctuated] answers as the list of values beside the list of punctuation does. *)
Theorem C19_refinement : forall (A : Type) (start : list (A * option tokref)) (calls : list (call A)),
  history actual (p_from_iter (map (fun x => pair_new (fst x) (snd x)) start)) calls =
  history expected (mkAbs (map fst start) (map snd start)) calls.
Proof. intros A start calls. rewrite <- abs_from_iter. apply refines. Qed.
Print Assumptions C19_refinement.

Theorem C19_push_punctuated_panics : forall (A : Type) (s : punctuated A) v p,
  fst (p_push_punctuated s v p) = Panic <-> pairs s = [] \/ exists l w q, pairs s = l ++ [Punctuated w q].
Proof. intros A. exact push_punctuated_panics. Qed.
Print Assumptions C19_push_punctuated_panics.

Definition comma : tokref := tok_n cfg_lua51 (str "x, y") 1.
Example C19_example :
  history actual (@p_new N)
    [CPushPunctuated 1 comma; CPush 1 None; CPushPunctuated 2 comma; CLen; CPairs; CPop; CPushPunctuated 3 comma; CIter; CLast] =
    [APanic; AUnit; AUnit; ANat 2; AEntries [(1, Some comma); (2, None)]; AEntry (Some (2, None)); APanic; AValues [1]; AEntry (Some (1, Some comma))].
Proof. vm_compute. reflexivity. Qed.

(** C32. [tokens()] enumerates the printed tokens, but not in printed order when a node encloses others: both tokens of a
    span come before what they enclose. *)
Theorem C32_tokens_refuted : exists t, well_typed t /\ aligned t = true /\ leaves t <> printed t.
Proof. exists ex_paren. split; [exists (YNode NExpression); vm_compute; reflexivity|]. split; [reflexivity|]. vm_compute. congruence. Qed.
Print Assumptions C32_tokens_refuted.

Theorem C32_tokens_partial : forall t, well_typed t -> fitting t = true -> Permutation (leaves t) (printed t).
Proof. intros t [y H]. exact (leaves_printed t y H). Qed.
Print Assumptions C32_tokens_partial.

Theorem C32_tokens_order_partial : forall t, well_typed t -> every (fun k _ => negb (encloses k)) t = true -> leaves t = printed t.
Proof. intros t [y H]. exact (leaves_printed_order t y H). Qed.
Print Assumptions C32_tokens_order_partial.

Example C32_example : fitting ex_block = true /\ List.length (leaves ex_block) = 8%nat /\
  every (fun k _ => negb (encloses k)) (Nd KExprBinary [Nd KExprNumber [ex 6]; Nd (KBinOp SPlus) [ex 4]; Nd KExprNumber [ex 6]]) = true.
Proof. vm_compute. auto. Qed.

(** C33. The end of [Index::Brackets] leaves out the closing bracket. *)
Theorem C33_end_refuted : exists k cs r l,
  well_typed (Nd k cs) /\ printed (Nd k cs) = l ++ [r] /\ in_source_order (printed (Nd k cs)) /\
  end_position (Nd k cs) <> Some (t_end (r_token r)).
Proof.
  exists KIndexBrackets, [Con CSpan [ex2 1; ex2 3]; Nd KExprNumber [ex2 2]], (tok_n cfg_lua51 (str "x[1]") 3), [tok_n cfg_lua51 (str "x[1]") 1; tok_n cfg_lua51 (str "x[1]") 2].
  split; [exists (YNode NIndex); vm_compute; reflexivity|]. split; [vm_compute; reflexivity|]. split; [|vm_compute; discriminate].
  change (in_source_order (map (tok_n cfg_lua51 (str "x[1]")) [1; 2; 3]%nat)). repeat (apply ordered_cons; [repeat constructor; vm_compute; discriminate|]). apply ordered_nil.
Qed.
Print Assumptions C33_end_refuted.

(** [start_position] always is the start of the first printed token. [in_source_order] and the two conditions on lists hold
    for what the parser builds. *)
Theorem C33_start_partial : forall k cs r l,
  well_typed (Nd k cs) -> every filled_node (Nd k cs) = true -> fitting (Nd k cs) = true -> in_source_order (printed (Nd k cs)) ->
  printed (Nd k cs) = r :: l -> start_position (Nd k cs) = Some (t_start (r_token r)).
Proof. exact node_start. Qed.
Print Assumptions C33_start_partial.

(** [end_position] is the end of the last printed token, if the nodes at the right edge are not of the wrong kinds. *)
Theorem C33_end_partial : forall k cs r l,
  well_typed (Nd k cs) -> every filled_node (Nd k cs) = true -> fitting (Nd k cs) = true -> in_source_order (printed (Nd k cs)) ->
  closed (Nd k cs) = true -> printed (Nd k cs) = l ++ [r] -> end_position (Nd k cs) = Some (t_end (r_token r)).
Proof. exact node_end. Qed.
Print Assumptions C33_end_partial.

Theorem C33_empty_partial : forall k cs,
  well_typed (Nd k cs) -> every filled_node (Nd k cs) = true -> fitting (Nd k cs) = true ->
  printed (Nd k cs) = [] -> start_position (Nd k cs) = None /\ end_position (Nd k cs) = None.
Proof. intros k cs H1 H2 H3 H4. unfold start_position, end_position. rewrite (node_empty k cs H1 H2 H3 H4). split; reflexivity. Qed.
Print Assumptions C33_empty_partial.

Example C33_example : every filled_node ex_block = true /\ fitting ex_block = true /\ closed ex_block = true /\
  start_position ex_block = Some (mkPos 0 1 1) /\ end_position ex_block = Some (mkPos 16 1 17).
Proof. vm_compute. auto. Qed.
Example C33_example_order : in_source_order (printed ex_block).
Proof.
  change (in_source_order (map (tok_n cfg_lua51 (str "local x, y = (1) -- c")) [0; 1; 2; 3; 4; 5; 6; 7]%nat)).
  repeat (apply ordered_cons; [repeat constructor; vm_compute; discriminate|]). apply ordered_nil.
Qed.
Example C33_example_empty : every filled_node (Nd KBlock [Con CVec []; none]) = true /\ printed (Nd KBlock [Con CVec []; none]) = [].
Proof. vm_compute. auto. Qed.

(** C34. [similar] is an equivalence that ignores trivia and positions. Beyond the claim: it also ignores punctuation, and
    nothing else. *)
Theorem C34_reflexive : forall t, similar t t = true.
Proof. exact similar_refl. Qed.
Print Assumptions C34_reflexive.
Theorem C34_symmetric : forall a b, similar a b = similar b a.
Proof. exact similar_sym. Qed.
Print Assumptions C34_symmetric.
Theorem C34_transitive : forall a b c, similar a b = true -> similar b c = true -> similar a c = true.
Proof. exact similar_trans. Qed.
Print Assumptions C34_transitive.
Theorem C34_ignores_trivia_and_positions : forall (f : tokref -> tokref) t,
  (forall r, t_type (r_token (f r)) = t_type (r_token r)) -> similar t (map_tokens f t) = true.
Proof. exact similar_retoken. Qed.
Print Assumptions C34_ignores_trivia_and_positions.
Theorem C34_exact : forall a b, similar a b = true <-> drop_punctuation (map_tokens bare a) = drop_punctuation (map_tokens bare b).
Proof. exact similar_iff. Qed.
Print Assumptions C34_exact.

Example C34_example : similar ex_local (map_tokens bare ex_local) = true /\ similar ex_local ex_paren = false /\ map_tokens bare ex_local <> ex_local.
Proof. repeat split; vm_compute; congruence. Qed.

(** C41. For a node with one token the trailing trivia is lost. *)
Theorem C41_surrounding_trivia_refuted : exists t r,
  well_typed t /\ leaves t = [r] /\ r_trailing r <> [] /\ surrounding_trivia t <> Done (r_leading r, r_trailing r).
Proof.
  exists (Nd KExprNumber [Tok (tok_n cfg_lua51 (str "1 ") 0)]), (tok_n cfg_lua51 (str "1 ") 0).
  split; [exists (YNode NExpression); vm_compute; reflexivity|]. split; [reflexivity|]. split; vm_compute; congruence.
Qed.
Print Assumptions C41_surrounding_trivia_refuted.

Theorem C41_surrounding_trivia_partial : forall t a m b,
  leaves t = a :: m ++ [b] -> surrounding_trivia t = Done (r_leading a, r_trailing b).
Proof. intros t a m b. exact (surrounding_two t a b m). Qed.
Print Assumptions C41_surrounding_trivia_partial.

Theorem C41_one_token_partial : forall t a, leaves t = [a] -> surrounding_trivia t = Done (r_leading a, []).
Proof. intros t a E. rewrite surrounding, E. reflexivity. Qed.
Print Assumptions C41_one_token_partial.

Example C41_example : match surrounding_trivia ex_block with Done (a, b) => (List.length a, List.length b) | _ => (9, 9)%nat end = (0, 0)%nat /\
  exists a m b, leaves ex_block = a :: m ++ [b].
Proof. split; [reflexivity|]. exists (tok_n cfg_lua51 (str "local x, y = (1) -- c") 0), (removelast (tl (leaves ex_block))), (last (leaves ex_block) comma). vm_compute. reflexivity. Qed.
