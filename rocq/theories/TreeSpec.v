(** Specification vocabulary for the theorems about trees. No proofs, and nothing here is used by the model. *)
From Verif Require Import LexerSpec.
From Verif Require Export Visit.

(** The tokens of a tree, all fields in declaration order. *)
Fixpoint leaves (t : tree) : list tokref :=
  match t with
  | Tok r => [r]
  | Con _ cs | Nd _ cs => flat_map leaves cs
  end.

(** ** Iterating from both ends *)
Inductive side := Front | Back.

(** The answers of a list used as a double-ended queue, and what is left in it. *)
Fixpoint deque_ops (ops : list side) (l : list tokref) : list (option tokref) * list tokref :=
  match ops with
  | [] => ([], l)
  | Front :: ops => let '(os, m) := deque_ops ops (tl l) in (hd_error l :: os, m)
  | Back :: ops => let '(os, m) := deque_ops ops (removelast l) in (hd_error (rev l) :: os, m)
  end.

(** The answers of the iterator of a node. *)
Fixpoint iter_ops (ops : list side) (its : list item) : out (list (option tokref) * list item) :=
  match ops with
  | [] => Done ([], its)
  | o :: ops =>
      match (match o with Front => tokens_next its | Back => tokens_next_back its end) with
      | Done (a, its) => match iter_ops ops its with Done (os, m) => Done (a :: os, m) | Panic => Panic | OutOfFuel => OutOfFuel end
      | Panic => Panic
      | OutOfFuel => OutOfFuel
      end
  end.

(** What has been taken from the front and from the back. *)
Fixpoint taken_front (ops : list side) (os : list (option tokref)) : list tokref :=
  match ops, os with
  | Front :: ops, Some r :: os => r :: taken_front ops os
  | _ :: ops, _ :: os => taken_front ops os
  | _, _ => []
  end.
Fixpoint taken_back (ops : list side) (os : list (option tokref)) : list tokref :=
  match ops, os with
  | Back :: ops, Some r :: os => taken_back ops os ++ [r]
  | _ :: ops, _ :: os => taken_back ops os
  | _, _ => []
  end.

(** ** Changing tokens only *)

(** Apply [f] to every token reference of a tree. *)
Fixpoint map_tokens (f : tokref -> tokref) (t : tree) : tree :=
  match t with
  | Tok r => Tok (f r)
  | Con c cs => Con c (map (map_tokens f) cs)
  | Nd k cs => Nd k (map (map_tokens f) cs)
  end.

(** Forget positions and trivia. *)
Definition bare (r : tokref) : tokref := mkRef [] (mkToken pos0 pos0 (t_type (r_token r))) [].

(** Forget the tokens altogether. *)
Definition no_token : tokref := mkRef [] (mkToken pos0 pos0 TEof) [].
Definition shape (t : tree) : tree := map_tokens (fun _ => no_token) t.

(** The same tree, every token changed as [Q] allows. *)
Inductive retokened (Q : tokref -> tokref -> Prop) : tree -> tree -> Prop :=
| retok_tok r r' : Q r r' -> retokened Q (Tok r) (Tok r')
| retok_con c cs cs' : Forall2 (retokened Q) cs cs' -> retokened Q (Con c cs) (Con c cs')
| retok_nd k cs cs' : Forall2 (retokened Q) cs cs' -> retokened Q (Nd k cs) (Nd k cs').

(** Forget the punctuation of all punctuated sequences. *)
Fixpoint drop_punctuation (t : tree) : tree :=
  match t with
  | Tok r => Tok r
  | Con CPunct (v :: _) => Con CEnd [drop_punctuation v]
  | Con CEnd (v :: _) => Con CEnd [drop_punctuation v]
  | Con CPunct [] => Con CEnd []
  | Con c cs => Con c (map drop_punctuation cs)
  | Nd k cs => Nd k (map drop_punctuation cs)
  end.

(** ** Conditions on nodes *)

(** [p] holds of every struct or enum value inside a tree. *)
Fixpoint every (p : kind -> list tree -> bool) (t : tree) : bool :=
  match t with
  | Tok _ => true
  | Con _ cs => forallb (every p) cs
  | Nd k cs => p k cs && forallb (every p) cs
  end.

(** Number of elements of a [Vec] or [Punctuated] in field [n]. *)
Definition count (n : nat) (cs : list tree) : nat :=
  match nth_error cs n with Some (Con _ l) => List.length l | _ => 0 end.

(** The vectors of attributes and type specifiers have one entry per name. The parser builds them so except for
    function bodies whose last parameter is an ellipsis outside Luau; [LocalAssignment::new], [FunctionBody::new] and the
    [with_...] methods need not. *)
Definition aligned_node (k : kind) (cs : list tree) : bool :=
  match k with
  | KGenericFor => Nat.eqb (count 7 cs) (count 1 cs)
  | KFunctionBody => Nat.eqb (count 3 cs) (count 2 cs)
  | KLocalAssignment => Nat.eqb (count 1 cs) (count 2 cs) && Nat.eqb (count 3 cs) (count 2 cs)
  | _ => true
  end.
Definition aligned (t : tree) : bool := every aligned_node t.

(** At most one entry per name. *)
Definition fitting_node (k : kind) (cs : list tree) : bool :=
  match k with
  | KGenericFor => Nat.leb (count 7 cs) (count 1 cs)
  | KFunctionBody => Nat.leb (count 3 cs) (count 2 cs)
  | KLocalAssignment => Nat.leb (count 1 cs) (count 2 cs) && Nat.leb (count 3 cs) (count 2 cs)
  | _ => true
  end.
Definition fitting (t : tree) : bool := every fitting_node t.

(** The kinds that enclose other fields between the two tokens of a [ContainedSpan], or print a field
    before another one that is declared earlier. *)
Definition encloses (k : kind) : bool :=
  match k with
  | KFieldExpressionKey | KTableConstructor | KExprParentheses | KIndexBrackets | KArgsParentheses | KAttribute
  | KNumericFor | KGenericFor | KFunctionBody | KLocalAssignment | KTypeArray | KTypeCallback | KTypeGeneric | KIndexedGeneric
  | KTypeTypeof | KTypeTable | KTypeTuple | KTypeFieldKeyIndexSignature | KGenericDeclaration | KTypeInstantiation => true
  | _ => false
  end.

(** A well-typed tree: a value of some declared Rust type. *)
Definition well_typed (t : tree) : Prop := exists y, wt t y = true.

(** ** What the immutable visitor reports *)

(** Tokens passed to the callbacks for a kind of token ([visit_identifier], [visit_symbol], ...). *)
Definition seen_by_kind (es : list event) : list token :=
  flat_map (fun e => match e with VKind _ t => [t] | _ => [] end) es.
(** Tokens passed to [visit_token]. *)
Definition seen_by_visit_token (es : list event) : list token :=
  flat_map (fun e => match e with VToken t => [t] | _ => [] end) es.

(** Shebangs and Eof have no kind callback. *)
Definition has_callback (t : token) : bool :=
  match t_type t with TEof | TShebang _ => false | _ => true end.

(** Nodes whose immutable visit does not go through all tokens: a type instantiation, and lists of names
    that contain a comma. *)
Definition has_comma (n : nat) (cs : list tree) : bool :=
  match nth_error cs n with
  | Some (Con _ l) => existsb (fun t => match t with Con CPunct _ => true | _ => false end) l
  | _ => false
  end.
Definition fully_visited (k : kind) (cs : list tree) : bool :=
  match k with
  | KTypeInstantiation => false
  | KGenericFor => negb (has_comma 1 cs)
  | KFunctionBody | KLocalAssignment => negb (has_comma 2 cs)
  | _ => true
  end.

(** ** Ranges *)

(** Byte offsets do not decrease along the list. *)
Definition in_source_order (l : list tokref) : Prop :=
  forall u a v b w, l = u ++ a :: v ++ b :: w ->
    (p_bytes (t_start (r_token a)) <= p_bytes (t_start (r_token b)))%N /\ (p_bytes (t_end (r_token a)) <= p_bytes (t_end (r_token b)))%N.

(** Lists that the grammar requires to be non-empty, in nodes that have no token of their own. *)
Definition filled_node (k : kind) (cs : list tree) : bool :=
  match k with
  | KFunctionName => negb (Nat.eqb (count 0 cs) 0)
  | KTypeUnion | KTypeIntersection => negb (Nat.eqb (count 1 cs) 0)
  | _ => true
  end.

Definition is_some (t : tree) : bool := match t with Con CSome _ => true | _ => false end.
Definition vec_at (n : nat) (cs : list tree) : list tree := match nth_error cs n with Some (Con _ l) => l | _ => [] end.

(** Nodes whose last declared field with tokens is also the last one printed, or that end with the second
    token of a span marked [full_range]. *)
Definition whole (k : kind) : bool :=
  match k with KTableConstructor | KExprParentheses | KArgsParentheses | KAttribute | KTypeInstantiation => true | _ => false end.
Definition closes (k : kind) (cs : list tree) : bool :=
  match k with
  | KIndexBrackets | KTypeArray | KTypeGeneric | KIndexedGeneric | KTypeTypeof | KTypeTable | KTypeTuple
  | KTypeFieldKeyIndexSignature | KGenericDeclaration => false
  | KNumericFor => match nth_error cs 11 with Some t => negb (is_some t) | None => false end
  | KGenericFor => negb (is_some (last (vec_at 7 cs) (Con CNone [])))
  | KLocalAssignment =>
      negb (Nat.eqb (count 5 cs) 0) || match nth_error cs 4 with Some t => is_some t | None => false end
      || (negb (existsb is_some (vec_at 1 cs)) && negb (existsb is_some (vec_at 3 cs)))
  | _ => true
  end.
(** ... for the node and the nodes at its right edge. *)
Fixpoint closed (t : tree) : bool :=
  let edge := fix edge (cs : list tree) : bool :=
    match cs with [] => true | c :: rest => if forallb (fun d => match printed d with [] => true | _ => false end) rest then closed c else edge rest end in
  match t with
  | Tok _ => true
  | Con _ cs => edge cs
  | Nd k cs => closes k cs && (whole k || edge cs)
  end.

(** ** Visitors that rewrite *)

(** Only [visit_token_reference] is overridden. *)
Definition refs_only {S} (v : visitor_mut S) : Prop :=
  (forall s r, vm_eof v s r = (s, r)) /\ (forall s t, vm_token v s t = (s, t)) /\ (forall k s t, vm_kind v k s t = (s, t)).

(** A visitor that writes down the references it is given. *)
Definition recorder : visitor_mut (list tokref) :=
  mkVisitorMut (fun l r => (l ++ [r], r)) (fun s r => (s, r)) (fun s t => (s, t)) (fun _ s t => (s, t)).

(** The tokens of the nodes of an ast, in printed order. *)
Definition ast_tokens (a : ast) : list token := flat_map ref_tokens (printed (a_nodes a)).
(** Equal up to positions. *)
Definition same_token (t t' : token) : Prop := t_type t = t_type t'.
Definition same_content (r r' : tokref) : Prop :=
  Forall2 same_token (r_leading r) (r_leading r') /\ same_token (r_token r) (r_token r') /\ Forall2 same_token (r_trailing r) (r_trailing r').

