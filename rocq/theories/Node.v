(** Model of the [Node] trait (full-moon/src/node.rs, derive macro full-moon-derive/src/node.rs) and of
    [Display] of the syntax tree types. *)
From Verif Require Export Tree Base.
Local Open Scope nat_scope.

(** ** [Node::tokens] and the [Tokens] iterator *)

(** [TokenItem], node.rs:52-55. *)
Inductive item := More (t : tree) | One (r : tokref).

(** The items of [self.tokens()]:
    - TokenReference: node.rs:200-204; Option 222-227; Vec 247-251; pairs 277-282; Box 140-142;
    - Pair and Punctuated: punctuated.rs:226-228, 460-471; ContainedSpan: span.rs:54-56;
    - structs and variants: derive node.rs:6-31, 163-187, 418-472: one item per field in declaration order. *)
Definition field_item (t : tree) : item := match t with Tok r => One r | _ => More t end.
Fixpoint items (t : tree) : list item :=
  match t with
  | Tok r => [One r]
  | Con _ cs => flat_map items cs
  | Nd _ cs => map field_item cs
  end.

(** [Iterator::next], node.rs:74-92. The recursion through nested nodes runs on fuel. *)
Fixpoint next_loop (fuel : nat) (its : list item) : out (option tokref * list item) :=
  match fuel with
  | O => OutOfFuel
  | S fuel =>
      match its with
      | [] => Done (None, [])
      | One r :: rest => Done (Some r, rest)
      | More n :: rest => next_loop fuel (items n ++ rest)
      end
  end.

(** [DoubleEndedIterator::next_back], node.rs:94-110. *)
Fixpoint next_back_loop (fuel : nat) (its : list item) : out (option tokref * list item) :=
  match fuel with
  | O => OutOfFuel
  | S fuel =>
      match rev its with
      | [] => Done (None, [])
      | One r :: rest => Done (Some r, rev rest)
      | More n :: rest => next_back_loop fuel (rev rest ++ items n)
      end
  end.

(** Number of constructors, used as fuel. *)
Fixpoint tree_size (t : tree) : nat :=
  match t with Tok _ => 1 | Con _ cs | Nd _ cs => S (list_sum (map tree_size cs)) end.
Definition item_size (i : item) : nat := match i with More t => tree_size t | One _ => 0 end.
Definition items_size (its : list item) : nat := list_sum (map item_size its).

Definition tokens_next (its : list item) : out (option tokref * list item) := next_loop (S (items_size its)) its.
Definition tokens_next_back (its : list item) : out (option tokref * list item) := next_back_loop (S (items_size its)) its.

(** [Node::surrounding_trivia], node.rs:34-49. *)
Definition surrounding_trivia (t : tree) : out (list token * list token) :=
  match tokens_next (items t) with
  | Done (leading, its) =>
      match tokens_next_back its with
      | Done (trailing, _) =>
          Done (match leading with Some r => r_leading r | None => [] end,
                match trailing with Some r => r_trailing r | None => [] end)
      | Panic => Panic
      | OutOfFuel => OutOfFuel
      end
  | Panic => Panic
  | OutOfFuel => OutOfFuel
  end.

(** ** [start_position] and [end_position] *)

(** [Ord for Position], structs.rs:868-878, with [std::cmp::min] and [max]. *)
Definition pos_min (a b : position) : position := if N.leb (p_bytes a) (p_bytes b) then a else b.
Definition pos_max (a b : position) : position := if N.leb (p_bytes a) (p_bytes b) then b else a.
Definition merge_by (f : position -> position -> position) (a b : option position) : option position :=
  match a, b with Some x, Some y => Some (f x y) | Some x, None => Some x | None, y => y end.

(** [None.or_else(..).or_else(..)] *)
Fixpoint first_some (l : list (option position)) : option position :=
  match l with [] => None | Some p :: _ => Some p | None :: l => first_some l end.

(** [Some((start?, end?))] and its projections, derive node.rs:77-85. *)
Definition both (x : option position * option position) : option position * option position :=
  match x with (Some a, Some b) => (Some a, Some b) | _ => (None, None) end.

(** Fields marked [#[node(full_range)]]: mod.rs:236, 370, 562; lua54.rs:16; luau.rs:1262. *)
Definition full_range (k : kind) : option nat :=
  match k with
  | KTableConstructor | KExprParentheses | KArgsParentheses | KAttribute | KTypeInstantiation => Some 0
  | _ => None
  end.

(** [(start_position, end_position)] of a node: node.rs:128-146, 188-204, 210-218, 232-240, 254-272;
    punctuated.rs:213-220, 446-454; span.rs:42-48; derive node.rs:104-160 and 216-323 (an unnamed variant
    always has one field in these types). *)
Fixpoint positions (t : tree) : option position * option position :=
  match t with
  | Tok r => (Some (t_start (r_token r)), Some (t_end (r_token r)))
  | Con c cs =>
      match c, map positions cs with
      | CSome, [x] => x
      | CVec, x :: l | CPunctuated, x :: l => (fst x, snd (last l x))
      | CTuple, [x; y] => (merge_by pos_min (fst x) (fst y), merge_by pos_max (snd x) (snd y))
      | CEnd, [x] => x
      | CPunct, [x; p] => (fst x, match snd p with Some e => Some e | None => snd x end)
      | CSpan, [x; y] => (fst x, snd y)
      | _, _ => (None, None)
      end
  | Nd k cs =>
      let l := map positions cs in
      match full_range k with
      | Some n => both (nth n l (None, None))
      | None => both (first_some (map fst l), first_some (rev (map snd l)))
      end
  end.
Definition start_position (t : tree) : option position := fst (positions t).
Definition end_position (t : tree) : option position := snd (positions t).

(** ** [similar] *)

Definition kind_eq_dec (a b : kind) : {a = b} + {a <> b}. Proof. repeat decide equality. Defined.
Definition kind_eqb (a b : kind) : bool := if kind_eq_dec a b then true else false.
Definition token_type_eqb (a b : token_type) : bool.
Proof. refine (if (_ : {a = b} + {a <> b}) then true else false). repeat decide equality. Defined.
Definition container_eqb (a b : container) : bool :=
  match a, b with
  | CNone, CNone | CSome, CSome | CVec, CVec | CTuple, CTuple | CPunctuated, CPunctuated | CEnd, CEnd | CPunct, CPunct | CSpan, CSpan => true
  | _, _ => false
  end.

(** [Node::similar]: node.rs:134-136, 196-198, 216-222, 240-246, 272-274; punctuated.rs:222-226, 456-458
    (values only, the punctuation is ignored); span.rs:50-52; derive node.rs:136-150, 326-390. *)
Fixpoint similar (a b : tree) {struct a} : bool :=
  let all := fix all (cs ds : list tree) {struct cs} : bool :=
    match cs, ds with
    | [], [] => true
    | c :: cs, d :: ds => similar c d && all cs ds
    | _, _ => false
    end in
  let value := fun (cs ds : list tree) =>
    match cs, ds with
    | [], [] => true
    | c :: _, d :: _ => similar c d
    | _, _ => false
    end in
  match a, b with
  | Tok x, Tok y => token_type_eqb (t_type (r_token x)) (t_type (r_token y))
  | Con (CEnd | CPunct) cs, Con (CEnd | CPunct) ds => value cs ds
  | Con c cs, Con d ds => container_eqb c d && all cs ds
  | Nd k cs, Nd l ds => kind_eqb k l && all cs ds
  | _, _ => false
  end.

(** ** Orders over the fields *)

(** A generated or hand-written method that goes through the fields of a node is a list of these:
    - [F n]: the field [n];
    - [L n], [R n]: the first / second token of the [ContainedSpan] in field [n];
    - [Z n ms p]: for every pair of the [Punctuated] in field [n]: its value, the next element of each
      vector in the fields [ms] if there is one, and (if [p]) its punctuation. *)
Inductive op := F (n : nat) | L (n : nat) | R (n : nat) | Z (n : nat) (ms : list nat) (p : bool).

(** A tree whose subtrees carry a value; bottom-up recursion with access to all descendants. *)
Inductive atree (A : Type) : Type := ATok (a : A) | ACon (a : A) (cs : list (atree A)) | ANd (a : A) (cs : list (atree A)).
Arguments ATok {A} a. Arguments ACon {A} a cs. Arguments ANd {A} a cs.
Definition ann {A} (x : atree A) : A := match x with ATok a => a | ACon a _ => a | ANd a _ => a end.
Definition kids {A} (x : atree A) : list (atree A) := match x with ATok _ => [] | ACon _ cs => cs | ANd _ cs => cs end.

Fixpoint annotate {A} (f : tree -> list (atree A) -> A) (t : tree) : atree A :=
  match t with
  | Tok r => ATok (f t [])
  | Con c cs => let l := map (annotate f) cs in ACon (f t l) l
  | Nd k cs => let l := map (annotate f) cs in ANd (f t l) l
  end.

(** Concatenating what the ops select. *)
Definition ann_at {B} (n : nat) (l : list (atree (list B))) : list B := match nth_error l n with Some x => ann x | None => [] end.
Definition kids_at {A} (n : nat) (l : list (atree A)) : list (atree A) := match nth_error l n with Some x => kids x | None => [] end.
Fixpoint zip_select {B} (p : bool) (pairs : list (atree (list B))) (vecs : list (list (atree (list B)))) : list B :=
  match pairs with
  | [] => []
  | x :: pairs =>
      ann_at 0 (kids x) ++ flat_map (ann_at 0) vecs ++ (if p then ann_at 1 (kids x) else [])
      ++ zip_select p pairs (map (@tl _) vecs)
  end.
Definition select {B} (l : list (atree (list B))) (o : op) : list B :=
  match o with
  | F n => ann_at n l
  | L n => ann_at 0 (kids_at n l)
  | R n => ann_at 1 (kids_at n l)
  | Z n ms p => zip_select p (kids_at n l) (map (fun m => kids_at m l) ms)
  end.
Definition select_all {B} (l : list (atree (list B))) (os : list op) : list B := flat_map (select l) os.

(** All fields in declaration order. *)
Definition in_order (k : kind) : list op := map F (seq 0 (List.length (fields k))).

(** ** [Display] *)

(** The [#[display(...)]] attributes and hand-written [Display] impls: mod.rs:53-57, 136, 187-227, 233, 284-288,
    357-434, 517-520, 531-545, 555-572, 774-813, 942-973, 976-986, 1100, 1166, 1244, 1388-1401, 1559-1588,
    1608-1617, 1622, 1674, 1730-1744, 1946-1967, 1971, 2028, 2076-2081, 2131-2135; compound.rs:109;
    lua52.rs:13, 52; lua54.rs:13; luau.rs:19-181, 186, 222, 263-270, 280, 355-365, 370, 412-420, 514-523, 527-533, 576,
    625, 704-712, 716, 769, 847, 914-924, 1039, 1112, 1163, 1211, 1251-1260; util.rs:22-103. *)
Definition display_order (k : kind) : list op :=
  match k with
  | KFieldExpressionKey => [L 0; F 1; R 0; F 2; F 3]
  | KTableConstructor | KExprParentheses | KIndexBrackets | KArgsParentheses | KAttribute => [L 0; F 1; R 0]
  | KNumericFor => [F 0; F 1; F 11; F 2; F 3; F 4; F 5; F 6; F 7; F 8; F 9; F 10]
  | KGenericFor => [F 0; Z 1 [7] true; F 2; F 3; F 4; F 5; F 6]
  | KFunctionBody => [F 0; L 1; Z 2 [3] true; R 1; F 4; F 5; F 6]
  | KLocalAssignment => [F 0; Z 2 [3; 1] true; F 4; F 5]
  | KTypeArray => [L 0; F 1; F 2; R 0]
  | KTypeCallback => [F 0; L 1; F 2; R 1; F 3; F 4]
  | KTypeGeneric | KIndexedGeneric | KTypeTypeof => [F 0; L 1; F 2; R 1]
  | KTypeTable | KTypeTuple | KTypeFieldKeyIndexSignature | KGenericDeclaration => [L 0; F 1; R 0]
  | KTypeInstantiation => [L 0; L 1; F 2; R 1; R 0]
  | _ => in_order k
  end.

(** The token references that [Display] writes, in order. [Option], [Vec], pairs and [Punctuated] are
    written element by element (util.rs:22-50, punctuated.rs:35, 351-356). *)
Definition gather (order : kind -> list op) (t : tree) (l : list (atree (list tokref))) : list tokref :=
  match t with
  | Tok r => [r]
  | Con _ _ => flat_map ann l
  | Nd k _ => select_all l (order k)
  end.
Definition leaves_by (order : kind -> list op) (t : tree) : list tokref := ann (annotate (gather order) t).

Definition printed (t : tree) : list tokref := leaves_by display_order t.
Definition display (t : tree) : text := flat_map show_ref (printed t).

(** [Display for Ast], mod.rs:2480-2485. *)
Definition display_ast (a : ast) : text := display (a_nodes a) ++ show_ref (a_eof a).
