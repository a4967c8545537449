(** Model of [Punctuated<T>] and [Pair<T>] (full-moon/src/ast/punctuated.rs). The value type is a parameter. A [Vec]
    is a list; [Vec::push] appends and [Vec::pop] takes the last element. A method that takes [&mut self] returns the
    new sequence next to its result, also when it panics (the sequence can be observed after a caught panic). *)
From Verif Require Export Token Base.
Local Open Scope nat_scope.

(** [Pair<T>], punctuated.rs:343-349. *)
Inductive pair_of (A : Type) := End (v : A) | Punctuated (v : A) (p : tokref).
Arguments End {A} v. Arguments Punctuated {A} v p.

(** [Pair::new], punctuated.rs:358-363. *)
Definition pair_new {A} (v : A) (p : option tokref) : pair_of A := match p with None => End v | Some p => Punctuated v p end.
(** [Pair::into_tuple], [into_value], [value], [punctuation], [map]: punctuated.rs:371-376, 384-386, 394-399, 421-426, 435-440. *)
Definition into_tuple {A} (x : pair_of A) : A * option tokref := match x with End v => (v, None) | Punctuated v p => (v, Some p) end.
Definition into_value {A} (x : pair_of A) : A := fst (into_tuple x).
Definition pair_value {A} (x : pair_of A) : A := match x with End v => v | Punctuated v _ => v end.
Definition pair_punctuation {A} (x : pair_of A) : option tokref := match x with End _ => None | Punctuated _ p => Some p end.
Definition pair_map {A B} (f : A -> B) (x : pair_of A) : pair_of B := match x with End v => End (f v) | Punctuated v p => Punctuated (f v) p end.
(** Writing through [Pair::value_mut], punctuated.rs:408-413. *)
Definition set_value {A} (x : pair_of A) (v : A) : pair_of A := match x with End _ => End v | Punctuated _ p => Punctuated v p end.

(** [Vec::pop]. *)
Definition vec_pop {A} (l : list A) : option A * list A := match rev l with [] => (None, []) | x :: r => (Some x, rev r) end.

(** [Punctuated<T> { pairs }], punctuated.rs:36-38, with [new] 46-48, [is_empty] 58-60, [len] 70-72, [first] 122-124, [last] 133-135,
    [pop] 171-173, [push] 182-184. *)
Record punctuated (A : Type) := mkPunctuated { pairs : list (pair_of A) }.
Arguments mkPunctuated {A} pairs. Arguments pairs {A} p.
Definition p_new {A} : punctuated A := mkPunctuated [].
Definition p_len {A} (s : punctuated A) : nat := List.length (pairs s).
Definition p_is_empty {A} (s : punctuated A) : bool := Nat.eqb (p_len s) 0.
Definition p_first {A} (s : punctuated A) : option (pair_of A) := hd_error (pairs s).
Definition p_last {A} (s : punctuated A) : option (pair_of A) := hd_error (rev (pairs s)).
Definition p_pop {A} (s : punctuated A) : option (pair_of A) * punctuated A := let '(x, l) := vec_pop (pairs s) in (x, mkPunctuated l).
Definition p_push {A} (s : punctuated A) (x : pair_of A) : punctuated A := mkPunctuated (pairs s ++ [x]).

(** [push_punctuated], punctuated.rs:188-201. *)
Definition p_push_punctuated {A} (s : punctuated A) (v : A) (p : tokref) : out unit * punctuated A :=
  match vec_pop (pairs s) with
  | (None, l) => (Panic, mkPunctuated l)
  | (Some last, l) =>
      match pair_punctuation last with
      | Some _ => (Panic, mkPunctuated (l ++ [last]))
      | None => (Done tt, mkPunctuated ((l ++ [Punctuated (into_value last) p]) ++ [pair_new v None]))
      end
  end.

(** [Extend] and [FromIterator], punctuated.rs:246-250, 263-269. *)
Definition p_extend {A} (s : punctuated A) (l : list (pair_of A)) : punctuated A := mkPunctuated (pairs s ++ l).
Definition p_from_iter {A} (l : list (pair_of A)) : punctuated A := mkPunctuated l.

(** [Iter::next] and [IntoIter::next], punctuated.rs:299-305, 313-319: one value from the remaining pairs. *)
Definition iter_next {A} (get : pair_of A -> A) (l : list (pair_of A)) : option A * list (pair_of A) :=
  match l with [] => (None, []) | x :: l => (Some (get x), l) end.
Fixpoint iter_collect {A} (fuel : nat) (get : pair_of A -> A) (l : list (pair_of A)) : list A :=
  match fuel with
  | O => []
  | S fuel => match iter_next get l with (None, _) => [] | (Some v, l) => v :: iter_collect fuel get l end
  end.
(** [iter] 83-85 and the two [into_iter]s 252-261, 271-280, run to the end. *)
Definition p_iter {A} (s : punctuated A) : list A := iter_collect (S (p_len s)) pair_value (pairs s).
Definition p_into_iter {A} (s : punctuated A) : list A := iter_collect (S (p_len s)) into_value (pairs s).
(** A loop over [iter_mut] (97-99, 327-333) that overwrites each value. *)
Definition p_iter_mut {A} (f : A -> A) (s : punctuated A) : punctuated A := mkPunctuated (map (fun x => set_value x (f (pair_value x))) (pairs s)).
(** [pairs] 146-148 and [into_pairs] 110-112. *)
Definition p_pairs {A} (s : punctuated A) : list (pair_of A) := pairs s.
