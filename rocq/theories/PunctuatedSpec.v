(** Specification of [Punctuated]: a list of values beside a list of optional punctuation tokens, and what a history of
    calls answers. *)
From Verif Require Export Punctuated.
Local Open Scope nat_scope.

(** The calls. *)
Inductive call (A : Type) :=
| CPush (v : A) (p : option tokref) | CPushPunctuated (v : A) (p : tokref) | CPop | CExtend (l : list (A * option tokref))
| CIterMut (f : A -> A) | CLen | CIsEmpty | CFirst | CLast | CIter | CIntoIter | CPairs.
Arguments CPush {A}. Arguments CPushPunctuated {A}. Arguments CPop {A}. Arguments CExtend {A}. Arguments CIterMut {A}.
Arguments CLen {A}. Arguments CIsEmpty {A}. Arguments CFirst {A}. Arguments CLast {A}. Arguments CIter {A}. Arguments CIntoIter {A}. Arguments CPairs {A}.

(** The answers. *)
Inductive answer (A : Type) :=
| AUnit | APanic | ANat (n : nat) | ABool (b : bool) | AEntry (x : option (A * option tokref)) | AValues (l : list A) | AEntries (l : list (A * option tokref)).
Arguments AUnit {A}. Arguments APanic {A}. Arguments ANat {A}. Arguments ABool {A}. Arguments AEntry {A}. Arguments AValues {A}. Arguments AEntries {A}.

(** The values and, position by position, the punctuation behind them. *)
Record abstract (A : Type) := mkAbs { vals : list A; puncts : list (option tokref) }.
Arguments mkAbs {A}. Arguments vals {A}. Arguments puncts {A}.

Fixpoint final {A} (l : list A) : option A := match l with [] => None | [x] => Some x | _ :: l => final l end.
Definition both_of {A} (a : option A) (p : option (option tokref)) : option (A * option tokref) :=
  match a, p with Some a, Some p => Some (a, p) | _, _ => None end.

Definition expected {A} (s : abstract A) (c : call A) : answer A * abstract A :=
  match c with
  | CPush v p => (AUnit, mkAbs (vals s ++ [v]) (puncts s ++ [p]))
  | CPushPunctuated v p =>
      match final (puncts s) with
      | Some None => (AUnit, mkAbs (vals s ++ [v]) (removelast (puncts s) ++ [Some p; None]))
      | _ => (APanic, s)
      end
  | CPop => (AEntry (both_of (final (vals s)) (final (puncts s))), mkAbs (removelast (vals s)) (removelast (puncts s)))
  | CExtend l => (AUnit, mkAbs (vals s ++ map fst l) (puncts s ++ map snd l))
  | CIterMut f => (AUnit, mkAbs (map f (vals s)) (puncts s))
  | CLen => (ANat (List.length (vals s)), s)
  | CIsEmpty => (ABool (match vals s with [] => true | _ => false end), s)
  | CFirst => (AEntry (both_of (hd_error (vals s)) (hd_error (puncts s))), s)
  | CLast => (AEntry (both_of (final (vals s)) (final (puncts s))), s)
  | CIter | CIntoIter => (AValues (vals s), s)
  | CPairs => (AEntries (combine (vals s) (puncts s)), s)
  end.

Definition actual {A} (s : punctuated A) (c : call A) : answer A * punctuated A :=
  match c with
  | CPush v p => (AUnit, p_push s (pair_new v p))
  | CPushPunctuated v p => match p_push_punctuated s v p with (Done _, s) => (AUnit, s) | (_, s) => (APanic, s) end
  | CPop => let '(x, s) := p_pop s in (AEntry (option_map into_tuple x), s)
  | CExtend l => (AUnit, p_extend s (map (fun x => pair_new (fst x) (snd x)) l))
  | CIterMut f => (AUnit, p_iter_mut f s)
  | CLen => (ANat (p_len s), s)
  | CIsEmpty => (ABool (p_is_empty s), s)
  | CFirst => (AEntry (option_map into_tuple (p_first s)), s)
  | CLast => (AEntry (option_map into_tuple (p_last s)), s)
  | CIter => (AValues (p_iter s), s)
  | CIntoIter => (AValues (p_into_iter s), s)
  | CPairs => (AEntries (map into_tuple (p_pairs s)), s)
  end.

(** The answers to a history of calls. *)
Fixpoint history {S A} (run : S -> call A -> answer A * S) (s : S) (cs : list (call A)) : list (answer A) :=
  match cs with [] => [] | c :: cs => let '(a, s) := run s c in a :: history run s cs end.
