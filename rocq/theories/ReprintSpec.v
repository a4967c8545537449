(** Specification vocabulary of C53: which token references the lexer makes, and when two trees are equal up to positions. No proofs, and
    nothing here is used by the model. *)
From Verif Require Import LexerSpec.
From Verif Require Export ScanSpec LayoutSpec.
Local Open Scope N_scope.

(** All tokens of a list of references, trivia included, without positions. *)
Definition types_of (rs : list tokref) : list token_type := map t_type (flat_map ref_tokens rs).
Definition trivial (t : token_type) : Prop :=
  match t with TShebang _ | TSingleLineComment _ | TMultiLineComment _ _ | TCStyleComment _ | TWhitespace _ => True | _ => False end.
(** Trivia stands in its place. *)
Definition proper (r : tokref) : Prop := ~ trivial (t_type (r_token r)) /\ forall t, In t (r_leading r ++ r_trailing r) -> trivial (t_type t).
Definition new_line (t : token_type) : Prop := exists w, t = TWhitespace w /\ In 10 w.
Definition c_comment (t : token_type) : Prop := exists w, t = TCStyleComment w.
(** Trailing trivia ends with the line and has no C comment; what comes after it is leading trivia of the next token only
    after the end of the line or from a C comment on. *)
Definition trails (r : tokref) : Prop :=
  (forall a t b, r_trailing r = a ++ t :: b -> new_line (t_type t) -> b = []) /\ forall t, In t (r_trailing r) -> ~ c_comment (t_type t).
Definition follows (r r' : tokref) : Prop :=
  forall t l, r_leading r' = t :: l -> c_comment (t_type t) \/ exists a n, r_trailing r = a ++ [n] /\ new_line (t_type n).
(** The references that satisfy [P] have the trailing trivia that the lexer gives them. *)
Definition attached (P : tokref -> Prop) (rs : list tokref) : Prop :=
  (forall r, In r rs -> P r -> trails r) /\ forall a r r' b, rs = a ++ r :: r' :: b -> P r -> follows r r'.
Definition part_of_string (r : tokref) : Prop := exists w k, t_type (r_token r) = TInterpolatedString w k.

(** The same token; the same token with the same trivia. *)
Definition same_token (r r' : tokref) : Prop := t_type (r_token r) = t_type (r_token r').
Definition same_with_trivia (r r' : tokref) : Prop :=
  same_token r r' /\ map t_type (r_leading r) = map t_type (r_leading r') /\ map t_type (r_trailing r) = map t_type (r_trailing r').
(** The tokens without trivia. *)
Definition mains (ts : list token_type) : list token_type :=
  filter (fun t => match t with TShebang _ | TSingleLineComment _ | TMultiLineComment _ _ | TCStyleComment _ | TWhitespace _ => false | _ => true end) ts.
Definition main_types (rs : list tokref) : list token_type := map (fun r => t_type (r_token r)) rs.
