(** Specification vocabulary of C54: when the text of a tree can be put into a file and is read as its tokens, and when two trees differ only
    in entries for types and attributes that are not there. No proofs, and nothing here is used by the model. *)
From Verif Require Import LexerSpec.
From Verif Require Export RoundSpec ReprintSpec.
Local Open Scope N_scope.
Import ListNotations.

(** What may come next in the text: anything; or the end, white space, a parenthesis, a comma, a semicolon, a closing bracket or brace. *)
Definition anything (v : text) : Prop := True.
Definition soft_char (x : char) : Prop := In x [10; 32; 40; 41; 44; 59; 93; 125].
Definition soft (v : text) : Prop := v = [] \/ exists x r, v = x :: r /\ soft_char x.

(** A text that begins with such a character. *)
Definition starts_soft (w : text) : Prop := exists x q, w = x :: q /\ soft_char x.

(** Before every such text, [s] is read as the tokens [ms] and trivia, and what follows is read as before. *)
Definition reads_as (c : cfg) (next : text -> Prop) (s : text) (ms : list token_type) : Prop :=
  forall open_ ts, (has_luau c = false -> open_ = []) -> next (written ts) -> tokens_in c open_ ts ->
  exists ts', tokens_in c open_ ts' /\ written ts' = s ++ written ts /\ mains ts' = ms ++ mains ts.
Definition reads_tree (c : cfg) (next : text -> Prop) (t : tree) : Prop := reads_as c next (display t) (main_types (printed t)).

(** The same tree, but vectors can have further entries [None]. *)
Inductive filled : tree -> tree -> Prop :=
| fl_token r : filled (Tok r) (Tok r)
| fl_container k cs cs' : Forall2 filled cs cs' -> filled (Con k cs) (Con k cs')
| fl_vector cs cs' n : Forall2 filled cs cs' -> filled (vector cs) (vector (cs' ++ repeat none n))
| fl_node k cs cs' : Forall2 filled cs cs' -> filled (Nd k cs) (Nd k cs').

(** The tree is of the sort [P] of the tree grammar, once its vectors are filled, without interpolated strings; its text is read as its tokens. *)
Definition stands (c : cfg) (next : text -> Prop) (P : tree -> Prop) (t : tree) : Prop :=
  (exists t', P t' /\ filled t t' /\ printed t' = printed t) /\ (forall r, In r (printed t) -> ~ part_of_string r) /\ reads_tree c next t.

(** Values with the separator [d] between them, as [Punctuated] holds them. *)
Fixpoint join (d : tokref) (ts : list tree) : list tree :=
  match ts with [] => [] | t :: rest => match rest with [] => [final t] | _ :: _ => followed t d :: join d rest end end.
(** One or more values of the sort [P]. *)
Definition values (P : tree -> Prop) (t : tree) : Prop := exists l, t = listing l /\ several P SComma l.
Definition name_tree (t : tree) : Prop := exists r, t = Tok r /\ nm r.
(** Names, and [...] perhaps as the last one. *)
Inductive parameter_trees : list tree -> Prop :=
| pm_nil : parameter_trees []
| pm_dots d : sy d SEllipsis -> parameter_trees [Nd KParamEllipsis [Tok d]]
| pm_name r ps : nm r -> parameter_trees ps -> parameter_trees (Nd KParamName [Tok r] :: ps).

(** A token as a text of its own. *)
Definition lone (c : cfg) (t : token_type) : Prop :=
  token_then c t [] /\ ~ trivial t /\ t <> TSymbol SLeftBrace /\ t <> TSymbol SRightBrace /\ forall w k, t <> TInterpolatedString w k.
Definition unspaced (r : tokref) : Prop := r_leading r = [] /\ r_trailing r = [].
Definition spaced (r : tokref) : Prop := r_leading r = [] /\ map t_type (r_trailing r) = [TWhitespace [32]].
(** A statement with a semicolon or without. *)
Definition ended (d : tokref) (s : tree) : tree := Con CTuple [s; some (Tok d)].
Definition without (s : tree) : tree := Con CTuple [s; none].
