(** Specification vocabulary of C61: what a text of an error says. No proofs, and nothing here is used by the model. *)
From Verif Require Import LexerSpec ParserState.
Import ListNotations.
Local Open Scope N_scope.

(** Two places that are the same for a reader: same line, same character. *)
Definition same_place (p q : position) : Prop := p_line p = p_line q /\ p_char p = p_char q.
Definition same_range (a b : position * position) : Prop := same_place (fst a) (fst b) /\ same_place (snd a) (snd b).

(** Where an error is. *)
Definition place (t : token) (o : option (position * position)) : position * position := match o with Some r => r | None => (t_start t, t_end t) end.

(** Two errors that say the same: of the same kind, at the same place, about the same text. *)
Inductive same_error : error -> error -> Prop :=
| se_lexer e e' : te_error e = te_error e' -> same_range (te_range e) (te_range e') -> same_error (TokenizerError e) (TokenizerError e')
| se_parser t t' m o o' : show_token t = show_token t' -> same_range (place t o) (place t' o') -> same_error (AstError t m o) (AstError t' m o').

(** A text on one line. *)
Definition on_one_line (m : text) : Prop := ~ In c_nl m.
(** The message of an error of the parser is a text on one line, and not empty. *)
Inductive sentence : error -> Prop :=
| sn_lexer e : sentence (TokenizerError e)
| sn_parser t m o : m <> [] -> on_one_line m -> sentence (AstError t m o).
