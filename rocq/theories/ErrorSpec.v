(** Specification vocabulary of C56: where errors point. No proofs, and nothing here is used by the model. *)
From Verif Require Import LexerSpec.
From Verif Require Export OrderSpec.
Import ListNotations.

(** [p] and [q] are the positions of the beginning and of the end of a piece of the source. *)
Definition stretch (source : text) (p q : position) : Prop := exists a b d, source = a ++ b ++ d /\ p = pos_of a /\ q = pos_of (a ++ b).

(** The range of an error: mod.rs:2413-2417, lib.rs:55-60. *)
Definition error_range (e : error) : position * position :=
  match e with
  | TokenizerError e => te_range e
  | AstError t _ o => match o with Some r => r | None => (t_start t, t_end t) end
  end.

(** An error of the parser is about such a token, and its range reaches from such a token to such a token. *)
Inductive points_at (ok : tokref -> Prop) : error -> Prop :=
| pa_lexer e : points_at ok (TokenizerError e)
| pa_token r msg : ok r -> points_at ok (AstError (r_token r) msg None)
| pa_range r msg a b : ok r -> ok a -> ok b -> points_at ok (AstError (r_token r) msg (Some (t_start (r_token a), t_end (r_token b)))).

(** The errors of the lexer among the errors of a parse. *)
Fixpoint lexical (es : list error) : list tok_error :=
  match es with [] => [] | TokenizerError e :: es => e :: lexical es | AstError _ _ _ :: es => lexical es end.
