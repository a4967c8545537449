(** The texts of errors (model): [Display] of [TokenizerErrorType], [TokenizerError], [AstError] and [Error]; [Error::error_message] and
    [Error::range]. *)
From Coq Require Import Decimal DecimalN.
From Verif Require Import LexerSpec.
From Verif Require Export ParserState.
Import ListNotations.
Local Open Scope N_scope.

(** [Display] of [usize]: decimal, without leading zeros (std). *)
Fixpoint digits (d : uint) : text :=
  match d with
  | Nil => []
  | D0 d => 48 :: digits d | D1 d => 49 :: digits d | D2 d => 50 :: digits d | D3 d => 51 :: digits d | D4 d => 52 :: digits d
  | D5 d => 53 :: digits d | D6 d => 54 :: digits d | D7 d => 55 :: digits d | D8 d => 56 :: digits d | D9 d => 57 :: digits d
  end.
Definition show_number (n : N) : text := digits (N.to_uint n).

(** [fmt::Display for TokenizerErrorType], structs.rs:216-231. *)
Definition show_error_type (e : tok_error_type) : text :=
  match e with
  | UnclosedComment => str "unclosed comment"
  | UnclosedString => str "unclosed string"
  | UnexpectedToken character => str "unexpected character " ++ [character]
  | InvalidNumber => str "invalid number"
  | InvalidSymbol symbol => str "invalid symbol " ++ symbol
  end.

(** [fmt::Display for TokenizerError], structs.rs:947-959. *)
Definition show_tokenizer_error (e : tok_error) : text :=
  show_error_type (te_error e) ++ str " (" ++ show_number (p_line (fst (te_range e))) ++ str ":" ++ show_number (p_char (fst (te_range e))) ++
    str " to " ++ show_number (p_line (snd (te_range e))) ++ str ":" ++ show_number (p_char (snd (te_range e))) ++ str ")".

(** [AstError::range], ast/mod.rs:2413-2417. *)
Definition ast_error_range (t : token) (range : option (position * position)) : position * position :=
  match range with Some r => r | None => (t_start t, t_end t) end.

(** [fmt::Display for AstError], ast/mod.rs:2420-2436. [additional] is a [Cow<str>]. *)
Definition show_ast_error (t : token) (additional : text) (range : option (position * position)) : text :=
  let range := ast_error_range t range in
  str "unexpected token `" ++ show_token t ++ str "`. (starting from line " ++ show_number (p_line (fst range)) ++ str ", character " ++ show_number (p_char (fst range)) ++
    str " and ending on line " ++ show_number (p_line (snd range)) ++ str ", character " ++ show_number (p_char (snd range)) ++
    str ")" ++ [c_nl] ++ str "additional information: " ++ additional.

(** [fmt::Display for Error], lib.rs:69-80. *)
Definition show_error (e : error) : text :=
  match e with
  | AstError t additional range => str "error occurred while creating ast: " ++ show_ast_error t additional range
  | TokenizerError e => str "error occurred while tokenizing: " ++ show_tokenizer_error e
  end.

(** [Error::error_message], lib.rs:53-58; [AstError::error_message], ast/mod.rs:2408-2410. *)
Definition error_message (e : error) : text := match e with AstError _ additional _ => additional | TokenizerError e => show_tokenizer_error e end.

(** [Error::range], lib.rs:61-66; [TokenizerError::range], structs.rs:942-944. *)
Definition range_of_error (e : error) : position * position := match e with AstError t _ range => ast_error_range t range | TokenizerError e => te_range e end.
