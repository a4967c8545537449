(** Symbols, token types and their printing. Model only; no proofs here. *)
From Verif Require Export Base.
Local Open Scope N_scope.

(** [Symbol], full-moon/src/tokenizer/structs.rs:100-178. *)
Inductive symbol :=
| SAnd | SBreak | SDo | SElse | SElseIf | SEnd | SFalse | SFor | SFunction | SIf | SIn | SLocal | SNil
| SNot | SOr | SRepeat | SReturn | SThen | STrue | SUntil | SWhile
| SGoto
| SPlusEqual | SMinusEqual | SStarEqual | SSlashEqual
| SDoubleSlashEqual | SPercentEqual | SCaretEqual | STwoDotsEqual
| SAmpersand | SThinArrow | STwoColons | SAtSign
| SDoubleLessThanEqual | SDoubleGreaterThanEqual | SAmpersandEqual | SPipeEqual | SQuestionMarkDot
| SCaret | SColon | SComma | SDot | STwoDots | SEllipsis | SEqual | STwoEqual | SGreaterThan
| SGreaterThanEqual | SDoubleGreaterThan | SHash | SLeftBrace | SLeftBracket | SLeftParen | SLessThan
| SLessThanEqual | SDoubleLessThan | SMinus | SPercent | SPipe | SPlus | SQuestionMark | SRightBrace
| SRightBracket | SRightParen | SSemicolon | SSlash | SDoubleSlash | SStar | STilde | STildeEqual.

(** All symbols in declaration order, structs.rs:101-177. *)
Definition all_symbols : list symbol :=
  [SAnd; SBreak; SDo; SElse; SElseIf; SEnd; SFalse; SFor; SFunction; SIf; SIn; SLocal; SNil;
   SNot; SOr; SRepeat; SReturn; SThen; STrue; SUntil; SWhile;
   SGoto;
   SPlusEqual; SMinusEqual; SStarEqual; SSlashEqual;
   SDoubleSlashEqual; SPercentEqual; SCaretEqual; STwoDotsEqual;
   SAmpersand; SThinArrow; STwoColons; SAtSign;
   SDoubleLessThanEqual; SDoubleGreaterThanEqual; SAmpersandEqual; SPipeEqual; SQuestionMarkDot;
   SCaret; SColon; SComma; SDot; STwoDots; SEllipsis; SEqual; STwoEqual; SGreaterThan;
   SGreaterThanEqual; SDoubleGreaterThan; SHash; SLeftBrace; SLeftBracket; SLeftParen; SLessThan;
   SLessThanEqual; SDoubleLessThan; SMinus; SPercent; SPipe; SPlus; SQuestionMark; SRightBrace;
   SRightBracket; SRightParen; SSemicolon; SSlash; SDoubleSlash; SStar; STilde; STildeEqual].

(** Equality of symbols ([#[derive(PartialEq)]], structs.rs:98). *)
Definition symbol_eq_dec (a b : symbol) : {a = b} + {a <> b}.
Proof. decide equality. Defined.
Definition symbol_eqb (a b : symbol) : bool := if symbol_eq_dec a b then true else false.

(** The string literals of the [symbol!] table, structs.rs:101-177; [Display for Symbol], structs.rs:76-89. *)
Definition sym_text (s : symbol) : text :=
  str match s with
  | SAnd => "and" | SBreak => "break" | SDo => "do" | SElse => "else" | SElseIf => "elseif"
  | SEnd => "end" | SFalse => "false" | SFor => "for" | SFunction => "function" | SIf => "if"
  | SIn => "in" | SLocal => "local" | SNil => "nil" | SNot => "not" | SOr => "or"
  | SRepeat => "repeat" | SReturn => "return" | SThen => "then" | STrue => "true"
  | SUntil => "until" | SWhile => "while"
  | SGoto => "goto"
  | SPlusEqual => "+=" | SMinusEqual => "-=" | SStarEqual => "*=" | SSlashEqual => "/="
  | SDoubleSlashEqual => "//=" | SPercentEqual => "%=" | SCaretEqual => "^=" | STwoDotsEqual => "..="
  | SAmpersand => "&" | SThinArrow => "->" | STwoColons => "::" | SAtSign => "@"
  | SDoubleLessThanEqual => "<<=" | SDoubleGreaterThanEqual => ">>=" | SAmpersandEqual => "&="
  | SPipeEqual => "|=" | SQuestionMarkDot => "?."
  | SCaret => "^" | SColon => ":" | SComma => "," | SDot => "." | STwoDots => ".." | SEllipsis => "..."
  | SEqual => "=" | STwoEqual => "==" | SGreaterThan => ">" | SGreaterThanEqual => ">="
  | SDoubleGreaterThan => ">>" | SHash => "#" | SLeftBrace => "{" | SLeftBracket => "["
  | SLeftParen => "(" | SLessThan => "<" | SLessThanEqual => "<=" | SDoubleLessThan => "<<"
  | SMinus => "-" | SPercent => "%" | SPipe => "|" | SPlus => "+" | SQuestionMark => "?"
  | SRightBrace => "}" | SRightBracket => "]" | SRightParen => ")" | SSemicolon => ";"
  | SSlash => "/" | SDoubleSlash => "//" | SStar => "*" | STilde => "~" | STildeEqual => "~="
  end%string.

(** The version lists of the [symbol!] table: [[lua52 | luajit]] etc., structs.rs:123-176.
    [has_version!] (full-moon/src/util.rs:108-129) is [true] for an empty list and otherwise the
    disjunction of [has_x] over the listed versions (each [has_x] already includes the feature test,
    so the [#[cfg(any(feature...))]] on the match arm, structs.rs:57-61, adds nothing). *)
Definition sym_enabled (c : cfg) (s : symbol) : bool :=
  match s with
  | SGoto => has_lua52 c || has_luajit c
  | SPlusEqual | SMinusEqual | SStarEqual | SSlashEqual | SCaretEqual => has_luau c || has_cfxlua c
  | SDoubleSlashEqual | SPercentEqual | STwoDotsEqual | SThinArrow | SAtSign | SQuestionMark => has_luau c
  | SAmpersand | SPipe | SDoubleSlash => has_luau c || has_lua53 c
  | STwoColons => has_luau c || has_lua52 c || has_luajit c
  | SDoubleLessThanEqual | SDoubleGreaterThanEqual | SAmpersandEqual | SPipeEqual | SQuestionMarkDot => has_cfxlua c
  | SDoubleGreaterThan | SDoubleLessThan | STilde => has_lua53 c
  | _ => true
  end.

(** [Symbol::from_str], structs.rs:54-73: match on the literal, then [has_version!]. *)
Definition sym_from_str (c : cfg) (t : text) : option symbol :=
  match find (fun s => text_eqb (sym_text s) t) all_symbols with
  | Some s => if sym_enabled c s then Some s else None
  | None => None
  end.

(** [StringLiteralQuoteType], structs.rs:893-903. *)
Inductive quote_type := QBrackets | QDouble | QSingle | QBacktick.

(** [InterpolatedStringKind], structs.rs:185-197. *)
Inductive istr_kind := IBegin | IMiddle | IEnd | ISimple.

(** [TokenType], structs.rs:242-322. *)
Inductive token_type :=
| TEof
| TIdentifier (identifier : text)
| TMultiLineComment (blocks : nat) (comment : text)
| TNumber (num : text)
| TShebang (line : text)
| TSingleLineComment (comment : text)
| TStringLiteral (literal : text) (multi_line_depth : nat) (quote : quote_type)
| TSymbol (sym : symbol)
| TWhitespace (characters : text)
| TInterpolatedString (literal : text) (kind : istr_kind)
| TCStyleComment (comment : text).

(** [TokenKind] and [TokenType::kind], structs.rs:398-425 and 360-378. *)
Inductive token_kind :=
| KdEof | KdIdentifier | KdMultiLineComment | KdNumber | KdShebang | KdSingleLineComment
| KdStringLiteral | KdSymbol | KdWhitespace | KdInterpolatedString | KdCStyleComment.

Definition kind_of (t : token_type) : token_kind :=
  match t with
  | TEof => KdEof | TIdentifier _ => KdIdentifier | TMultiLineComment _ _ => KdMultiLineComment
  | TNumber _ => KdNumber | TShebang _ => KdShebang | TSingleLineComment _ => KdSingleLineComment
  | TStringLiteral _ _ _ => KdStringLiteral | TSymbol _ => KdSymbol | TWhitespace _ => KdWhitespace
  | TInterpolatedString _ _ => KdInterpolatedString | TCStyleComment _ => KdCStyleComment
  end.

(** [TokenType::is_trivia], structs.rs:327-346. The two cfg variants differ only in [CStyleComment],
    a variant that exists only when the cfxlua feature is on. *)
Definition is_trivia (t : token_type) : bool :=
  match t with
  | TShebang _ | TSingleLineComment _ | TMultiLineComment _ _ | TWhitespace _ | TCStyleComment _ => true
  | _ => false
  end.

(** [Token], structs.rs:430-434. *)
Record token := mkToken { t_start : position; t_end : position; t_type : token_type }.

(** [TokenReference], structs.rs:590-594. *)
Record tokref := mkRef { r_leading : list token; r_token : token; r_trailing : list token }.

Definition repeat_eq (n : nat) : text := repeat (ch "="%char) n.

(** [Display for StringLiteralQuoteType], structs.rs:905-918. [Brackets] is an error there and is never
    reached from [Display for Token]; it is the empty text here. *)
Definition quote_text (q : quote_type) : text :=
  match q with
  | QBrackets => []
  | QDouble => [c_dquote]
  | QSingle => [c_squote]
  | QBacktick => [c_backtick]
  end.

(** [Display for Token], structs.rs:469-524. *)
Definition show_type (t : token_type) : text :=
  match t with
  | TEof => []
  | TNumber s => s
  | TIdentifier s => s
  | TMultiLineComment n s => str "--[" ++ repeat_eq n ++ str "[" ++ s ++ str "]" ++ repeat_eq n ++ str "]"
  | TShebang s => s
  | TSingleLineComment s => str "--" ++ s
  | TStringLiteral s n QBrackets => str "[" ++ repeat_eq n ++ str "[" ++ s ++ str "]" ++ repeat_eq n ++ str "]"
  | TStringLiteral s _ q => quote_text q ++ s ++ quote_text q
  | TSymbol s => sym_text s
  | TWhitespace s => s
  | TInterpolatedString s IBegin => str "`" ++ s ++ str "{"
  | TInterpolatedString s IMiddle => str "}" ++ s ++ str "{"
  | TInterpolatedString s IEnd => str "}" ++ s ++ str "`"
  | TInterpolatedString s ISimple => str "`" ++ s ++ str "`"
  | TCStyleComment s => str "/*" ++ s ++ str "*/"
  end.

Definition show_token (t : token) : text := show_type (t_type t).

(** [Display for TokenReference], structs.rs:784-798. *)
Definition show_ref (r : tokref) : text :=
  flat_map show_token (r_leading r) ++ show_token (r_token r) ++ flat_map show_token (r_trailing r).

(** [TokenReference::is_symbol], structs.rs:765-767. *)
Definition is_symbol (r : tokref) (s : symbol) : bool :=
  match t_type (r_token r) with TSymbol s' => symbol_eqb s' s | _ => false end.

(** [TokenizerErrorType], structs.rs:202-214. *)
Inductive tok_error_type :=
| UnclosedComment | UnclosedString | InvalidNumber
| UnexpectedToken (c : char)
| InvalidSymbol (s : text).

(** [TokenizerError { error, range }], structs.rs:923-928. *)
Record tok_error := mkTokError { te_error : tok_error_type; te_range : position * position }.

(** [LexerResult], lexer.rs:1505-1512. *)
Inductive lexres (A : Type) : Type :=
| LOk (a : A)
| LFatal (errs : list tok_error)
| LRecovered (a : A) (errs : list tok_error).
Arguments LOk {A} a.
Arguments LFatal {A} errs.
Arguments LRecovered {A} a errs.

(** [LexerResult::new], lexer.rs:1515-1521. *)
Definition lexres_new {A} (a : A) (errs : list tok_error) : lexres A :=
  match errs with [] => LOk a | _ => LRecovered a errs end.

(** [LexerResult::errors], lexer.rs:1540-1545. *)
Definition lexres_errors {A} (r : lexres A) : list tok_error :=
  match r with LRecovered _ e => e | _ => [] end.
