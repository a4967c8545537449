(** The lexical grammar that the lexer implements, as a description of single tokens and of what may follow them (C52). Nothing here is
    used by the model, and no function of the lexer occurs. *)
From Verif Require Export StringSpec.
Local Open Scope N_scope.

(** ** How tokens are written *)
Definition quote_mark (q : quote_type) : text := match quote_char q with Some x => [x] | None => [] end.
Definition spelling (t : token_type) : text :=
  match t with
  | TEof => []
  | TNumber w | TIdentifier w | TShebang w | TWhitespace w => w
  | TSymbol s => sym_text s
  | TSingleLineComment w => str "--" ++ w
  | TMultiLineComment n w => str "--" ++ long_bracket_open n ++ w ++ long_bracket_close n
  | TCStyleComment w => str "/*" ++ w ++ str "*/"
  | TStringLiteral w n QBrackets => long_bracket_open n ++ w ++ long_bracket_close n
  | TStringLiteral w _ q => quote_mark q ++ w ++ quote_mark q
  | TInterpolatedString w k => begins k :: w ++ [finishes k]
  end.
Definition written (ts : list token_type) : text := flat_map spelling ts.

(** ** Numbers and what may follow them
    After the digits no further digit, dot, exponent or suffix; after an exponent no further digit; after a suffix anything. *)
Inductive tail_then (c : cfg) (marks : list char) (more : char -> bool) : text -> text -> Prop :=
| tt_none v : not_continued (fun x => more x || existsb (N.eqb x) marks || (has_luajit c && existsb (N.eqb x) (str "uUlLiI"))) v -> tail_then c marks more [] v
| tt_exp t v : exponent_part c marks t -> not_continued (digit_of c) v -> tail_then c marks more t v
| tt_suffix t v : has_luajit c = true -> luajit_suffix t -> tail_then c marks more t v.
(** [0x], and in some versions [0b]. *)
Definition radix_prefix (c : cfg) (w : text) : Prop := exists x r, w = 48 :: x :: r /\ (ci 120 88 x \/ (has_luau c = true \/ has_luajit c = true) /\ ci 98 66 x).
Inductive number_then (c : cfg) : text -> text -> Prop :=
| nb_dec d m e v : digit d = true -> mant (digit_of c) true m -> tail_then c [101; 69] (fun x => digit_of c x || (x =? 46)) e v ->
    ~ radix_prefix c (d :: m ++ e ++ v) -> number_then c (d :: m ++ e) v
| nb_dot d m e v : digit d = true -> mant (digit_of c) true (d :: m) -> tail_then c [101; 69] (fun x => digit_of c x || (x =? 46)) e v ->
    number_then c (46 :: d :: m ++ e) v
| nb_hex x m e v : ci 120 88 x -> mant (hexdigit_of c) (has_lua52 c) m ->
    tail_then c (if has_lua52 c then [112; 80] else []) (fun x => hexdigit_of c x || (has_lua52 c && (x =? 46))) e v ->
    (m = [] -> has_luajit c = true /\ luajit_suffix e) -> number_then c (48 :: x :: m ++ e) v
| nb_bin b m e v : has_luau c = true \/ has_luajit c = true -> ci 98 66 b -> digits bindigit m -> tail_then c [] bindigit e v ->
    (m = [] -> has_luajit c = true /\ luajit_suffix e) -> number_then c (48 :: b :: m ++ e) v.

(** ** Sections of interpolated strings
    [f]: the delimiter that ends the section; [v]: what follows it. [z]: an escape came before, so one raw line break is
    allowed. After [\u{] everything up to the character before the next closing brace is part of the section. *)
Definition before_brace (w : text) : Prop := exists x r, w = x :: r /\ (r = [] \/ exists r', r = 125 :: r').
Inductive section_then (f : char) (v : text) : bool -> text -> Prop :=
| sx_nil z : section_then f v z []
| sx_char z x t : plain_char x -> section_then f v z t -> section_then f v z (x :: t)
| sx_break x t : line_break x -> section_then f v false t -> section_then f v true (x :: t)
| sx_escape z zs x t : forallb (N.eqb 122) zs = true -> x <> 122 -> (zs = [] -> x <> 117) -> section_then f v true t -> section_then f v z (92 :: zs ++ x :: t)
| sx_u z t : not_continued (N.eqb 123) (t ++ [f]) -> section_then f v z t -> section_then f v z (92 :: 117 :: t)
| sx_unicode z w t : ~ In 125 (tl (w ++ firstn 1 (t ++ [f]))) -> before_brace (t ++ f :: v) -> section_then f v z t ->
    section_then f v z (92 :: 117 :: 123 :: w ++ t).

(** ** White space: blanks and at most one line end, which is then the last; a carriage return can also be the first. *)
Definition blanks (w : text) : Prop := forallb (fun x => (x =? 32) || (x =? 9)) w = true.
Definition line_end (w : text) : Prop := w = [10] \/ w = [13; 10].
Inductive space_then : text -> text -> Prop :=
| sp_line_feed v : space_then [10] v
| sp_line x w e v : x = 32 \/ x = 9 \/ x = 13 -> blanks w -> line_end e -> space_then (x :: w ++ e) v
| sp_blanks x w v : x = 32 \/ x = 9 \/ x = 13 -> blanks w -> not_continued (fun y => (y =? 32) || (y =? 9)) v -> (forall e r, line_end e -> v <> e ++ r) ->
    space_then (x :: w) v.

(** ** Operators: the longest one, where no comment, long bracket or number begins. *)
Definition operator_then (c : cfg) (w v : text) : Prop :=
  In w (operators c) /\
  (forall o v', In o (operators c) -> w ++ v = o ++ v' -> (List.length o <= List.length w)%nat) /\
  (forall r, w ++ v <> str "--" ++ r) /\ (has_cfxlua c = true -> forall r, w ++ v <> str "/*" ++ r) /\
  (forall n r, w ++ v <> long_bracket_open n ++ r) /\ (forall d r, digit d = true -> w ++ v <> 46 :: d :: r).

(** ** Tokens, in a text where [v] follows *)
Inductive token_then (c : cfg) : token_type -> text -> Prop :=
| to_name w v : is_word w -> ~ In w (reserved_words c) -> not_continued word_part v -> token_then c (TIdentifier w) v
| to_keyword s v : In (sym_text s) (reserved_words c) -> not_continued word_part v -> token_then c (TSymbol s) v
| to_operator s v : operator_then c (sym_text s) v -> token_then c (TSymbol s) v
| to_number w v : number_then c w v -> token_then c (TNumber w) v
| to_quoted w q x v : quote_char q = Some x -> (q = QBacktick -> has_luau c = false /\ f_cfxlua (c_feat c) = true) -> accepted_body c x false w ->
    token_then c (TStringLiteral w O q) v
| to_long w n v : closes_first n (w ++ long_bracket_close n ++ v) w v -> token_then c (TStringLiteral w n QBrackets) v
| to_comment w v : ~ In 10 w -> (v = [] \/ exists r, v = 10 :: r) -> (forall n r, w ++ v <> long_bracket_open n ++ r) -> token_then c (TSingleLineComment w) v
| to_long_comment w n v : closes_first n (w ++ long_bracket_close n ++ v) w v -> token_then c (TMultiLineComment n w) v
| to_c_comment w v : has_cfxlua c = true -> (forall a b, w ++ str "*/" ++ v = a ++ str "*/" ++ b -> (List.length w <= List.length a)%nat) -> token_then c (TCStyleComment w) v
| to_space w v : space_then w v -> token_then c (TWhitespace w) v
| to_section w k v : has_luau c = true -> section_then (finishes k) v false w -> token_then c (TInterpolatedString w k) v.

(** ** Braces: in Luau a closing brace ends the innermost open brace or the innermost hole of an interpolated string. *)
Inductive turns (c : cfg) : list opened -> token_type -> list opened -> Prop :=
| tu_open s : turns c s (TSymbol SLeftBrace) (if has_luau c then Brace :: s else s)
| tu_close s : turns c (Brace :: s) (TSymbol SRightBrace) s
| tu_stray : turns c [] (TSymbol SRightBrace) []
| tu_begin s w : turns c s (TInterpolatedString w IBegin) (Hole :: s)
| tu_simple s w : turns c s (TInterpolatedString w ISimple) s
| tu_middle s w : turns c (Hole :: s) (TInterpolatedString w IMiddle) (Hole :: s)
| tu_end s w : turns c (Hole :: s) (TInterpolatedString w IEnd) s
| tu_other s t : t <> TSymbol SLeftBrace -> t <> TSymbol SRightBrace -> (forall w k, t <> TInterpolatedString w k) -> turns c s t s.

(** ** Texts *)
Inductive tokens_in (c : cfg) : list opened -> list token_type -> Prop :=
| ti_nil s : tokens_in c s []
| ti_cons s t s' ts : token_then c t (written ts) -> turns c s t s' -> tokens_in c s' ts -> tokens_in c s (t :: ts).
(** A file: perhaps a shebang line, then tokens, then the end. *)
Inductive file (c : cfg) : list token_type -> text -> Prop :=
| fi_plain ts : tokens_in c [] ts -> ~ shebang (written ts) -> file c (ts ++ [TEof]) (written ts)
| fi_shebang w ts : ~ In 10 w -> not_continued (fun x => negb (x =? 10)) (written ts) -> tokens_in c [] ts ->
    file c (TShebang (str "#!" ++ w) :: ts ++ [TEof]) (str "#!" ++ w ++ written ts).

(** ** Tokens side by side
    A space or a line end after a token; a comment that runs to the end of the line needs the line end. *)
Definition separates (t : token_type) (x : char) : Prop := x = 10 \/ x = 32 /\ forall w, t <> TSingleLineComment w.
(** Every token is followed by its separator. *)
Definition separated (l : list (token_type * char)) : list token_type := flat_map (fun p => [fst p; TWhitespace [snd p]]) l.
Inductive balanced (c : cfg) : list opened -> list token_type -> Prop :=
| ba_nil s : balanced c s []
| ba_cons s t s' ts : turns c s t s' -> balanced c s' ts -> balanced c s (t :: ts).
