(** The lexer, full-moon/src/tokenizer/lexer.rs and interpolated_strings.rs. Model only; no proofs here. *)
From Verif Require Export Token.
Local Open Scope N_scope.

(** ** Source cursor
    [LexerSource { source: Vec<char>, lexer_position: { position, index } }], lexer.rs:1432-1487.
    Simplification: [source] and [index] are represented by the remaining characters [source[index..]];
    saving and restoring [lexer_position] is saving and restoring this record. *)
Record src := mkSrc { s_rest : text; s_pos : position }.

(** [LexerSource::current], lexer.rs:1445-1447 *)
Definition src_current (s : src) : option char :=
  match s_rest s with c :: _ => Some c | [] => None end.

(** [LexerSource::next], lexer.rs:1449-1463 *)
Definition src_next (s : src) : option (char * src) :=
  match s_rest s with
  | c :: r => Some (c, mkSrc r (advance (s_pos s) c))
  | [] => None
  end.

(** [LexerSource::peek], lexer.rs:1465-1467 *)
Definition src_peek (s : src) : option char :=
  match s_rest s with _ :: c :: _ => Some c | _ => None end.

(** [LexerSource::consume], lexer.rs:1469-1476: [Some s'] when the character was consumed. *)
Definition src_consume (s : src) (c : char) : option src :=
  match s_rest s with
  | d :: r => if d =? c then Some (mkSrc r (advance (s_pos s) d)) else None
  | [] => None
  end.

(** [BraceType], interpolated_strings.rs:9-12 *)
Inductive brace := BInterpolated | BNormal.

(** The part of [Lexer] that [process_next] works on, lexer.rs:13-25 (without the two lookahead slots).
    [brace_stack] has its top at the head of the list. *)
Record lexer := mkLexer { l_src : src; l_sent_eof : bool; l_braces : list brace }.

Definition with_src (l : lexer) (s : src) : lexer := mkLexer s (l_sent_eof l) (l_braces l).

(** ** Character classes *)

Definition in_range (lo hi c : char) : bool := (lo <=? c) && (c <=? hi).

(** [is_identifier_start], lexer.rs:1428-1430 *)
Definition is_identifier_start (c : char) : bool :=
  in_range 97 122 c || in_range 65 90 c || (c =? 95).

(** [char::is_ascii_digit] (core library) and the pattern ['0'..='9'] *)
Definition is_digit (c : char) : bool := in_range 48 57 c.

(** ['0'..='9' | 'a'..='f' | 'A'..='F'], lexer.rs:1086 *)
Definition is_hex_digit (c : char) : bool := is_digit c || in_range 97 102 c || in_range 65 70 c.

(** [char::is_ascii_whitespace] (core library): space, tab, newline, form feed, carriage return *)
Definition is_ascii_whitespace (c : char) : bool :=
  (c =? c_space) || (c =? c_tab) || (c =? c_nl) || (c =? c_ff) || (c =? c_cr).

(** [matches!(c, 'u' | 'U')] and so on *)
Definition is_one_of (cs : text) (c : char) : bool := existsb (N.eqb c) cs.

(** ** Building results *)

(** [Lexer::create], lexer.rs:102-112 *)
Definition create (s : src) (start : position) (t : token_type) : lexres token :=
  LOk (mkToken start (s_pos s) t).

(** [Lexer::create_recovered], lexer.rs:114-128 *)
Definition create_recovered (s : src) (start : position) (t : token_type) (errs : list tok_error) : lexres token :=
  lexres_new (mkToken start (s_pos s) t) errs.

(** Error list used by the string and comment arms, lexer.rs:368-375, 614-621, 888-895:
    one error ranging from the start to the current position when [recovered]. *)
Definition recovered_errs (recovered : bool) (e : tok_error_type) (start : position) (s : src) : list tok_error :=
  if recovered then [mkTokError e (start, s_pos s)] else [].

(** ** Identifiers: loop of lexer.rs:274-280 *)
Fixpoint read_word (rest : text) (pos : position) (acc : text) : text * src :=
  match rest with
  | c :: r =>
      if is_identifier_start c || is_digit c
      then read_word r (advance pos c) (acc ++ [c])
      else (acc, mkSrc rest pos)
  | [] => (acc, mkSrc rest pos)
  end.

(** ** Whitespace: loop of lexer.rs:306-326; returns the characters, the hand-computed end position
    and the cursor. *)
Fixpoint read_whitespace (rest : text) (pos : position) (ws : text) (endp : position) : text * position * src :=
  match rest with
  | [] => (ws, endp, mkSrc rest pos)
  | c :: r =>
      if (c =? c_space) || (c =? c_tab) then
        read_whitespace r (advance pos c) (ws ++ [c])
          (mkPos (p_bytes endp + len_utf8 c) (p_line endp) (p_char endp + 1))
      else if c =? c_nl then
        (ws ++ [c], mkPos (p_bytes endp + len_utf8 c) (p_line endp) (p_char endp), mkSrc r (advance pos c))
      else if c =? c_cr then
        match r with
        | d :: r' =>
            if d =? c_nl then
              (ws ++ [c] ++ [d],
               mkPos (p_bytes endp + (len_utf8 c + len_utf8 d)) (p_line endp) (p_char endp + 1),
               mkSrc r' (advance (advance pos c) d))
            else (ws, endp, mkSrc rest pos)
        | [] => (ws, endp, mkSrc rest pos)
        end
      else (ws, endp, mkSrc rest pos)
  end.

(** ** Numbers *)

(** [Lexer::eat_invalid_number], lexer.rs:1015-1041 *)
Fixpoint eat_invalid_number (start : position) (rest : text) (pos : position) (number : text) : lexres token * src :=
  match rest with
  | [] =>
      (lexres_new (mkToken start pos (TNumber number)) [mkTokError InvalidNumber (start, pos)], mkSrc rest pos)
  | c :: r =>
      if is_ascii_whitespace c
      then (lexres_new (mkToken start pos (TNumber number)) [mkTokError InvalidNumber (start, pos)], mkSrc rest pos)
      else eat_invalid_number start r (advance pos c) (number ++ [c])
  end.

(** Digit loop of [Lexer::read_exponent_part], lexer.rs:1060-1066 *)
Fixpoint read_exp_digits (c : cfg) (rest : text) (pos : position) (number : text) : text * src :=
  match rest with
  | d :: r =>
      if is_digit d || (has_luau c && (d =? ch "_"))
      then read_exp_digits c r (advance pos d) (number ++ [d])
      else (number, mkSrc rest pos)
  | [] => (number, mkSrc rest pos)
  end.

(** [Lexer::read_exponent_part], lexer.rs:1044-1074, called with the cursor on the exponent marker
    [m :: rest]; the callers have peeked [m], so the [expect] at 1049 cannot fail and [m] is an argument. *)
Definition read_exponent_part (c : cfg) (start : position) (m : char) (rest : text) (pos : position) (number : text)
  : lexres token * src :=
  let number := number ++ [m] in
  let pos := advance pos m in
  let '(number, rest, pos) :=
    match rest with
    | d :: r => if (d =? ch "+") || (d =? ch "-") then (number ++ [d], r, advance pos d) else (number, rest, pos)
    | [] => (number, rest, pos)
    end in
  match rest with
  | d :: _ =>
      if is_digit d then
        let '(number, s) := read_exp_digits c rest pos number in
        (create s start (TNumber number), s)
      else eat_invalid_number start rest pos number
  | [] => eat_invalid_number start rest pos number
  end.

(** [Lexer::read_luajit_number_suffix], lexer.rs:1166-1201. After an accepted [u]/[U] the loop continues. *)
Fixpoint read_luajit_number_suffix (start : position) (rest : text) (pos : position) (number : text) : lexres token * src :=
  match rest with
  | c :: r =>
      if (c =? ch "u") || (c =? ch "U") then
        match r with
        | d :: _ =>
            if (d =? ch "l") || (d =? ch "L")
            then read_luajit_number_suffix start r (advance pos c) (number ++ [c])
            else eat_invalid_number start r (advance pos c) (number ++ [c])
        | [] => eat_invalid_number start r (advance pos c) (number ++ [c])
        end
      else if (c =? ch "l") || (c =? ch "L") then
        match r with
        | d :: r' =>
            if (d =? ch "l") || (d =? ch "L")
            then
              let s := mkSrc r' (advance (advance pos c) d) in
              (create s start (TNumber (number ++ [c] ++ [d])), s)
            else eat_invalid_number start r (advance pos c) (number ++ [c])
        | [] => eat_invalid_number start r (advance pos c) (number ++ [c])
        end
      else if (c =? ch "i") || (c =? ch "I") then
        let s := mkSrc r (advance pos c) in
        (create s start (TNumber (number ++ [c])), s)
      else eat_invalid_number start rest pos number
  | [] => (create (mkSrc rest pos) start (TNumber number), mkSrc rest pos)
  end.

Definition is_suffix_char (c : char) : bool := is_one_of (str "uUlLiI") c.

(** [Lexer::read_number], lexer.rs:979-1013 *)
Fixpoint read_number (c : cfg) (start : position) (rest : text) (pos : position) (number : text) (hit_decimal : bool)
  : lexres token * src :=
  match rest with
  | d :: r =>
      if is_digit d || (has_luau c && (d =? ch "_")) then
        read_number c start r (advance pos d) (number ++ [d]) hit_decimal
      else if d =? ch "." then
        if hit_decimal then eat_invalid_number start rest pos number
        else read_number c start r (advance pos d) (number ++ [d]) true
      else if (d =? ch "e") || (d =? ch "E") then
        read_exponent_part c start d r pos number
      else if has_luajit c && is_suffix_char d then
        read_luajit_number_suffix start rest pos number
      else (create (mkSrc rest pos) start (TNumber number), mkSrc rest pos)
  | [] => (create (mkSrc rest pos) start (TNumber number), mkSrc rest pos)
  end.

(** Tail of [Lexer::read_hex_number] and [read_binary_number] after the loop, lexer.rs:1119-1128 and 1154-1163;
    [number.len()] is the byte length, and every pushed character is ASCII, so it is the character count. *)
Definition finish_radix (start : position) (rest : text) (pos : position) (number : text) : lexres token * src :=
  if Nat.eqb (List.length number) 2 then eat_invalid_number start rest pos number
  else (create (mkSrc rest pos) start (TNumber number), mkSrc rest pos).

(** [Lexer::read_hex_number], lexer.rs:1076-1129 (loop; the initial [number] is ['0', hex_character]) *)
Fixpoint read_hex_number (c : cfg) (start : position) (rest : text) (pos : position) (number : text) (hit_decimal : bool)
  : lexres token * src :=
  match rest with
  | d :: r =>
      if is_hex_digit d then read_hex_number c start r (advance pos d) (number ++ [d]) hit_decimal
      else if (d =? ch "_") && has_luau c then read_hex_number c start r (advance pos d) (number ++ [d]) hit_decimal
      else if (d =? ch ".") && has_lua52 c then
        if hit_decimal then eat_invalid_number start rest pos number
        else read_hex_number c start r (advance pos d) (number ++ [d]) true
      else if ((d =? ch "p") || (d =? ch "P")) && has_lua52 c then
        if Nat.eqb (List.length number) 2 then eat_invalid_number start rest pos number
        else read_exponent_part c start d r pos number
      else if is_suffix_char d && has_luajit c then read_luajit_number_suffix start rest pos number
      else finish_radix start rest pos number
  | [] => finish_radix start rest pos number
  end.

(** [Lexer::read_binary_number], lexer.rs:1131-1164 *)
Fixpoint read_binary_number (c : cfg) (start : position) (rest : text) (pos : position) (number : text)
  : lexres token * src :=
  match rest with
  | d :: r =>
      if (d =? ch "0") || (d =? ch "1") || (d =? ch "_")
      then read_binary_number c start r (advance pos d) (number ++ [d])
      else if is_suffix_char d && has_luajit c then read_luajit_number_suffix start rest pos number
      else finish_radix start rest pos number
  | [] => finish_radix start rest pos number
  end.

(** ** Quoted strings: loop of [Lexer::read_string], lexer.rs:1218-1290.
    Returns the literal, whether it had to be recovered, and the cursor. *)
Fixpoint read_string_loop (c : cfg) (quote : char) (rest : text) (pos : position)
    (literal : text) (escape z_escaped : bool) : text * bool * src :=
  match rest with
  | [] => (literal, true, mkSrc rest pos)
  | d :: r =>
      let pos' := advance pos d in
      if escape then
        if (d =? ch "z") && (has_lua52 c || has_luau c || has_luajit c) then
          read_string_loop c quote r pos' (literal ++ [ch "z"]) false true
        else
          read_string_loop c quote r pos' (literal ++ [d]) false
            (if has_lua52 c || has_luau c then true else z_escaped)
      else if d =? c_backslash then
        read_string_loop c quote r pos' (literal ++ [c_backslash]) true z_escaped
      else if (d =? c_nl) || (d =? c_cr) then
        if z_escaped then read_string_loop c quote r pos' (literal ++ [d]) false false
        else (literal, true, mkSrc r pos')
      else if d =? quote then (literal, false, mkSrc r pos')
      else read_string_loop c quote r pos' (literal ++ [d]) false z_escaped
  end.

(** Quote type selection of [Lexer::read_string], lexer.rs:1205-1211; [None] is the [unreachable!()]. *)
Definition string_quote_type (c : cfg) (quote : char) : option quote_type :=
  if quote =? c_dquote then Some QDouble
  else if quote =? c_squote then Some QSingle
  else if f_cfxlua (c_feat c) && (quote =? c_backtick) then Some QBacktick
  else None.

(** ** Long brackets: [Lexer::read_multi_line_body], lexer.rs:1350-1401 *)

(** [MultiLineBodyResult], lexer.rs:1548-1552 *)
Inductive multi_line_result :=
| MOk (blocks : nat) (body : text)
| MNotMultiLine (blocks : nat)
| MUnclosed (blocks : nat) (body : text).

(** [while self.source.consume('=')], lexer.rs:1351-1354 *)
Fixpoint count_eq (rest : text) (pos : position) (blocks : nat) : nat * src :=
  match rest with
  | c :: r => if c =? ch "=" then count_eq r (advance pos c) (S blocks) else (blocks, mkSrc rest pos)
  | [] => (blocks, mkSrc rest pos)
  end.

(** The loop ['read_comment_char], lexer.rs:1362-1398. Simplification: the nested loop counting equal
    signs after a [']'] (1371-1383) is a state: [pending = Some k] means a [']'] and [k] equal signs have
    been consumed and are not yet in [body]. *)
Fixpoint read_body (blocks : nat) (rest : text) (pos : position) (body : text) (pending : option nat)
  : multi_line_result * src :=
  match rest with
  | [] =>
      let body := match pending with Some k => body ++ [ch "]"] ++ repeat_eq k | None => body end in
      (MUnclosed blocks body, mkSrc rest pos)
  | c :: r =>
      let pos' := advance pos c in
      match pending with
      | Some k =>
          if (Nat.ltb k blocks) && (c =? ch "=") then read_body blocks r pos' body (Some (S k))
          else if negb (Nat.ltb k blocks) && (c =? ch "]") then (MOk blocks body, mkSrc r pos')
          else
            let body := body ++ [ch "]"] ++ repeat_eq k in
            if c =? ch "]" then read_body blocks r pos' body (Some O)
            else read_body blocks r pos' (body ++ [c]) None
      | None =>
          if c =? ch "]" then read_body blocks r pos' body (Some O)
          else read_body blocks r pos' (body ++ [c]) None
      end
  end.

Definition read_multi_line_body (s : src) : multi_line_result * src :=
  let '(blocks, s) := count_eq (s_rest s) (s_pos s) O in
  match src_consume s (ch "[") with
  | None => (MNotMultiLine blocks, s)
  | Some s => read_body blocks (s_rest s) (s_pos s) [] None
  end.

(** ** Comments *)

(** The single-line loop of [Lexer::read_comment], lexer.rs:1329-1340: stops before the newline. *)
Fixpoint read_line (rest : text) (pos : position) (comment : text) : text * src :=
  match rest with
  | c :: r => if c =? c_nl then (comment, mkSrc rest pos) else read_line r (advance pos c) (comment ++ [c])
  | [] => (comment, mkSrc rest pos)
  end.

(** [Lexer::read_comment], lexer.rs:1294-1348 *)
Definition read_comment (s : src) : token_type * bool * src :=
  let '(early, comment, s) :=
    match src_consume s (ch "[") with
    | Some s =>
        match read_multi_line_body s with
        | (MOk blocks body, s) => (Some (TMultiLineComment blocks body, false), [], s)
        | (MUnclosed blocks body, s) => (Some (TMultiLineComment blocks body, true), [], s)
        | (MNotMultiLine blocks, s) => (None, [ch "["] ++ repeat_eq blocks, s)
        end
    | None => (None, [], s)
    end in
  match early with
  | Some (t, recovered) => (t, recovered, s)
  | None =>
      let '(comment, s) := read_line (s_rest s) (s_pos s) comment in
      (TSingleLineComment comment, false, s)
  end.

(** [Lexer::read_c_style_comment], lexer.rs:1404-1425 *)
Fixpoint read_c_style_comment (rest : text) (pos : position) (comment : text) : token_type * bool * src :=
  match rest with
  | [] => (TCStyleComment comment, true, mkSrc rest pos)
  | c :: r =>
      if c =? ch "*" then
        match r with
        | d :: r' =>
            if d =? ch "/" then (TCStyleComment comment, false, mkSrc r' (advance (advance pos c) d))
            else read_c_style_comment r (advance pos c) (comment ++ [c])
        | [] => read_c_style_comment r (advance pos c) (comment ++ [c])
        end
      else read_c_style_comment r (advance pos c) (comment ++ [c])
  end.

(** ** Interpolated strings: [read_interpolated_string_section], interpolated_strings.rs:14-114.
    Returns the characters and how the section ended: [Some true] at an opening brace, [Some false] at a
    backtick, [None] when unclosed. Simplification: the inner loop skipping the body of a [\u{...}]
    (52-54) is the state [in_u]. *)
Fixpoint read_istr (rest : text) (pos : position) (characters : text) (escape z_escaped in_u : bool)
  : text * option bool * src :=
  match rest with
  | [] => (characters, None, mkSrc rest pos)
  | c :: r =>
      let pos' := advance pos c in
      if in_u && match r with d :: _ => negb (d =? ch "}") | [] => false end then
        read_istr r pos' (characters ++ [c]) escape z_escaped true
      else if negb escape && negb z_escaped && ((c =? c_nl) || (c =? c_cr)) then
        (characters, None, mkSrc rest pos)
      else if escape then
        if c =? ch "z" then read_istr r pos' (characters ++ [ch "z"]) true true false
        else read_istr r pos' (characters ++ [c]) false true false
      else if c =? c_backslash then
        match r with
        | d :: r' =>
            if d =? ch "u" then
              let pos'' := advance pos' d in
              match r' with
              | e :: r'' =>
                  if e =? ch "{"
                  then read_istr r'' (advance pos'' e) (characters ++ [c_backslash] ++ [ch "u"] ++ [ch "{"]) escape z_escaped true
                  else read_istr r' pos'' (characters ++ [c_backslash] ++ [ch "u"]) escape z_escaped false
              | [] => read_istr r' pos'' (characters ++ [c_backslash] ++ [ch "u"]) escape z_escaped false
              end
            else read_istr r pos' (characters ++ [c]) true z_escaped false
        | [] => read_istr r pos' (characters ++ [c]) true z_escaped false
        end
      else if ((c =? c_nl) || (c =? c_cr)) && z_escaped then
        read_istr r pos' (characters ++ [c]) escape false false
      else if c =? ch "{" then (characters, Some true, mkSrc r pos')
      else if c =? c_backtick then (characters, Some false, mkSrc r pos')
      else read_istr r pos' (characters ++ [c]) escape z_escaped false
  end.

Definition read_interpolated_string_section (l : lexer) (start : position) (format_type end_type : istr_kind)
  : lexres token * lexer :=
  match read_istr (s_rest (l_src l)) (s_pos (l_src l)) [] false false false with
  | (chars, Some true, s) =>
      (LOk (mkToken start (s_pos s) (TInterpolatedString chars format_type)),
       mkLexer s (l_sent_eof l) (BInterpolated :: l_braces l))
  | (chars, Some false, s) =>
      (LOk (mkToken start (s_pos s) (TInterpolatedString chars end_type)), with_src l s)
  | (chars, None, s) =>
      (LRecovered (mkToken start (s_pos s) (TInterpolatedString chars end_type))
                  [mkTokError UnclosedString (start, s_pos s)], with_src l s)
  end.

(** ** [Lexer::process_next], lexer.rs:257-977.
    [version_switch!] blocks with several versions repeat the same block once per enabled version
    (parser_util.rs:21-38); each block either returns or leaves the lexer unchanged, so it is modelled as
    one block under the disjunction. *)

Definition next_result := out (option (lexres token) * lexer).

Definition yield (r : lexres token) (l : lexer) : next_result := Done (Some r, l).

(** Produce the symbol [sym] with cursor [s]. *)
Definition yield_symbol (l : lexer) (start : position) (s : src) (sym : symbol) : next_result :=
  yield (create s start (TSymbol sym)) (with_src l s).

(** If the next character is [c] (and [guard] holds), consume it and continue with [k]; otherwise [d]. *)
Definition on_char {A} (guard : bool) (s : src) (c : char) (k : src -> A) (d : A) : A :=
  if guard then match src_consume s c with Some s' => k s' | None => d end else d.

Definition process_next (c : cfg) (l : lexer) : next_result :=
  let start := s_pos (l_src l) in
  match src_next (l_src l) with
  | None =>
      if l_sent_eof l then Done (None, l)
      else yield (create (l_src l) start TEof) (mkLexer (l_src l) true (l_braces l))
  | Some (next, s) =>
      let sym := yield_symbol l start in
      if is_identifier_start next then
        let '(word, s) := read_word (s_rest s) (s_pos s) [next] in
        let tt := match sym_from_str c word with Some sy => TSymbol sy | None => TIdentifier word end in
        yield (create s start tt) (with_src l s)
      else if (next =? c_space) || (next =? c_tab) || (next =? c_cr) then
        let endp := mkPos (p_bytes start + len_utf8 next) (p_line start) (p_char start + 1) in
        let '(ws, endp, s) := read_whitespace (s_rest s) (s_pos s) [next] endp in
        yield (LOk (mkToken start endp (TWhitespace ws))) (with_src l s)
      else if next =? ch "0" then
        match s_rest s with
        | d :: r =>
            if (d =? ch "x") || (d =? ch "X") then
              let '(t, s) := read_hex_number c start r (advance (s_pos s) d) [ch "0"; d] false in
              yield t (with_src l s)
            else if (has_luau c || has_luajit c) && ((d =? ch "b") || (d =? ch "B")) then
              let '(t, s) := read_binary_number c start r (advance (s_pos s) d) [ch "0"; d] in
              yield t (with_src l s)
            else
              let '(t, s) := read_number c start (s_rest s) (s_pos s) [next] false in
              yield t (with_src l s)
        | [] =>
            let '(t, s) := read_number c start (s_rest s) (s_pos s) [next] false in
            yield t (with_src l s)
        end
      else if in_range 49 57 next then
        let '(t, s) := read_number c start (s_rest s) (s_pos s) [next] false in
        yield t (with_src l s)
      else if (next =? c_dquote) || (next =? c_squote) || (next =? c_backtick) then
        if has_luau c && (next =? c_backtick) then
          let '(t, l) := read_interpolated_string_section (with_src l s) start IBegin ISimple in
          yield t l
        else
          match string_quote_type c next with
          | None => Panic
          | Some q =>
              let '(literal, recovered, s) := read_string_loop c next (s_rest s) (s_pos s) [] false false in
              yield (create_recovered s start (TStringLiteral literal O q)
                       (recovered_errs recovered UnclosedString start s)) (with_src l s)
          end
      else if next =? ch "=" then
        on_char true s (ch "=") (fun s => sym s STwoEqual) (sym s SEqual)
      else if next =? ch "~" then
        on_char true s (ch "=") (fun s => sym s STildeEqual)
          (if has_lua53 c then sym s STilde
           else yield (LFatal [mkTokError (InvalidSymbol (str "~")) (start, s_pos s)]) (with_src l s))
      else if next =? c_nl then
        yield (LOk (mkToken start (mkPos (p_bytes start + 1) (p_line start) (p_char start)) (TWhitespace [c_nl])))
              (with_src l s)
      else if next =? ch "(" then sym s SLeftParen
      else if next =? ch ")" then sym s SRightParen
      else if next =? ch "[" then
        match src_current s with
        | Some d =>
            if (d =? ch "[") || (d =? ch "=") then
              match read_multi_line_body s with
              | (MOk blocks body, s) =>
                  yield (create s start (TStringLiteral body blocks QBrackets)) (with_src l s)
              | (MUnclosed blocks body, s) =>
                  yield (create_recovered s start (TStringLiteral body blocks QBrackets)
                           [mkTokError UnclosedString (start, s_pos s)]) (with_src l s)
              | (MNotMultiLine _, _) => sym s SLeftBracket
              end
            else sym s SLeftBracket
        | None => sym s SLeftBracket
        end
      else if next =? ch "]" then sym s SRightBracket
      else if next =? ch ":" then
        on_char (has_lua52 c || has_luau c || has_luajit c) s (ch ":") (fun s => sym s STwoColons) (sym s SColon)
      else if next =? ch "," then sym s SComma
      else if next =? ch "+" then
        on_char (has_luau c || has_cfxlua c) s (ch "=") (fun s => sym s SPlusEqual) (sym s SPlus)
      else if next =? ch "*" then
        on_char (has_luau c || has_cfxlua c) s (ch "=") (fun s => sym s SStarEqual) (sym s SStar)
      else if next =? ch "/" then
        if has_lua53 c || has_luau c || has_cfxlua c then
          on_char true s (ch "/")
            (fun s => on_char (has_luau c) s (ch "=") (fun s => sym s SDoubleSlashEqual) (sym s SDoubleSlash))
            (on_char (has_luau c || has_cfxlua c) s (ch "=") (fun s => sym s SSlashEqual)
              (on_char (has_cfxlua c) s (ch "*")
                (fun s =>
                   let '(t, recovered, s) := read_c_style_comment (s_rest s) (s_pos s) [] in
                   yield (create_recovered s start t (recovered_errs recovered UnclosedComment start s)) (with_src l s))
                (sym s SSlash)))
        else sym s SSlash
      else if next =? ch "%" then
        on_char (has_luau c) s (ch "=") (fun s => sym s SPercentEqual) (sym s SPercent)
      else if next =? ch "^" then
        on_char (has_luau c || has_cfxlua c) s (ch "=") (fun s => sym s SCaretEqual) (sym s SCaret)
      else if next =? ch "#" then sym s SHash
      else if next =? ch "<" then
        on_char (has_lua53 c || has_cfxlua c) s (ch "<")
          (fun s => on_char (has_cfxlua c) s (ch "=") (fun s => sym s SDoubleLessThanEqual) (sym s SDoubleLessThan))
          (on_char true s (ch "=") (fun s => sym s SLessThanEqual) (sym s SLessThan))
      else if next =? ch ">" then
        on_char (has_lua53 c || has_cfxlua c) s (ch ">")
          (fun s => on_char (has_cfxlua c) s (ch "=") (fun s => sym s SDoubleGreaterThanEqual) (sym s SDoubleGreaterThan))
          (on_char true s (ch "=") (fun s => sym s SGreaterThanEqual) (sym s SGreaterThan))
      else if next =? ch "{" then
        let l := if has_luau c then mkLexer (l_src l) (l_sent_eof l) (BNormal :: l_braces l) else l in
        yield_symbol l start s SLeftBrace
      else if next =? ch "}" then
        if has_luau c then
          match l_braces l with
          | BInterpolated :: bs =>
              let '(t, l) := read_interpolated_string_section (mkLexer s (l_sent_eof l) bs) start IMiddle IEnd in
              yield t l
          | BNormal :: bs => yield_symbol (mkLexer (l_src l) (l_sent_eof l) bs) start s SRightBrace
          | [] => sym s SRightBrace
          end
        else sym s SRightBrace
      else if next =? ch "." then
        on_char true s (ch ".")
          (fun s =>
             on_char true s (ch ".") (fun s => sym s SEllipsis)
               (on_char (has_luau c) s (ch "=") (fun s => sym s STwoDotsEqual) (sym s STwoDots)))
          (match src_current s with
           | Some d =>
               if is_digit d then
                 let '(t, s) := read_number c start (s_rest s) (s_pos s) [ch "."] false in
                 yield t (with_src l s)
               else sym s SDot
           | None => sym s SDot
           end)
      else if next =? ch "-" then
        on_char (has_luau c || has_cfxlua c) s (ch "=") (fun s => sym s SMinusEqual)
          (on_char (has_luau c) s (ch ">") (fun s => sym s SThinArrow)
            (on_char true s (ch "-")
              (fun s =>
                 let '(t, recovered, s) := read_comment s in
                 yield (create_recovered s start t (recovered_errs recovered UnclosedComment start s)) (with_src l s))
              (sym s SMinus)))
      else if next =? ch ";" then sym s SSemicolon
      else
        (* lexer.rs:914-975: guarded arms for & | ? @, then the fallback *)
        let unknown := yield (LFatal [mkTokError (UnexpectedToken next) (start, s_pos s)]) (with_src l s) in
        if next =? ch "&" then
          on_char (has_cfxlua c) s (ch "=") (fun s => sym s SAmpersandEqual)
            (if has_lua53 c || has_luau c then sym s SAmpersand else unknown)
        else if next =? ch "|" then
          on_char (has_cfxlua c) s (ch "=") (fun s => sym s SPipeEqual)
            (if has_lua53 c || has_luau c then sym s SPipe else unknown)
        else if next =? ch "?" then
          on_char (has_cfxlua c) s (ch ".") (fun s => sym s SQuestionMarkDot)
            (if has_luau c then sym s SQuestionMark else unknown)
        else if next =? ch "@" then
          if has_luau c then sym s SAtSign else unknown
        else unknown
  end.

(** ** Token references *)

(** Characters that may start trailing trivia, lexer.rs:221-224 *)
Definition starts_trivia (c : char) : bool :=
  (c =? c_nl) || (c =? c_cr) || (c =? c_tab) || (c =? ch "#") || (c =? ch "-") || (c =? c_space).

(** [Lexer::collect_trailing_trivia], lexer.rs:213-254 *)
Fixpoint collect_trailing_trivia (fuel : nat) (c : cfg) (l : lexer) : out (list token * lexer) :=
  match fuel with
  | O => OutOfFuel
  | S fuel =>
      let stop (braces : list brace) := Done ([], mkLexer (l_src l) (l_sent_eof l) braces) in
      match src_current (l_src l) with
      | Some ch0 =>
          if starts_trivia ch0 then
            match process_next c l with
            | Panic => Panic
            | OutOfFuel => OutOfFuel
            | Done (Some (LOk token), l') =>
                if is_trivia (t_type token) then
                  let should_break :=
                    match t_type token with
                    | TWhitespace characters => existsb (N.eqb c_nl) characters
                    | _ => false
                    end in
                  if should_break then Done ([token], l')
                  else
                    match collect_trailing_trivia fuel c l' with
                    | Done (rest, l'') => Done (token :: rest, l'')
                    | Panic => Panic
                    | OutOfFuel => OutOfFuel
                    end
                else stop (l_braces l')
            | Done (_, l') => stop (l_braces l')
            end
          else stop (l_braces l)
      | None => stop (l_braces l)
      end
  end.

(** Loop of [Lexer::process_next_with_trivia], lexer.rs:131-162. [errors = None] is "no error so far". *)
Inductive leading_result :=
| LdNone                                               (* [process_next] returned [None] *)
| LdFatal (errs : list tok_error)                      (* lexer.rs:144-146 *)
| LdToken (t : token) (leading : list token) (errors : option (list tok_error)).

Fixpoint leading_loop (fuel : nat) (c : cfg) (l : lexer) (leading : list token) (errors : option (list tok_error))
  : out (leading_result * lexer) :=
  match fuel with
  | O => OutOfFuel
  | S fuel =>
      match process_next c l with
      | Panic => Panic
      | OutOfFuel => OutOfFuel
      | Done (None, l') => Done (LdNone, l')
      | Done (Some (LOk token), l') =>
          if is_trivia (t_type token) then leading_loop fuel c l' (leading ++ [token]) errors
          else Done (LdToken token leading errors, l')
      | Done (Some (LFatal e), l') => Done (LdFatal e, l')
      | Done (Some (LRecovered token e), l') =>
          let errors := match errors with Some es => Some (es ++ e) | None => Some e end in
          if is_trivia (t_type token) then leading_loop fuel c l' (leading ++ [token]) errors
          else Done (LdToken token leading errors, l')
      end
  end.

(** Enough fuel for one traversal of the remaining source (Eof counts as a step). *)
Definition lexer_fuel (l : lexer) : nat := S (S (List.length (s_rest (l_src l)))).

(** [Lexer::process_next_with_trivia], lexer.rs:130-176 *)
Definition process_next_with_trivia (c : cfg) (l : lexer) : out (option (lexres tokref) * lexer) :=
  match leading_loop (lexer_fuel l) c l [] None with
  | Panic => Panic
  | OutOfFuel => OutOfFuel
  | Done (LdNone, l) => Done (None, l)
  | Done (LdFatal e, l) => Done (Some (LFatal e), l)
  | Done (LdToken t leading errors, l) =>
      match collect_trailing_trivia (lexer_fuel l) c l with
      | Panic => Panic
      | OutOfFuel => OutOfFuel
      | Done (trailing, l) =>
          let r := mkRef leading t trailing in
          match errors with
          | Some e => Done (Some (LRecovered r e), l)
          | None => Done (Some (LOk r), l)
          end
      end
  end.

(** [Lexer::process_first_with_trivia], lexer.rs:178-211 *)
Definition process_first_with_trivia (c : cfg) (l : lexer) : out (option (lexres tokref) * lexer) :=
  match s_rest (l_src l) with
  | h :: b :: r =>
      if (h =? ch "#") && (b =? ch "!") then
        let start := s_pos (l_src l) in
        let '(line, s) := read_line r (advance (advance start h) b) (str "#!") in
        let shebang := mkToken start (s_pos s) (TShebang line) in
        match process_next_with_trivia c (with_src l s) with
        | Panic => Panic
        | OutOfFuel => OutOfFuel
        | Done (Some (LOk r), l) =>
            Done (Some (LOk (mkRef (shebang :: r_leading r) (r_token r) (r_trailing r))), l)
        | Done (_, l) => process_next_with_trivia c l
        end
      else process_next_with_trivia c l
  | _ => process_next_with_trivia c l
  end.

(** [Lexer::new_lazy], lexer.rs:40-53 (without the two empty lookahead slots) *)
Definition new_lazy (source : text) : lexer := mkLexer (mkSrc source pos0) false [].

(** The whole [Lexer], lexer.rs:13-25 *)
Record Lexer := mkLx { lx : lexer; lx_next : option (lexres tokref); lx_peek : option (lexres tokref) }.

(** [Lexer::new], lexer.rs:29-36 *)
Definition lexer_new (c : cfg) (source : text) : out Lexer :=
  match process_first_with_trivia c (new_lazy source) with
  | Panic => Panic
  | OutOfFuel => OutOfFuel
  | Done (n, l) =>
      match process_next_with_trivia c l with
      | Panic => Panic
      | OutOfFuel => OutOfFuel
      | Done (p, l) => Done (mkLx l n p)
      end
  end.

(** [Lexer::current] and [Lexer::peek], lexer.rs:56-63 *)
Definition lexer_current (x : Lexer) : option (lexres tokref) := lx_next x.
Definition lexer_peek (x : Lexer) : option (lexres tokref) := lx_peek x.

(** [Lexer::consume], lexer.rs:66-71. [self.next_token.take()?] returns early when it is [None]. *)
Definition lexer_consume (c : cfg) (x : Lexer) : out (option (lexres tokref) * Lexer) :=
  match lx_next x with
  | None => Done (None, x)
  | Some next =>
      match process_next_with_trivia c (lx x) with
      | Panic => Panic
      | OutOfFuel => OutOfFuel
      | Done (p, l) => Done (Some next, mkLx l (lx_peek x) p)
      end
  end.

(** [Lexer::collect], lexer.rs:74-100 (loop on fuel) *)
Fixpoint collect_loop (fuel : nat) (c : cfg) (x : Lexer) (tokens : list token) (errors : list tok_error)
  : out (lexres (list token)) :=
  match fuel with
  | O => OutOfFuel
  | S fuel =>
      match lexer_consume c x with
      | Panic => Panic
      | OutOfFuel => OutOfFuel
      | Done (None, _) => Done (lexres_new tokens errors)
      | Done (Some (LOk r), x) =>
          collect_loop fuel c x (tokens ++ r_leading r ++ [r_token r] ++ r_trailing r) errors
      | Done (Some (LRecovered r e), x) =>
          collect_loop fuel c x (tokens ++ r_leading r ++ [r_token r] ++ r_trailing r) (errors ++ e)
      | Done (Some (LFatal e), x) => collect_loop fuel c x tokens (errors ++ e)
      end
  end.

Definition lexer_collect (c : cfg) (x : Lexer) : out (lexres (list token)) :=
  collect_loop (lexer_fuel (lx x) + 2) c x [] [].
