(** Properties of single tokens: C07, C08, C10, C11, C13, C14, C15. Statements only. *)
From Verif Require Import LexerSpec LexerProofs LexerTheorems3 TokenSpec TokenProofs TokenTheorems.
Local Open Scope N_scope.

Definition found (c : cfg) (source : text) (tt : token_type) : bool :=
  match tokenize c source with
  | Done rs => existsb (fun t => if token_type_eq_dec (t_type t) tt then true else false) (tokens_of rs)
  | _ => false
  end.

(** C07. Identifier tokens are words that are not reserved, and they are maximal; the same for keywords.
    Conversely a maximal word is always read as one token of the right sort. *)
Theorem C07_identifiers : forall c source rs t w,
  tokenize c source = Done rs -> In t (tokens_of rs) -> t_type t = TIdentifier w ->
  is_word w /\ ~ In w (reserved_words c) /\
  exists u v, source = u ++ w ++ v /\ t_start t = pos_of u /\ not_continued word_part v.
Proof. exact identifiers_are_words. Qed.
Print Assumptions C07_identifiers.

Theorem C07_keywords : forall c source rs t sy,
  tokenize c source = Done rs -> In t (tokens_of rs) -> t_type t = TSymbol sy -> is_word (sym_text sy) ->
  In (sym_text sy) (reserved_words c) /\
  exists u v, source = u ++ sym_text sy ++ v /\ t_start t = pos_of u /\ not_continued word_part v.
Proof. exact keywords_are_words. Qed.
Print Assumptions C07_keywords.

Theorem C07_word_is_one_token : forall c l w v,
  s_rest (l_src l) = w ++ v -> is_word w -> not_continued word_part v ->
  exists t l', process_next c l = Done (Some (LOk t), l') /\ s_rest (l_src l') = v /\
    ((In w (reserved_words c) /\ exists sy, t_type t = TSymbol sy /\ sym_text sy = w) \/
     (~ In w (reserved_words c) /\ t_type t = TIdentifier w)).
Proof. exact word_is_one_token. Qed.
Print Assumptions C07_word_is_one_token.

(** [goto] is a keyword from 5.2 on and an identifier before; [ending] is never split. *)
Example C07_example :
  found cfg_lua51 (str "goto ending") (TIdentifier (str "goto")) = true /\
  found cfg_lua54 (str "goto ending") (TSymbol SGoto) = true /\
  found cfg_lua54 (str "goto ending") (TIdentifier (str "ending")) = true.
Proof. vm_compute. auto. Qed.
Example C07_word_example : s_rest (l_src (new_lazy (str "ending ="))) = str "ending" ++ str " =" /\
  is_word (str "ending") /\ not_continued word_part (str " =").
Proof.
  split; [reflexivity|]. split; [exists 101, (str "nding"); repeat split|]. intros x r E. injection E as <- _. reflexivity.
Qed.

(** C08. Operators are matched greedily, and a fatal error is only raised where no operator or word fits. *)
Theorem C08_longest_match : forall c source rs t sy,
  tokenize c source = Done rs -> In t (tokens_of rs) -> t_type t = TSymbol sy -> ~ is_word (sym_text sy) ->
  exists u v, source = u ++ sym_text sy ++ v /\ t_start t = pos_of u /\
    (cfg_ok c -> In (sym_text sy) (operators c)) /\
    forall op v', In op (operators c) -> sym_text sy ++ v = op ++ v' -> (List.length op <= List.length (sym_text sy))%nat.
Proof. exact operators_longest. Qed.
Print Assumptions C08_longest_match.

Theorem C08_fatal_only_unknown : forall c source rs e,
  tokenize c source = Done rs -> In (LFatal e) rs ->
  exists u x v k, source = u ++ x :: v /\ e = [mkTokError k (pos_of u, pos_of (u ++ [x]))] /\
    (forall op v', In op (operators c) \/ In op (reserved_words c) -> x :: v <> op ++ v').
Proof. exact fatal_only_unknown. Qed.
Print Assumptions C08_fatal_only_unknown.

Example C08_example : cfg_ok cfg_luau /\ cfg_ok cfg_lua54 /\
  found cfg_luau (str "a..=b") (TSymbol STwoDotsEqual) = true /\ found cfg_lua51 (str "a..=b") (TSymbol STwoDots) = true /\
  found cfg_lua54 (str "a>>=b") (TSymbol SDoubleGreaterThan) = true.
Proof. split; [split; [reflexivity|constructor]|]. split; [split; [reflexivity|constructor]|]. vm_compute. auto. Qed.
Example C08_fatal_example : exists rs, tokenize cfg_lua51 (str "a = $") = Done rs /\
  In (LFatal [mkTokError (UnexpectedToken (ch "$")) (pos_of (str "a = "), pos_of (str "a = $"))]) rs.
Proof. eexists. split; [vm_compute; reflexivity|]. vm_compute. auto. Qed.

(** C10. [from_str] inverts printing, exactly on the words and operators of the version. *)
Theorem C10_symbol_text : forall c,
  (forall sy, sym_from_str c (sym_text sy) = if sym_enabled c sy then Some sy else None) /\
  (forall a b, sym_text a = sym_text b -> a = b) /\
  (forall w sy, sym_from_str c w = Some sy -> sym_text sy = w) /\
  (forall w, (exists sy, sym_from_str c w = Some sy) <-> In w (reserved_words c) \/ In w (operators c)).
Proof. exact symbol_text_round_trip. Qed.
Print Assumptions C10_symbol_text.
Example C10_example : sym_from_str cfg_lua51 (str "goto") = None /\ sym_from_str cfg_lua54 (str "goto") = Some SGoto /\
  sym_from_str cfg_luau (str "//=") = Some SDoubleSlashEqual /\ sym_from_str cfg_luau (str "//==") = None.
Proof. vm_compute. auto. Qed.

(** C11. Versions are sets of dialects. *)
Theorem C11_version_sets : forall f,
  (forall x, has x f lv_lua51 = false) /\
  (forall x d, has x f (version_of d) = feature f x && mem x (includes d)) /\
  (forall x d v, has x f (with_dialect d v) = has x f v || (feature f x && mem x (includes d))) /\
  (forall x a b, has x f (lv_or a b) = has x f a || has x f b) /\
  (forall x, has x f lv_new = feature f x && mem x [Luau; Lua52; Lua53; Lua54; LuaJIT]) /\
  (forall x v, feature f x = false -> has x f v = false).
Proof. exact version_sets. Qed.
Print Assumptions C11_version_sets.
Example C11_example : has Lua52 all_features (with_dialect Lua54 lv_luau) = true /\ has LuaJIT all_features (with_dialect CfxLua lv_luau) = false.
Proof. vm_compute. auto. Qed.

(** C13. Long strings and long comments end at the first matching closer, or are reported as unclosed. *)
Theorem C13_long_string : forall c source rs t b n,
  tokenize c source = Done rs -> In t (tokens_of rs) -> t_type t = TStringLiteral b n QBrackets ->
  exists u full, source = u ++ long_bracket_open n ++ full /\ t_start t = pos_of u /\
    ((exists v, closes_first n full b v) \/
     (never_closes n full /\ b = full /\ exists e, In e (all_errors rs) /\ te_error e = UnclosedString /\ fst (te_range e) = pos_of u)).
Proof. exact long_string_first_close. Qed.
Print Assumptions C13_long_string.

Theorem C13_long_comment : forall c source rs t b n,
  tokenize c source = Done rs -> In t (tokens_of rs) -> t_type t = TMultiLineComment n b ->
  exists u full, source = u ++ str "--" ++ long_bracket_open n ++ full /\ t_start t = pos_of u /\
    ((exists v, closes_first n full b v) \/
     (never_closes n full /\ b = full /\ exists e, In e (all_errors rs) /\ te_error e = UnclosedComment /\ fst (te_range e) = pos_of u)).
Proof. exact long_comment_first_close. Qed.
Print Assumptions C13_long_comment.

(** A line comment does not begin with a long bracket and runs to the end of the line. *)
Theorem C13_line_comment : forall c source rs t b,
  tokenize c source = Done rs -> In t (tokens_of rs) -> t_type t = TSingleLineComment b ->
  exists u v, source = u ++ str "--" ++ b ++ v /\ t_start t = pos_of u /\ ~ In 10 b /\ not_continued (fun x => negb (x =? 10)) v /\
    (forall n w, b ++ v <> long_bracket_open n ++ w).
Proof. exact line_comment_to_line_end. Qed.
Print Assumptions C13_line_comment.

(** Wherever a long bracket opens, the lexer reads it to the first closer. *)
Theorem C13_long_string_step : forall c l n full, s_rest (l_src l) = long_bracket_open n ++ full ->
  (forall b v, closes_first n full b v -> exists t l', process_next c l = Done (Some (LOk t), l') /\
     t_type t = TStringLiteral b n QBrackets /\ s_rest (l_src l') = v) /\
  (never_closes n full -> exists t e l', process_next c l = Done (Some (LRecovered t [e]), l') /\
     t_type t = TStringLiteral full n QBrackets /\ te_error e = UnclosedString /\ s_rest (l_src l') = []).
Proof. exact long_string_step. Qed.
Print Assumptions C13_long_string_step.

Example C13_example :
  found cfg_lua51 (str "x = [==[ ]=] ]] ]==] ]==]") (TStringLiteral (str " ]=] ]] ") 2 QBrackets) = true /\
  found cfg_lua51 (str "--[=[ ]] ]=] x") (TMultiLineComment 1 (str " ]] ")) = true /\
  found cfg_lua51 (str "--[=x ]] ]=] x") (TSingleLineComment (str "[=x ]] ]=] x")) = true /\
  found cfg_lua51 (str "[[ ]=]") (TStringLiteral (str " ]=]") 0 QBrackets) = true.
Proof. vm_compute. auto. Qed.

(** C14. Quoted strings. In every version the literal is a sequence of plain characters and escapes; raw line
    breaks are excluded when none of 5.2, Luau, LuaJIT is enabled. *)
Theorem C14_quoted_string : forall c source rs t b qt q n,
  tokenize c source = Done rs -> In t (tokens_of rs) -> t_type t = TStringLiteral b n qt -> quote_char qt = Some q ->
  exists u, t_start t = pos_of u /\
    ((exists v, source = u ++ q :: b ++ q :: v /\ string_body q true b /\
        (has_lua52 c = false -> has_luau c = false -> has_luajit c = false -> string_body q false b)) \/
     (exists e, In e (all_errors rs) /\ te_error e = UnclosedString /\ fst (te_range e) = pos_of u /\
        (source = u ++ q :: b \/ exists d v, (d = 10 \/ d = 13) /\ source = u ++ q :: b ++ d :: v /\ string_body q true b))).
Proof. exact quoted_string_ends_at_quote. Qed.
Print Assumptions C14_quoted_string.

Theorem C14_string_step : forall c l q qt b v,
  s_rest (l_src l) = q :: b ++ q :: v -> quote_char qt = Some q -> qt <> QBacktick -> string_body q false b ->
  exists t l', process_next c l = Done (Some (LOk t), l') /\ t_type t = TStringLiteral b O qt /\ s_rest (l_src l') = v.
Proof. exact string_step. Qed.
Print Assumptions C14_string_step.

Example C14_example : found cfg_lua51 ([34; 97; 92; 34; 39; 92; 92; 34] ++ str " x") (TStringLiteral [97; 92; 34; 39; 92; 92] 0 QDouble) = true /\
  string_body 34 false [97; 92; 34; 39; 92; 92].
Proof. split; [vm_compute; reflexivity|]. repeat (first [apply sb_escape|apply sb_nil|(apply sb_char; [discriminate|discriminate|split; discriminate|])]). Qed.

(** Finding: with 5.2, Luau or LuaJIT any escape (not only [\z]) lets a raw line break into a string. *)
Theorem C14_raw_newline_refuted : exists rs t, tokenize cfg_lua54 [34; 92; 116; 10; 34] = Done rs /\ clean rs /\ In t (tokens_of rs) /\
  t_type t = TStringLiteral [92; 116; 10] O QDouble /\ ~ string_body 34 false [92; 116; 10].
Proof. exact raw_newline_accepted. Qed.
Print Assumptions C14_raw_newline_refuted.

(** C15. What the lexer accepts as a number, in every version; anything else is reported. *)
Theorem C15_number_tokens : forall c source rs t w,
  tokenize c source = Done rs -> In t (tokens_of rs) -> t_type t = TNumber w ->
  exists u v, source = u ++ w ++ v /\ t_start t = pos_of u /\
    (loose_numeral c w \/ exists e, In e (all_errors rs) /\ te_error e = InvalidNumber /\ fst (te_range e) = pos_of u).
Proof. exact numbers_are_loose_numerals. Qed.
Print Assumptions C15_number_tokens.

(** The exact gap between the lexer and the numeral grammar: two dots, or no digit after a radix prefix. *)
Theorem C15_loose_numeral_partial : forall c w,
  loose_numeral c w -> at_most_one_dot w -> has_radix_digit w -> numeral c w.
Proof. exact loose_is_numeral. Qed.
Print Assumptions C15_loose_numeral_partial.
Theorem C15_loose_numeral_lua51_partial : forall c w,
  has_lua52 c = false -> has_luau c = false -> has_luajit c = false -> loose_numeral c w -> at_most_one_dot w -> numeral c w.
Proof. exact loose_is_numeral_51. Qed.
Print Assumptions C15_loose_numeral_lua51_partial.

Example C15_example : found cfg_lua51 (str "x = 0x1F + 3.5e-2") (TNumber (str "3.5e-2")) = true /\
  loose_numeral cfg_lua51 (str "3.5e-2") /\ at_most_one_dot (str "3.5e-2") /\ has_radix_digit (str "3.5e-2").
Proof.
  split; [vm_compute; reflexivity|]. split.
  - apply (ln_dec cfg_lua51 51 (str ".5") (str "e-2")); [reflexivity|apply (mn_dot _ _ [] [53]); reflexivity|].
    apply tl_exp. apply (ep _ _ 101 [45] 50 []); auto; reflexivity || (left; reflexivity).
  - split; [unfold at_most_one_dot; vm_compute; auto|]. intros x r E. discriminate.
Qed.

(** Findings: numbers that no Lua grammar has are accepted without error. *)
Theorem C15_two_dots_refuted : exists rs t, tokenize cfg_lua51 (str ".1.2") = Done rs /\ clean rs /\ In t (tokens_of rs) /\
  t_type t = TNumber (str ".1.2") /\ ~ numeral cfg_lua51 (str ".1.2").
Proof. exact two_dots_accepted. Qed.
Print Assumptions C15_two_dots_refuted.
Theorem C15_no_digit_refuted :
  (exists rs t, tokenize cfg_lua54 (str "0x.") = Done rs /\ clean rs /\ In t (tokens_of rs) /\
     t_type t = TNumber (str "0x.") /\ ~ numeral cfg_lua54 (str "0x.")) /\
  (exists rs t, tokenize cfg_luau (str "0b_") = Done rs /\ clean rs /\ In t (tokens_of rs) /\
     t_type t = TNumber (str "0b_") /\ ~ numeral cfg_luau (str "0b_")) /\
  (exists rs t, tokenize cfg_all (str "0xll") = Done rs /\ clean rs /\ In t (tokens_of rs) /\
     t_type t = TNumber (str "0xll") /\ ~ numeral cfg_all (str "0xll")).
Proof. exact no_digit_accepted. Qed.
Print Assumptions C15_no_digit_refuted.
