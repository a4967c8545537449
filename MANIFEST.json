{
 "claims": [
  {
   "property": "C01",
   "status": "proved",
   "theorems": [
    "C01_lexing_lossless",
    "C01_lexing_lossless_no_shebang"
   ],
   "note": "For every configuration and source; the shebang_kept hypothesis only concerns sources starting with #! (C20 shows the line can be lost)."
  },
  {
   "property": "C02",
   "status": "proved",
   "theorems": [
    "C02_byte_ranges_tile"
   ],
   "note": ""
  },
  {
   "property": "C03",
   "status": "proved",
   "theorems": [
    "C03_positions_match"
   ],
   "note": ""
  },
  {
   "property": "C04",
   "status": "proved",
   "theorems": [
    "C04_one_eof_last",
    "C04_one_eof_last_shebang",
    "C04_none_forever"
   ],
   "note": "With a shebang line the stream can be completely empty, see C20."
  },
  {
   "property": "C05",
   "status": "proved",
   "theorems": [
    "C05_terminates",
    "C05_at_most_n_plus_one",
    "C05_progress"
   ],
   "note": ""
  },
  {
   "property": "C06",
   "status": "proved",
   "theorems": [
    "C06_trivia_attachment",
    "C06_trailing_maximal",
    "C06_shebang_only_first"
   ],
   "note": ""
  },
  {
   "property": "C07",
   "status": "proved",
   "theorems": [
    "C07_identifiers",
    "C07_keywords",
    "C07_word_is_one_token"
   ],
   "note": ""
  },
  {
   "property": "C08",
   "status": "proved",
   "theorems": [
    "C08_longest_match",
    "C08_fatal_only_unknown"
   ],
   "note": ""
  },
  {
   "property": "C09",
   "status": "partial",
   "theorems": [
    "C09_lexing_never_panics_refuted",
    "C09_lexing_never_panics_partial",
    "C09_process_next_panics_iff"
   ],
   "note": "False in general: a backtick panics when Luau is off and the crate is built without cfxlua. Proved that this is the only panic."
  },
  {
   "property": "C10",
   "status": "proved",
   "theorems": [
    "C10_symbol_text"
   ],
   "note": ""
  },
  {
   "property": "C11",
   "status": "proved",
   "theorems": [
    "C11_version_sets"
   ],
   "note": ""
  },
  {
   "property": "C12",
   "status": "proved",
   "theorems": [
    "C12_symbol_sound",
    "C12_symbol_complete",
    "C12_symbol_total"
   ],
   "note": "symbol and basic_symbol are instances; like C09 a backtick with luau off and the cfxlua feature off panics, which is why totality excludes it"
  },
  {
   "property": "C13",
   "status": "proved",
   "theorems": [
    "C13_long_string",
    "C13_long_comment",
    "C13_line_comment",
    "C13_long_string_step"
   ],
   "note": ""
  },
  {
   "property": "C14",
   "status": "partial",
   "theorems": [
    "C14_quoted_string",
    "C14_string_step",
    "C14_raw_newline_refuted",
    "C14_accepted_only",
    "C14_accepted_step",
    "C14_manual_partial",
    "C14_line_end_refuted",
    "C14_z_refuted"
   ],
   "note": "Refuted for 5.2+/Luau/LuaJIT: a raw line break after any escape is accepted. Refuted: a backslash before a two-character line end is rejected in 5.1, \\z with two line break characters is rejected. Proved: the exact set of accepted strings, which holds all strings of the manuals apart from those two gaps."
  },
  {
   "property": "C15",
   "status": "partial",
   "theorems": [
    "C15_number_tokens",
    "C15_loose_numeral_partial",
    "C15_loose_numeral_lua51_partial",
    "C15_two_dots_refuted",
    "C15_no_digit_refuted",
    "C15_numerals_accepted"
   ],
   "note": "Refuted: `.1.2` and `0x.` are accepted as numbers; the partial theorems say the accepted texts are numerals apart from those two defects."
  },
  {
   "property": "C16",
   "status": "proved",
   "theorems": [
    "C16_error_ranges",
    "C16_error_bytes"
   ],
   "note": ""
  },
  {
   "property": "C17",
   "status": "proved",
   "theorems": [
    "C17_lookahead_queue"
   ],
   "note": ""
  },
  {
   "property": "C18",
   "status": "proved",
   "theorems": [
    "C18_iteration",
    "C18_partition",
    "C18_exhausted"
   ],
   "note": ""
  },
  {
   "property": "C19",
   "status": "proved",
   "theorems": [
    "C19_refinement",
    "C19_push_punctuated_panics"
   ],
   "note": "refinement of the model against a list of values beside a list of punctuation, over all call histories"
  },
  {
   "property": "C20",
   "status": "partial",
   "theorems": [
    "C20_shebang_error_reported_refuted",
    "C20_shebang_stream_empty_refuted",
    "C20_shebang_kept_partial"
   ],
   "note": "False: an error in the first reference after the shebang line is dropped together with the line. Proved when that reference is error-free."
  },
  {
   "property": "C21",
   "status": "partial",
   "theorems": [
    "C21_never_panics_refuted",
    "C21_luau_fatal_refuted",
    "C21_features_refuted",
    "C21_never_panics_quiet_partial",
    "C21_never_panics_partial",
    "C21_never_panics_luau_partial"
   ],
   "note": "False: panics on a shebang line followed by a fatal first reference, on fatal lexical errors inside Luau types and attributes, and on & or | in a lua53 build running as Luau. Proved that there are no other causes besides the lexer panic of C09."
  },
  {
   "property": "C22",
   "status": "proved",
   "theorems": [
    "C22_terminates",
    "C22_depth"
   ],
   "note": "for configurations the public API can build (cfg_ok); loops run at most once more than there are tokens left, call depth of the parser knot at most the number of tokens; anything beyond is OutOfFuel in the model, which is excluded"
  },
  {
   "property": "C23",
   "status": "partial",
   "theorems": [
    "C23_lossless_refuted",
    "C23_luau_lossless_refuted",
    "C23_shebang_lossless_refuted",
    "C23_lossless_partial",
    "C40_skipped_partial",
    "C23_luau_invented_refuted",
    "C23_kept_partial"
   ],
   "note": "False: a second last statement (`return return`) is dropped without error; in Luau also `return x ::`, `f(if)`, `type A =` and others, and `repeat until if` prints words that are not in the source; `#!` followed by an error. Proved outside Luau: everything up to a second last statement is printed back, and all of the source if the chunk has no last statement In every dialect, Luau included: a source whose tokens are all in the tree is printed back."
  },
  {
   "property": "C24",
   "status": "partial",
   "theorems": [
    "C24_reported_refuted",
    "C24_reported_partial",
    "C24_ok_partial"
   ],
   "note": "False only through C20 (error in the reference that follows the shebang line); every error the lexer stream contains is reported"
  },
  {
   "property": "C25",
   "status": "proved",
   "theorems": [
    "C25_into_result",
    "C25_parse"
   ],
   "note": ""
  },
  {
   "property": "C26",
   "status": "partial",
   "theorems": [
    "C26_update_positions_refuted",
    "C26_eof_partial",
    "C26_tiling_partial",
    "C26_display",
    "C26_only_positions_partial",
    "C26_parsed_display"
   ],
   "note": "false at the Eof token, whose position and trivia are never updated; proved for all tokens of the nodes. The statement that only positions change needs one attribute/type-specifier entry per name."
  },
  {
   "property": "C27",
   "status": "partial",
   "theorems": [
    "C27_idempotent",
    "C27_identity_partial",
    "C27_parsed_partial",
    "C27_kept_partial",
    "C27_kept_tiles_partial"
   ],
   "note": "idempotence proved for every ast; outside Luau no printed token of a parsed ast changes, and the ast is unchanged if vectors of type specifiers fit (function(...) is the exception); the same in every dialect for sources whose tokens are all in the tree"
  },
  {
   "property": "C28",
   "status": "partial",
   "theorems": [
    "C28_precedence_partial",
    "C28_unique",
    "C28_parsed_unique_partial",
    "C28_luau_refuted",
    "C28_luau_partial",
    "C28_luau_unique_partial"
   ],
   "note": "proved outside Luau for every expression of every accepted source; the tree is the only one with these operators and operands. False in Luau, where `return - a ^ b ^ if ^ c` parses. Proved in Luau (without the Lua 5.2 and LuaJIT versions) for sources whose tokens are all in the tree"
  },
  {
   "property": "C29",
   "status": "proved",
   "theorems": [
    "C29_display_order"
   ],
   "note": ""
  },
  {
   "property": "C30",
   "status": "partial",
   "theorems": [
    "C30_identity_refuted",
    "C30_identity_partial",
    "C30_rewriting",
    "C30_only_tokens_partial",
    "C30_typed",
    "C30_parsed_identity_refuted"
   ],
   "note": "false for nodes built with LocalAssignment::new and the like, whose vectors the visitor fills up with None; proved when there is one entry per name"
  },
  {
   "property": "C31",
   "status": "partial",
   "theorems": [
    "C31_visit_refuted",
    "C31_visit_token_refuted",
    "C31_visit_partial",
    "C31_visit_token_partial",
    "C31_parsed_visit_refuted",
    "C31_parsed_visit_each_refuted"
   ],
   "note": "false: punctuation in name lists is skipped, type instantiations are visited wrongly, visit_token is called twice for main tokens; proved outside these nodes"
  },
  {
   "property": "C32",
   "status": "partial",
   "theorems": [
    "C32_tokens_refuted",
    "C32_tokens_partial",
    "C32_tokens_order_partial",
    "C32_parsed_tokens_partial",
    "C32_parsed_tokens_refuted"
   ],
   "note": "false order for nodes with a ContainedSpan; proved that tokens() is a permutation of the printed tokens, and equal for nodes without spans"
  },
  {
   "property": "C33",
   "status": "partial",
   "theorems": [
    "C33_end_refuted",
    "C33_start_partial",
    "C33_end_partial",
    "C33_empty_partial",
    "C33_parsed_end_refuted",
    "C33_parsed_start_partial",
    "C33_parsed_end_partial",
    "C33_kept_start_partial",
    "C33_kept_end_partial"
   ],
   "note": "start_position right for every node; end_position wrong for Index::Brackets and several Luau nodes; proved when no such node is at the right edge; connected to the parser outside Luau; and in every dialect for sources whose tokens are all in the tree"
  },
  {
   "property": "C34",
   "status": "proved",
   "theorems": [
    "C34_reflexive",
    "C34_symmetric",
    "C34_transitive",
    "C34_ignores_trivia_and_positions",
    "C34_exact"
   ],
   "note": ""
  },
  {
   "property": "C35",
   "status": "partial",
   "theorems": [
    "C35_grammar_partial",
    "C35_grammar_refuted",
    "C35_last_refuted",
    "C35_features_refuted"
   ],
   "note": "False: `(x) = 1` and `return return` are accepted, and with the cargo feature cfxlua `a = { .b }`. Proved: these are the only deviations without that feature"
  },
  {
   "property": "C36",
   "status": "partial",
   "theorems": [
    "C36_tokens_partial",
    "C36_sources_partial",
    "C36_clear_derives",
    "C36_ambiguous_refuted"
   ],
   "note": "Proved for every token sequence with a derivation in the Lua 5.1 reference grammar that never puts a statement beginning with a parenthesis right after a statement ending with a prefix expression: it is parsed without errors and the tree has all its tokens. For the other sequences the claim is false: a = f (g).x = 1 is derivable as two statements and is rejected (Lua 5.1 itself reads it as a call). Builds with the cfxlua feature are excluded."
  },
  {
   "property": "C37",
   "status": "proved",
   "theorems": [
    "C37_dialects",
    "C37_operators"
   ],
   "note": "for all constructs listed, also in trees returned with errors; cfxlua constructs outside the list are C43"
  },
  {
   "property": "C38",
   "status": "proved",
   "theorems": [
    "C38_collect_ok",
    "C38_collect_ok_prints_source",
    "C38_collect_all",
    "C38_errors_in_source_order"
   ],
   "note": ""
  },
  {
   "property": "C39",
   "status": "proved",
   "theorems": [
    "C39_relex",
    "C39_relex_eof"
   ],
   "note": "quantified over configurations the public API can build (cfg_ok)"
  },
  {
   "property": "C40",
   "status": "partial",
   "theorems": [
    "C40_consumed",
    "C40_skipped_refuted",
    "C40_skipped_partial"
   ],
   "note": "first half proved; second half false (`return return`); proved outside Luau up to a second last statement"
  },
  {
   "property": "C41",
   "status": "partial",
   "theorems": [
    "C41_surrounding_trivia_refuted",
    "C41_surrounding_trivia_partial",
    "C41_one_token_partial"
   ],
   "note": "false for nodes with one token; proved for nodes with two or more"
  },
  {
   "property": "C42",
   "status": "proved",
   "theorems": [
    "C42_default_symbols"
   ],
   "note": ""
  },
  {
   "property": "C43",
   "status": "partial",
   "theorems": [
    "C43_cfxlua_constructs_refuted",
    "C43_set_constructor_partial"
   ],
   "note": "False: both constructs are gated by the cargo feature only"
  },
  {
   "property": "C44",
   "status": "proved",
   "theorems": [
    "C44_well_typed",
    "C44_fitting",
    "C44_filled",
    "C37_operators"
   ],
   "note": ""
  },
  {
   "property": "C45",
   "status": "partial",
   "theorems": [
    "C45_versions_partial",
    "C45_luajit_partial"
   ],
   "note": "Proved up to the same two deviations as C35: a variable in parentheses as in `(x) = 1`, and a second last statement as in `return return`, whose text is lost. Builds with the cfxlua feature are excluded."
  },
  {
   "property": "C46",
   "status": "partial",
   "theorems": [
    "C46_tokens_partial",
    "C46_sources_partial",
    "C46_luajit_tokens_partial",
    "C46_luajit_sources_partial",
    "C46_empty_refuted",
    "C46_break_refuted"
   ],
   "note": "All token sequences with a clear derivation and Lua 5.1 blocks are accepted. Refuted for the rest of the Lua 5.2+ grammars: a semicolon as an empty statement (f();; g()) and break before the end of a block are rejected. The call ambiguity is excluded as in C36."
  },
  {
   "property": "C47",
   "status": "partial",
   "theorems": [
    "C47_sections",
    "C47_first_delimiter",
    "C47_nesting",
    "C47_section_partial",
    "C47_z_refuted",
    "C47_unicode_refuted"
   ],
   "note": "Section texts and nesting proved for every source. Refuted: \\z before the closing backtick is rejected, \\u{} swallows a hole. The sections of the manual are read apart from \\z without white space or with more than one line break after its first character."
  },
  {
   "property": "C48",
   "status": "proved",
   "theorems": [
    "C48_round_trip",
    "C48_text",
    "C48_unambiguous"
   ],
   "note": "Every tree of the grammar of RoundSpec.v. Outside Luau these are all trees the parser makes (C49)."
  },
  {
   "property": "C49",
   "status": "proved",
   "theorems": [
    "C49_exact",
    "C49_accepted"
   ],
   "note": "Outside Luau. The second disjunct is the last statement that is read and dropped (C23)."
  },
  {
   "property": "C50",
   "status": "proved",
   "theorems": [
    "C50_versions",
    "C50_same_tokens_refuted",
    "C50_luau_refuted"
   ],
   "note": "The hypothesis on the tokens is needed: goto = 1 is accepted as Lua 5.1 and rejected as Lua 5.4 (C50_same_tokens_refuted). Luau gives another tree for the same tokens, for a parameter list that ends in dots (C50_luau_refuted)."
  },
  {
   "property": "C51",
   "status": "proved",
   "theorems": [
    "C51_layout",
    "C51_accepted",
    "C51_words_refuted",
    "C51_trailing_refuted"
   ],
   "note": "The two exceptions of the statement are needed: C51_words_refuted (a Luau word) and C51_trailing_refuted (trivia after a part of an interpolated string)."
  },
  {
   "property": "C52",
   "status": "proved",
   "theorems": [
    "C52_exact",
    "C52_unambiguous",
    "C52_written",
    "C52_separated",
    "C52_number_then_name"
   ],
   "note": "C52_number_then_name is a finding: a number may be followed directly by a word, which the reference implementations reject. Sources whose shebang line is dropped (C20) are excluded by shebang_kept."
  },
  {
   "property": "C53",
   "status": "proved",
   "theorems": [
    "C53_print_parse",
    "C53_trivia",
    "C53_fixed",
    "C53_spaces_refuted",
    "C53_dots_refuted",
    "C53_tokens"
   ],
   "note": "The hypothesis that the printed text has the tokens of the tree is needed: C53_spaces_refuted (`a- -b` without the space is accepted as another tree) and C53_dots_refuted."
  },
  {
   "property": "C54",
   "status": "proved",
   "theorems": [
    "C54_parse",
    "C54_token",
    "C54_spaced",
    "C54_soft",
    "C54_do",
    "C54_while",
    "C54_repeat",
    "C54_numeric_for",
    "C54_numeric_for_step",
    "C54_generic_for",
    "C54_if_empty",
    "C54_if",
    "C54_else_if",
    "C54_else_ifs",
    "C54_if_else_if",
    "C54_if_else",
    "C54_assignment",
    "C54_local",
    "C54_local_values",
    "C54_local_function",
    "C54_function",
    "C54_goto",
    "C54_type",
    "C54_anonymous",
    "C54_table",
    "C54_call",
    "C54_else_if_expression",
    "C54_if_expression",
    "C54_ended",
    "C54_without",
    "C54_return",
    "C54_last",
    "C54_block",
    "C54_total",
    "C54_goto_refuted",
    "C54_if_refuted",
    "C54_else_if_refuted",
    "C54_while_refuted",
    "C54_if_expression_refuted",
    "C54_else_refuted",
    "C54_values_refuted",
    "C54_step_refuted",
    "C54_vectors_refuted"
   ],
   "note": "The refuted theorems show that the extra tokens in the statement (a new `then`, `goto ` and so on) are needed. The other constructors are in C60; InterpolatedString::new is only shown not to panic."
  },
  {
   "property": "C55",
   "status": "proved",
   "theorems": [
    "C55_tokens",
    "C55_order",
    "C55_whole",
    "C55_elseif_refuted",
    "C55_last_refuted",
    "C55_silent_refuted"
   ],
   "note": "The order of the whole tree is refuted with elseif, with statements after a return, and for the latter without an error about it."
  },
  {
   "property": "C56",
   "status": "partial",
   "theorems": [
    "C56_tokens",
    "C56_places",
    "C56_start",
    "C56_end",
    "C56_stretch_partial",
    "C56_range_refuted",
    "C56_phantom_refuted",
    "C56_then_refuted",
    "C56_token_refuted",
    "C56_kinds_refuted"
   ],
   "note": "Proved for every source: every error of the parser is about a token of the source or one put in, and its range begins and ends where such tokens do. For sources without `elseif`: a range that takes no end from a token put in is a stretch of the source, so it begins at or before its end (C56_stretch_partial). False as stated: ranges can end before they begin (C56_range_refuted), tokens put in have non-null positions (C56_phantom_refuted). Missing: C56_stretch_partial for sources with `elseif`."
  },
  {
   "property": "C57",
   "status": "proved",
   "theorems": [
    "C57_lexical"
   ],
   "note": "Strengthens C24: the lexical errors of a parse are exactly those of the lexer, in order."
  },
  {
   "property": "C58",
   "status": "proved",
   "theorems": [
    "C58_exact",
    "C58_accepted",
    "C58_rejected",
    "C58_results_refuted",
    "C58_casts_refuted",
    "C58_two_casts_refuted",
    "C58_accepted_refuted"
   ],
   "note": "C58_exact characterises acceptance with all tokens kept. Sources that are accepted although the parser drops a token of them (C20, C23) are outside; C58_dropped is one. Versions that combine Luau with Lua 5.2 or LuaJIT are outside. The refuted theorems are findings about what the grammar contains."
  },
  {
   "property": "C59",
   "status": "proved",
   "theorems": [
    "C59_total",
    "C59_positions",
    "C59_tokens",
    "C59_references",
    "C59_equal",
    "C59_updated",
    "C59_built_refuted",
    "C59_positions_refuted"
   ],
   "note": "Findings: the same does not hold of tokens that are put together by hand (C59_built_refuted), nor of the end of a line break and the beginning of the next token (C59_positions_refuted)."
  },
  {
   "property": "C60",
   "status": "proved",
   "theorems": [
    "C60_name",
    "C60_less",
    "C60_after_word",
    "C60_label",
    "C60_local",
    "C60_local_values",
    "C60_compound",
    "C60_var",
    "C60_method",
    "C60_method_call",
    "C60_cast",
    "C60_type_field",
    "C60_specifier",
    "C60_type_argument",
    "C60_instantiation",
    "C60_generics",
    "C60_generic_type",
    "C60_result",
    "C60_body",
    "C60_attribute",
    "C60_function_name",
    "C60_function",
    "C60_local_function",
    "C60_anonymous",
    "C60_type_function",
    "C60_attribute_refuted",
    "C60_generics_refuted",
    "C60_result_refuted",
    "C60_instantiation_refuted"
   ],
   "note": "Text standing beside made-up tokens is as in C54. Findings: LuauAttribute::new with a name that has no space after it runs into `function` (C60_attribute_refuted), GenericDeclaration::new without names prints `<>`, which is rejected (C60_generics_refuted), a result type runs into the block (C60_result_refuted), and with the operators of Lua 5.3 `<<T>>` is not read as type arguments (C60_instantiation_refuted). InterpolatedString::new is only shown not to panic (C54_total)."
  },
  {
   "property": "C61",
   "status": "proved",
   "theorems": [
    "C61_text",
    "C61_messages",
    "C61_numbers",
    "C61_message_range",
    "C61_lexical",
    "C61_twice_refuted",
    "C61_message_refuted"
   ],
   "note": "Findings: the parser reports the very same error twice for `x = ((y` (C61_twice_refuted); error_message has the range in it for errors of the lexer and not for errors of the parser (C61_message_refuted)."
  },
  {
   "property": "C62",
   "status": "proved",
   "theorems": [
    "C62_total",
    "C62_settable",
    "C62_gettable",
    "C62_named",
    "C62_get_set",
    "C62_get_set_pair",
    "C62_get_other",
    "C62_set_get",
    "C62_set_set",
    "C62_typed",
    "C62_reach",
    "C62_stmts",
    "C62_expressions",
    "C62_operator"
   ],
   "note": "Getters that return an iterator over a field are taken to return the field. Left out: getters that only look at which variant a value is, and Punctuated (C15-C17 and others)."
  }
 ]
}
