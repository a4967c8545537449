# Formal model of full-moon: design and trusted base

Subject: `full-moon` 2.1.0 (source read as text from `/repo`, never built or run).
Prover: Coq/Rocq 8.16.1, standard library only unless said otherwise below.

## 1. Modelling decisions

* **Characters and text.** A Rust `char` is an `N` (its scalar value); a `&str`/`String`/`ShortString`
  is a `list N`. UTF-8 is only visible through `len_utf8`, which is modelled exactly.
* **Feature flags and versions.** The cargo features and the runtime `LuaVersion` bitfield are one
  record `cfg`; `has_x = feature_x && bit_x`, exactly as `LuaVersion::has_x`. All theorems quantify
  over `cfg` (a predicate `cfg_ok` records the feature implications of `Cargo.toml`, used only where needed).
* **Panics** (`unwrap`, `unreachable!`, `panic!`) are an explicit `Panic` outcome. `usize` is `N`/`nat`
  without overflow (a source would need 2^64 bytes).
* **`&mut` functions** return the new state. Loops over the source are structural recursion on the
  remaining characters. The parser's mutual recursion is *open recursion*: every parser function is a
  non-recursive definition taking a record of parsers, and the knot is tied by iterating on fuel; running
  out of fuel is a separate outcome `Fuel` which the termination theorem excludes.
* **Source cursor.** `LexerSource { source, lexer_position{index, position} }` is modelled as the
  remaining suffix `source[index..]` plus `position`. Saving/restoring `lexer_position` is saving/restoring the pair.
* **Syntax trees.** Struct and enum values are represented as `Node kind children`, children in field
  declaration order, tokens as leaves; `Option`, `Vec`, tuples, `Punctuated` and `Pair` are kinds too.
  The derive macros (`Node`, `Visit`, `Display`) are generic over the declaration, so they are modelled as
  generic functions over this representation with per-kind tables for the hand-written exceptions.

## 2. Files (rocq/theories)

| file | contents |
|---|---|
| `Base.v` | characters, text, UTF-8 length, positions, versions (model) |
| `Token.v` | symbols, token types, Display (model) |
| `Lexer.v` | the lexer (model) |
| `LexerFacts*.v`, `LexerCases.v`, `LexerStep.v`, `LexerStream.v` | what each reader, one step, and the whole stream do (proofs) |
| `LexerSpec.v` | small independent specification of text, positions and token streams |
| `LexerProofs.v`, `LexerTheorems*.v` | proofs behind `PropertiesLexer1.v` |
| `TokenSpec.v` | independent lexical specification: words, operators, long brackets, strings, numerals, dialects |
| `TokenProofs.v`, `TokenTheorems.v` | proofs behind `PropertiesLexer2.v` |
| `Relex.v`, `Relex2.v` | readers are complete: spec texts are read back (proofs) |
| `SymbolRef.v` | `TokenReference::symbol`, `basic_symbol` (model) |
| `SymbolProofs.v` | proofs behind C12 and C42 |
| `StringSpec.v`, `StringProofs.v`, `StringProofs2.v` | quoted strings with escapes and interpolated strings: specification and the proofs behind `PropertiesLexer4.v` (C14, C47) |
| `Tree.v` | the syntax tree types as typed generic trees (model) |
| `Node.v` | `Node` (tokens, positions, similar, surrounding_trivia) and `Display` of trees (model) |
| `Visit.v` | `Visit`, `VisitMut`, `update_positions` (model) |
| `TreeSpec.v` | independent vocabulary for theorems about trees |
| `TreeFacts.v`, `NodeProofs.v`, `PrintProofs.v`, `VisitProofs.v`, `VisitTheorems.v`, `VisitInj.v`, `VisitTyped.v`, `UpdateProofs.v`, `VisitEvents.v`, `RangeProofs.v` | proofs behind `PropertiesTree1.v` and `PropertiesTree2.v` |
| `Punctuated.v`, `PunctuatedSpec.v`, `PunctuatedProofs.v` | `Punctuated<T>` (model), its specification, refinement proof |
| `ParserState.v` | `ParserState`, `ParserResult` (model) |
| `Parsers.v` | `parsers.rs` with all dialects, `parse_fallible`, `into_result` (model) |
| `ParserSpec.v` | vocabulary for theorems about the parser: dialect of each kind of node, streams without panic causes |
| `ParserLogic.v` | weakest preconditions for the parser monad (proofs) |
| `ParserSafe1.v` ... `ParserSafe6.v` | what each parser function guarantees: consumption, errors, typing, dialects (proofs) |
| `ParserTop.v`, `ParserTheorems.v` | the whole stream, and the proofs behind `PropertiesParser1.v` |
| `GrammarSpec.v` | the Lua 5.1 reference grammar, operator levels, which tokens belong into which node (specification) |
| `ParserMono.v` | the parser only appends errors (proofs) |
| `ParserClean.v`, `ParserClean1.v` ... `ParserClean4.v` | what runs without errors give, outside Luau: tokens in the tree, tree shapes (proofs) |
| `ParserAccept.v` | what an accepted source is made of, outside Luau: tokens, printing, positions of every node (proofs) |
| `Precedence.v` | the operator tree with the right precedences is unique (proofs) |
| `GrammarSound.v`, `GrammarAccept.v` | trees with the right tokens are derivations of the grammar of the version, Lua 5.1 to 5.4 and LuaJIT (proofs) |
| `GrammarFacts.v` | pairs of terminals that the Lua 5.1 grammar never puts side by side (proofs) |
| `PropertiesParser2.v` | C23, C27, C28, C33, C35, C40 for accepted sources |
| `GrammarClear.v` | derivations in which no statement that begins with a parenthesis can be taken for call arguments (specification) |
| `ClearForms.v` | such derivations as flat sequences: suffixes, operator chains, lists, statements (proofs) |
| `ParserComplete*.v` | the parser on tokens with such a derivation reports no error and stops where the word ends (proofs) |
| `PropertiesParser3.v` | C36 |
| `PropertiesParser4.v` | C45, C46 |
| `RoundSpec.v` | C48, C49, C58: the grammar of syntax trees, all dialects |
| `Round1.v` to `Round14.v` | C48, C49: each parser function, run on the tokens of a tree of its sort, gives back the tree |
| `PropertiesParser5.v` | C48 |
| `Exact1.v` to `Exact5.v` | C49: each parser function, when it succeeds without an error outside Luau, gives a tree of its sort |
| `PropertiesParser6.v` | C49 |
| `SoundLex.v`, `Sound0.v` to `Sound9.v` | C58: each parser function, when it succeeds in Luau without an error and without dropping a token, gives a tree of its sort |
| `PropertiesParser12.v` | C58 |
| C59 | the steps of the lexer go forward (invariant of the stream), tiling of the text by C26 |
| `Kept1.v`, `Kept2.v` | trees of the tree grammar nest their operators by precedence; text, positions and ranges of sources whose tokens are all in their tree |
| `PropertiesParser13.v` | C23, C27, C28 and C33 in Luau |
| `Compare.v` | model of `Ord` for positions and tokens |
| `Compare1.v`, `PropertiesOrder.v` | C59 |
| `VersionSpec.v` | C50: versions that have all that others have |
| `Version1.v`, `Version2.v` | C50: the tree grammar grows with the version |
| `PropertiesParser7.v` | C50 |
| `LayoutSpec.v` | C51: tokens of the same sort, trees that differ in their tokens only |
| `Layout1.v` to `Layout4.v` | C51: two runs of each parser function, side by side |
| `PropertiesParser8.v` | C51 |
| `ScanSpec.v` | C52: the lexical grammar, by tokens and what may follow them |
| `Scan1.v` to `Scan6.v` | C52: one step of the lexer reads exactly one token of the grammar |
| `PropertiesLexer5.v` | C52 |
| `ReprintSpec.v` | C53: attachment of trivia, equality of trees up to positions |
| `Reprint1.v` | C53: references are determined by their tokens and the rule for trivia; C48, C51 and C52 together |
| `Reprint2.v` | C53: without interpolated strings only the tokens count |
| `PropertiesParser9.v` | C53 |
| `Construct.v` | the constructors `new` and the functions `with_...` of nodes (model) |
| `ConstructSpec.v` | C54: texts that can be put side by side, trees whose text is read as their tokens |
| `Construct1.v` to `Construct6.v` | C54: the tokens constructors make up, and each constructor |
| `PropertiesConstruct.v` | C54 |
| `ConstructSpec2.v` | C60: what stands beside the tokens made up for Lua 5.2, Lua 5.4 and Luau |
| `Construct7.v`, `Construct8.v`, `Construct9.v` | C60: each constructor |
| `PropertiesConstruct2.v` | C60 |
| `Message.v` | texts, messages and ranges of errors (model) |
| `MessageSpec.v` | C61: errors that say the same |
| `Messages1.v`, `Messages2.v` | C61: messages of the parser, function by function; reading the text of an error from its end |
| `PropertiesMessage.v` | C61 |
| `Access.v` | getters and functions `with_...` as tables of struct, name and field (model) |
| `AccessSpec.v` | C62: which getter belongs to which function `with_...`, the declared fields of the structs |
| `Access1.v` | C62: laws of fields, checks of the tables |
| `PropertiesAccess.v` | C62 |
| `OrderSpec.v` | C55: a list of tokens drawn from another, two tokens in the wrong order |
| `Order1.v` to `Order7.v` | C55: a judgement on runs of the parser about the tokens consumed, and every function of the parser |
| `PropertiesParser10.v` | C55 |
| `ParserRun.v` | every run of the parser keeps what consuming a token and reporting an error keep |
| `ErrorSpec.v` | C56, C57: the range of an error, tokens an error is about, errors of the lexer among errors |
| `Errors1.v`, `Errors2.v` | C57 and C56 |
| `Ranges1.v` to `Ranges5.v` | C56: more fuel changes no result; nodes have the types of C24 at every state; a judgement on runs of the parser about the ends of the ranges of errors, and every function of the parser |
| `PropertiesParser11.v` | C56, C57 |
| `Properties*.v` | only theorem statements, `exact lemma`, `Print Assumptions` |

## 3. Property plan

| id | plan |
|---|---|
| C01 | invariant of `process_next`: printed token ++ new remainder = old remainder; lifted over trivia collection and the stream |
| C02, C03 | same invariant with positions: end position = fold of the position step over the printed text |
| C04, C05 | measure: remaining characters; stream function with fuel, fuel-sufficiency lemma |
| C06 | direct from stream construction |
| C07, C08 | case analysis of `process_next`; C08 against an independent table of operators |
| C09 | refutation witness (backtick with neither Luau nor cfxlua) + proof that this is the only panic |
| C10, C11 | finite domains, lifted to all texts / all configurations |
| C12 | specification of padded symbols by lists; induction over leading/trailing whitespace |
| C13, C14, C15 | independent declarative specs of long bracket bodies, quoted strings, numerals; C15 refuted for `.1.2` |
| C16 | error-range invariant of `process_next` |
| C17 | refinement: lexer state = queue |
| C18, C19 | refinement to lists |
| C20 | refuted by witnesses; partial theorem for the Ok case |
| C21 | refuted by witnesses; partial theorem excluding the witnessed causes |
| C22 | fuel sufficiency with a linear measure |
| C23 | refuted by witnesses; partial theorem on the part of the grammar where it holds, and on the sources whose tokens are all in the tree |
| C24, C25, C40 | frame invariant of the parser state |
| C26, C27 | update_positions as a generic tree rewriting; C26 refuted at Eof, partial for the nodes |
| C28 | well-formedness predicate on operator trees, uniqueness theorem; in Luau through C58 and induction over the tree grammar |
| C29-C34 | induction over generic trees; C31, C32, C33 refuted by witnesses with partial versions |
| C35, C36 | Lua 5.1 grammar as an inductive relation on token kinds; soundness and completeness |
| C37 | invariant: kinds occurring in parser output |
| C38 | from C01 and error aggregation |
| C39 | re-lexing lemma per token kind |
| C41 | refuted for one-token nodes; proved for nodes with two or more tokens |
| C42 | instance of C12 under Lua 5.1 |
| C43 | refuted by witnesses; proved for builds without cfxlua |
| C44 | the typing and shape invariant of the parser logic |
| C45 | C35 for a grammar with optional parts; Lua 5.2 blocks are obtained from Lua 5.1 blocks by rewriting derivations |
| C46 | C36 for a grammar with optional parts |
| C48 | induction over the depth of the parsers: on the tokens of a tree and a follow token that cannot continue it, each parser returns this tree and leaves the rest |
| C49 | C48 for one direction; for the other the logic of error-free runs (C23) with membership in the tree grammar as postcondition, and that no argument list follows |
| C50 | C49 in both versions; the tree grammar of the smaller version is contained in that of the larger one, by induction on the tree grammar |
| C51 | a relational logic: each parser function takes states that agree in the sorts of tokens to such states and related values; function by function, then the whole parser |
| C52 | soundness and completeness of one step of the lexer against the grammar, then induction over the stream; brace stacks by simulation |
| C53 | C52 gives the tokens of the printed text; the rule for trivia determines the references; C48 and the relational logic of C51 give the tree |
| C54 | every made-up token by computation under all feature sets; texts are put together from left to right, each with what may come next; C53 for the block |
| C60 | as C54; names are followed by what does not go on with a word, brackets of type arguments by what does not make a longer operator |
| C61 | messages without line breaks (invariant of all parser functions); the text of an error is taken apart from its end; C57 and C59 for errors of the lexer |
| C62 | the tables of getters and functions `with_...` are checked entry by entry (by computation) against the names; the laws follow from those of list replacement; C62_reach from the printing of fields |
| C55 | for every parser function: the tokens of its result are drawn from the tokens it was given and those it consumed, in order if there is no `elseif`, else up to a permutation; induction on the fuel, then the loop over blocks |
| C56 | the parser never looks at positions, so (C51's free theorem, applied to the relation "same token, of the source or put in") all its errors are about such tokens; positions of the lexer from C03's induction, without the hypothesis that there are no errors; that ranges are stretches by a judgement on runs: the first end of a range has been consumed before the second (uses the order of C55, hence no `elseif`) and tokens of a source rise (C59) |
| C57 | what is left of the stream and the errors so far, together, hold the same lexical errors after every step |
| C58 | C48 for one direction; for the other a logic of error-free runs that weighs tokens: a tree with all tokens of the source weighs as much as the source, so none of its parts has lost a token, and then the part is in the grammar |
| C47 | section texts by induction over the scanner; nesting by a stack simulation of the stream |

## 4. Trusted base

* Coq's kernel (no axioms added; `Print Assumptions` below every theorem prints
  "Closed under the global context" for every theorem). Loading `Lia`/`ZifyBool` loads `Coq.ssr.ssrunder`,
  whose module declares seven standard-library axioms; no theorem here depends on them.
* The reading of the Rust source into the model (cited per definition). The code is not executed.
* What is and is not modelled is listed next.

## 5. Code that is modelled

| source (`full-moon/src` unless said otherwise) | model | left out |
|---|---|---|
| `tokenizer/lexer.rs`, `interpolated_strings.rs` | `Lexer.v`, all of it | – |
| `tokenizer/structs.rs` | `Token.v`, `SymbolRef.v`, `Node.v`, `Compare.v`, `Message.v` | serde |
| `ast/parsers.rs`, `parser_structs.rs`, `parser_util.rs` | `Parsers.v` and the files it uses, all of it | – |
| `ast/mod.rs`, `luau.rs`, `lua52.rs`, `lua54.rs`, `compound.rs` | type declarations, `Display`, `Node` and `Visit` instances (`Tree.v`, `Node.v`, `Visit.v`), precedences, constructors `new` (`Construct.v`), getters and `with_*` (`Access.v`) | derived `Debug`, `Clone`, `PartialEq`, `from` conversions |
| `ast/punctuated.rs`, `ast/span.rs`, `ast/versions.rs`, `util.rs`, `short_string.rs` | `Punctuated.v` and others, all used functions | iterator adaptor impls |
| `node.rs`, `visitors.rs`, `ast/visitors.rs`, `ast/luau_visitors.rs`, `ast/update_positions.rs`, `full-moon-derive` | `Node.v`, `Visit.v` | – |
| `lib.rs` | `parse`, `parse_fallible`, errors (`Message.v`) | – |

Also not modelled: serde, `Debug`, memory and stack limits, performance.

### Agreement with the recorded snapshots

`validation/snapshots.py` evaluates the model on the 280 sources of `full-moon/tests` (all dialects, accepted and rejected ones) and
compares the result with the snapshots recorded there: tokens with positions, errors with message and range, the tokens of the tree with
their trivia in order, and the names of the variants in the tree. All 974 comparisons agree. (The project is not run; the snapshots are
read as text. Two snapshot files that no test writes any more are left out.)

## 6. Findings

Each is a `…_refuted` theorem whose witness is checked by computation in the model.

| theorem | finding |
|---|---|
| `C09_lexing_never_panics_refuted` | a backtick panics the lexer outside Luau in builds without `cfxlua` |
| `C14_raw_newline_refuted` | any escape, not only `\z`, lets a raw line break into a quoted string (5.2, Luau, LuaJIT) |
| `C14_line_end_refuted` | Lua 5.1: a backslash before CR LF (a valid escaped line end) leaves the string unclosed |
| `C14_z_refuted` | Lua 5.2 and later: `\z` followed by CR LF, or by two line breaks, leaves the string unclosed |
| `C15_two_dots_refuted`, `C15_no_digit_refuted` | `.1.2`, `0x.`, `0b_` are accepted as numbers |
| `C20_*_refuted`, `C23_shebang_lossless_refuted`, `C24_reported_refuted` | a lexer error right after a shebang line is dropped: `parse` returns `Ok` and loses text |
| `C21_never_panics_refuted` | `#!`, a line break, `--[[` panics the parser |
| `C21_luau_fatal_refuted` | Luau: an unknown character after a type or `@` panics the parser |
| `C21_features_refuted` | Luau at run time in a build with `lua53`: `return a & b` panics |
| `C23_lossless_refuted`, `C40_skipped_refuted`, `C35_last_refuted` | `return return` and `break break` are accepted and the second statement is dropped from the tree |
| `C23_luau_lossless_refuted`, `C28_luau_refuted` | Luau: incomplete expressions such as `return if` are accepted and dropped |
| `C26_update_positions_refuted` | `update_positions` leaves the position of the end of file |
| `C30_*_refuted` | a visitor that changes nothing changes trees (vectors of attributes and type specifiers are filled up) |
| `C23_luau_invented_refuted` | Luau: an accepted source can print words it does not contain (`repeat until if` prints `do end`, `local x = {if` prints `{}`) |
| `C31_*_refuted` | `Visit` skips punctuation of local names; it visits four kinds of nodes wrongly, each shown in a source where no other node is; `visit_token` sees main tokens twice |
| `C32_*_refuted` | `tokens()` yields both ends of a span before what they enclose |
| `C33_*_refuted` | `end_position` of an index in brackets leaves out the closing bracket |
| `C35_grammar_refuted` | `(x) = 1` is accepted |
| `C35_features_refuted`, `C43_cfxlua_constructs_refuted` | constructs of cfxlua are accepted in any version if the cargo feature is on |
| `C36_ambiguous_refuted` | `a = f (g).x = 1` is rejected although it has a derivation (reference Lua rejects it too) |
| `C41_surrounding_trivia_refuted` | `surrounding_trivia` of a node with one token loses the trailing trivia |
| `C46_empty_refuted`, `C46_break_refuted` | Lua 5.2 and later: empty statements and `break` before the end of a block are rejected |
| `C47_z_refuted` | Luau: `\z` right before the closing backtick of an interpolated string leaves it unclosed |
| `C47_unicode_refuted` | Luau: after `\u{}` the scan goes past its closing brace and swallows holes |
| `C52_number_then_name` | a number may be followed by a word without a space: `x = 3y = 4` is accepted |
| `C53_spaces_refuted`, `C53_dots_refuted` | printing a tree does not add spaces: a tree for `a - -b` without trivia prints `a--b`, which is accepted as another program |
| `C54_goto_refuted` | `Goto::new(l)` prints `gotol` |
| `C54_if_refuted`, `C54_else_if_refuted`, `C54_if_expression_refuted` | `If::new` and `IfExpression::new` make `then` without a space after it: `if x thenlocal y`, `thenelseif`, `if a thenb else c` |
| `C54_while_refuted` | `While::new` makes `end` without a space before it: `local yend` |
| `C54_else_refuted`, `C54_values_refuted`, `C54_step_refuted` | parts without their token are printed: an else block without `else` becomes part of the block before, `local x1`, `1, 103` |
| `C54_vectors_refuted` | nodes made by constructors have empty vectors of types and attributes, parsed ones have an entry `None` for every name, so they are never equal |
| `C55_elseif_refuted` | `if a then elseif b then elseif c` returns a tree that prints `if c then elseif b then end`: in `expect_if_stmt` the name `condition` is shadowed when `unfinished_if` is called (parsers.rs:1063-1083); the first condition is lost |
| `C55_last_refuted` | the tree of `return 1 local x` prints `local x return 1` |
| `C55_silent_refuted` | for `) local a return 1 local b` the same happens and the error "unexpected statement after last statement" is missing: `block_has_last_stmt` is computed from the first block only (parser_structs.rs:298) |
| `C56_range_refuted` | the second error of `while a do while b do c()` goes from byte 11 to byte 3: its end is taken from the `end` put in for the inner loop, which is at the bytes 0 to 3 |
| `C56_phantom_refuted` | tokens put in do not have "a null position" (lib.rs:102): `basic_symbol` lexes the text of the token, so an `end` put in has the positions of an `end` at the beginning of a file |
| `C56_then_refuted` | the documented example of a token put in, `if x == 2 code()` (lib.rs:100), puts in none: the tree is that of `code()` |
| `C56_token_refuted` | the second error of `type A<T..., 1> = T` is about the name `%error-id%`, which is not in the source |
| `C56_kinds_refuted` | "but tokenizing must have succeeded" (lib.rs:41): `x = $` gives an `AstError` and a `TokenizerError` |
| `C58_results_refuted` | a leading `\|` or `&` of a type is accepted after `local x:` but neither in a result type nor among type arguments |
| `C58_casts_refuted` | `y :: nil < 3` is accepted, `y :: T < 3` is not: after a name `<` starts type arguments |
| `C58_two_casts_refuted` | `y :: T :: U` is rejected, `-y :: T :: U` and `if a then b else y :: T :: U` are accepted |
| `C58_accepted_refuted` | accepted although not Luau: `type A = (T...)`, `type A = () -> (...T) \| X`, a whole string between the parts of an interpolated string, `f<<T>> = 1`, `(e) = 1` and (builds with `cfxlua`) `local x in y` |
| `C59_built_refuted` | `cmp` and `==` of tokens disagree: any two tokens with the same beginning are `Equal`, so all tokens put together by hand are |
| `C59_positions_refuted` | the end of a line break and the beginning of the next line are `Equal` for `cmp` and not `==` |
| `C60_attribute_refuted` | `LuauAttribute::new(native)` before a function prints `@nativefunction()` |
| `C60_generics_refuted` | `GenericDeclaration::new()` prints `type P<> = T`, which is rejected |
| `C60_result_refuted` | a result type of a new function body runs into the block: `f(): Tlocal y` |
| `C60_instantiation_refuted` | `f<<T>>()` is accepted in Luau and rejected by the version of all features, where `<<` is a shift |
| `C61_twice_refuted` | `x = ((y` gives the very same error twice |
| `C61_message_refuted` | `error_message` has the range in it for errors of the lexer only |
