{"id": "C01", "title": "Lexing is lossless", "statement": "If tokenizing a source text reports no error, then printing every token reference in order (leading trivia, token, trailing trivia) reproduces the source text exactly, character for character.", "quantifier": "every source text (any length, any Unicode scalar values), every feature set and every LuaVersion", "why_tests_cant": "Tests print a finite corpus; an escape, bracket depth or CRLF combination outside the corpus can drop or duplicate characters.", "anchors": ["full-moon/src/tokenizer/lexer.rs: Lexer::process_next, Lexer::process_next_with_trivia, Lexer::collect", "full-moon/src/tokenizer/structs.rs: impl Display for Token, impl Display for TokenReference"]}
{"id": "C02", "title": "Token byte ranges tile the source", "statement": "If tokenizing reports no error, the first token starts at byte 0, each token starts at the byte where the previous one ended, the last token (Eof) ends at the UTF-8 byte length of the source, and each token's byte length is the UTF-8 length of its printed text.", "quantifier": "every source text, every feature set and every LuaVersion", "why_tests_cant": "Offsets must agree for every mixture of 1-4 byte characters and every token kind; a test fixes one text.", "anchors": ["full-moon/src/tokenizer/lexer.rs: LexerSource::next, Lexer::create", "full-moon/src/tokenizer/structs.rs: Position, Token::start_position, Token::end_position"]}
{"id": "C03", "title": "Token line and column numbers match the source", "statement": "If tokenizing reports no error, every token's start line is 1 plus the number of newlines before it and its start column is 1 plus the number of characters since the last newline; its end line/column are obtained by advancing over its printed text, where a final newline is counted in bytes only.", "quantifier": "every source text, every feature set and every LuaVersion", "why_tests_cant": "The line/column bookkeeping is spread over three hand-written places (source cursor, whitespace tokens, newline tokens); agreement must hold for all layouts.", "anchors": ["full-moon/src/tokenizer/lexer.rs: LexerSource::next, Lexer::process_next (whitespace and newline arms)"]}
{"id": "C04", "title": "Exactly one Eof token and it is last", "statement": "The stream of token references produced by a lexer contains exactly one Eof token, it is the final element, it carries an empty text and its position is the end of the source; afterwards consume() returns None forever. (Stated for streams that do not begin with a shebang line; see C20.)", "quantifier": "every source text, every feature set and every LuaVersion", "why_tests_cant": "Eof bookkeeping (sent_eof is saved and restored while collecting trailing trivia) interacts with every way a file can end.", "anchors": ["full-moon/src/tokenizer/lexer.rs: Lexer::process_next, Lexer::collect_trailing_trivia, Lexer::consume"]}
{"id": "C05", "title": "Lexing terminates and always makes progress", "statement": "Every call that produces a non-Eof token (or a fatal lexical error) consumes at least one character, so tokenizing an n-character source finishes after at most n+1 token references.", "quantifier": "every source text, every feature set and every LuaVersion", "why_tests_cant": "Non-termination on some untested input cannot be excluded by running a corpus.", "anchors": ["full-moon/src/tokenizer/lexer.rs: Lexer::process_next, Lexer::process_next_with_trivia, Lexer::collect"]}
{"id": "C06", "title": "Trivia is attached by the documented rule", "statement": "In every token reference the main token is never whitespace or a comment, leading and trailing trivia contain only whitespace, comments or the shebang, and trailing trivia never continues past a whitespace token that contains a newline. Trailing trivia is maximal: if a reference without errors has leading trivia, then the trailing trivia of the reference before it ends with a newline, or that leading trivia starts with a C comment (cfxlua).", "quantifier": "every source text, every feature set and every LuaVersion", "why_tests_cant": "Formatters depend on the attachment for every arrangement of comments and newlines.", "anchors": ["full-moon/src/tokenizer/lexer.rs: Lexer::process_next_with_trivia, Lexer::collect_trailing_trivia", "full-moon/src/tokenizer/structs.rs: TokenType::is_trivia"]}
{"id": "C07", "title": "Words are keywords exactly when the version says so", "statement": "A maximal run of ASCII letters, digits and underscores that does not start with a digit is tokenized as one token: a Symbol if it is a reserved word of the requested version and an Identifier with exactly that text otherwise; so no Identifier token ever has the text of a reserved word of the version.", "quantifier": "every such word followed by any text, every feature set and every LuaVersion", "why_tests_cant": "There are infinitely many words and prefixes of keywords.", "anchors": ["full-moon/src/tokenizer/lexer.rs: Lexer::process_next (identifier arm)", "full-moon/src/tokenizer/structs.rs: Symbol::from_str"]}
{"id": "C08", "title": "Operators are tokenized by longest match", "statement": "When an operator or punctuation symbol is produced, no longer operator symbol that is available in the requested version is a prefix of the remaining text at that point (e.g. `>=` is never split into `>` `=`, `...` never into `..` `.`).", "quantifier": "every source text, every position, every feature set and every LuaVersion", "why_tests_cant": "Maximal munch must hold for all continuations and all 2^6 version sets.", "anchors": ["full-moon/src/tokenizer/lexer.rs: Lexer::process_next (operator arms)", "full-moon/src/tokenizer/structs.rs: Symbol"]}
{"id": "C09", "title": "Lexing never panics", "statement": "Lexer::new, consume, collect and process_next never panic.", "quantifier": "every source text, every feature set and every LuaVersion", "why_tests_cant": "Panics hide in arms only reached by particular version/feature/text combinations.", "anchors": ["full-moon/src/tokenizer/lexer.rs: Lexer::read_string (unreachable!), Lexer::process_next"]}
{"id": "C10", "title": "Symbol text round-trips and is unique", "statement": "For every symbol, Symbol::from_str of its printed text under a version returns that same symbol if the version contains it and None otherwise; distinct symbols print differently; and from_str(text) = Some(s) implies s prints as text.", "quantifier": "every symbol, every text, every feature set and every LuaVersion", "why_tests_cant": "Needs every text and every version/feature combination.", "anchors": ["full-moon/src/tokenizer/structs.rs: symbol! macro, Symbol::from_str, impl Display for Symbol"]}
{"id": "C11", "title": "LuaVersion behaves as a set of dialects", "statement": "lua51() contains no extra dialect; with_x adds exactly the dialects of x and keeps all others; `|` is union; has_x is false whenever the crate feature is off; lua53 includes lua52, lua54 includes lua52 and lua53, cfxlua includes lua52-lua54; new() contains luau, lua52-54, luajit and not cfxlua.", "quantifier": "every pair of versions and every feature set", "why_tests_cant": "2^6 x 2^6 version pairs under 2^6 feature sets; existing tests check one.", "anchors": ["full-moon/src/ast/versions.rs: LuaVersion"]}
{"id": "C12", "title": "TokenReference::symbol accepts exactly whitespace-padded symbols", "statement": "TokenReference::symbol_specific_lua_version(text, v) returns Ok(t) only if text is whitespace, then one symbol of the version, then whitespace; t then prints back exactly text. It never returns a token whose text differs from the input.", "quantifier": "every text, every feature set and every LuaVersion", "why_tests_cant": "Quantifies over all texts.", "anchors": ["full-moon/src/tokenizer/structs.rs: TokenReference::symbol, TokenReference::symbol_specific_lua_version"]}
{"id": "C13", "title": "Long brackets close at the first matching close bracket", "statement": "For a long string or long comment of depth n the body is exactly the text between the opening bracket and the first `]`, n `=`, `]`; if there is no such closer the token is reported as unclosed.", "quantifier": "every body text and every depth n", "why_tests_cant": "The hand-written matcher backtracks after a partial closer (`]=]==]`), which must be right for all bodies and depths.", "anchors": ["full-moon/src/tokenizer/lexer.rs: Lexer::read_multi_line_body, Lexer::read_comment"]}
{"id": "C14", "title": "Quoted strings end at the first unescaped quote", "statement": "A single- or double-quoted string token produced without error has a literal in which every quote character and every backslash is escaped (preceded by an odd run of backslashes), and the literal is followed by the closing quote; an unterminated or line-broken string is reported as UnclosedString; conversely every string the manual of the version allows (escapes, escaped line ends of one or two characters, \\z with white space) is read as one token.", "quantifier": "every source text, every feature set and every LuaVersion", "why_tests_cant": "Escape tracking is a state machine over unbounded input.", "anchors": ["full-moon/src/tokenizer/lexer.rs: Lexer::read_string"]}
{"id": "C15", "title": "Number tokens match the numeral grammar", "statement": "Every Number token produced without error is a numeral of the requested version: decimal with at most one dot and an optional exponent with at least one digit, hexadecimal with at least one digit after 0x, or (Luau/LuaJIT) binary with at least one digit, plus LuaJIT suffixes; anything else is reported as InvalidNumber.", "quantifier": "every source text, every feature set and every LuaVersion", "why_tests_cant": "Infinitely many numerals and near-numerals.", "anchors": ["full-moon/src/tokenizer/lexer.rs: Lexer::read_number, read_hex_number, read_binary_number, read_exponent_part, read_luajit_number_suffix, eat_invalid_number"]}
{"id": "C16", "title": "Lexical errors carry ranges inside the source", "statement": "Every tokenizer error's range starts at or before its end and both ends are positions inside the source (at most its byte length); the start is the start of the offending token.", "quantifier": "every source text, every feature set and every LuaVersion", "why_tests_cant": "Must hold for every erroneous text.", "anchors": ["full-moon/src/tokenizer/lexer.rs: Lexer::process_next, eat_invalid_number, create_recovered", "full-moon/src/tokenizer/structs.rs: TokenizerError"]}
{"id": "C17", "title": "current/peek/consume is a faithful lookahead queue", "statement": "For any sequence of current(), peek() and consume() calls, the results are those of a queue holding the token reference stream of the source: current is the head, peek the element after it, consume removes the head; peeking never changes what is consumed.", "quantifier": "every source text and every call sequence", "why_tests_cant": "Quantifies over call histories.", "anchors": ["full-moon/src/tokenizer/lexer.rs: Lexer::current, Lexer::peek, Lexer::consume, Lexer::new"]}
{"id": "C18", "title": "Token iteration is the same from both ends", "statement": "For any interleaving of next() and next_back() on node.tokens(), the tokens returned are those obtained by taking from the front/back of the node's token list; together they yield every token once, and both return None once it is exhausted.", "quantifier": "every syntax tree and every interleaving of next/next_back", "why_tests_cant": "Quantifies over all trees and call histories.", "anchors": ["full-moon/src/node.rs: Tokens, Iterator::next, DoubleEndedIterator::next_back"]}
{"id": "C19", "title": "Punctuated behaves as a sequence of (value, punctuation) pairs", "statement": "len, is_empty, first, last, iter, pairs, into_pairs, push, pop, extend and from_iter agree with the obvious list of pairs; push_punctuated moves the punctuation onto the previously last pair and appends the value, and panics exactly when the sequence is empty or its last pair already has punctuation.", "quantifier": "every sequence and every history of operations", "why_tests_cant": "Quantifies over operation histories.", "anchors": ["full-moon/src/ast/punctuated.rs: Punctuated, Pair"]}
{"id": "C20", "title": "A shebang line is kept and does not hide errors", "statement": "If the source starts with `#!`, the first line is preserved as leading trivia of the first token, and every token and lexical error of the remaining text is still reported.", "quantifier": "every source text that starts with `#!`, every feature set and every LuaVersion", "why_tests_cant": "The first-token path discards non-Ok results; only particular second lines show it.", "anchors": ["full-moon/src/tokenizer/lexer.rs: Lexer::process_first_with_trivia"]}
{"id": "C21", "title": "Parsing never panics", "statement": "parse and parse_fallible return a value (never panic) on every input.", "quantifier": "every source text, every feature set and every LuaVersion", "why_tests_cant": "unwrap/unreachable sites are reached only by particular malformed token sequences.", "anchors": ["full-moon/src/ast/parsers.rs: unwrap()/unreachable!() sites", "full-moon/src/ast/parser_structs.rs: ParserState::current, ParserState::peek, AstResult::parse_fallible"]}
{"id": "C22", "title": "Parsing terminates", "statement": "parse_fallible terminates on every input, with call depth and loop iterations bounded by a linear function of the number of tokens.", "quantifier": "every source text, every feature set and every LuaVersion", "why_tests_cant": "An error-recovery loop that does not advance hangs only on particular inputs.", "anchors": ["full-moon/src/ast/parser_structs.rs: AstResult::parse_fallible", "full-moon/src/ast/parsers.rs: parse_block, parse_expression"]}
{"id": "C23", "title": "Parsing is lossless", "statement": "If parse(code) returns Ok(ast), then ast printed with Display equals code.", "quantifier": "every source text, every feature set and every LuaVersion", "why_tests_cant": "The headline guarantee of the crate; a dropped token in one grammar corner is invisible to a corpus that misses it.", "anchors": ["full-moon/src/lib.rs: parse", "full-moon/src/ast/mod.rs: impl Display for Ast and nodes", "full-moon/src/ast/parsers.rs"]}
{"id": "C24", "title": "Every lexical error is reported by the parser", "statement": "If any token of the source is lexically invalid then parse_fallible's error list contains that tokenizer error; equivalently parse returns Ok only for lexically valid sources.", "quantifier": "every source text, every feature set and every LuaVersion", "why_tests_cant": "Error recovery may skip tokens; it must never skip their errors.", "anchors": ["full-moon/src/ast/parser_structs.rs: ParserState::consume, AstResult::parse_fallible"]}
{"id": "C25", "title": "Result conversion loses nothing", "statement": "into_result is Ok exactly when errors() is empty, and then returns the same ast; otherwise it returns exactly the errors.", "quantifier": "every AstResult", "why_tests_cant": "Small but universally quantified contract between parse and parse_fallible.", "anchors": ["full-moon/src/ast/parser_structs.rs: AstResult::into_result", "full-moon/src/lib.rs: parse"]}
{"id": "C26", "title": "update_positions assigns correct positions", "statement": "After ast.update_positions(), walking the tokens of the whole file in print order (including Eof) their positions tile the printed text: each start is where the previous ended, lines and columns match the printed text, and nothing but positions changed.", "quantifier": "every ast, including edited ones", "why_tests_cant": "Quantifies over arbitrary edited trees.", "anchors": ["full-moon/src/ast/update_positions.rs", "full-moon/src/visitors.rs: VisitorMut::visit_ast"]}
{"id": "C27", "title": "update_positions is the identity on freshly parsed code and idempotent", "statement": "If parse(code) is Ok and lossless, update_positions leaves every token position of the tree unchanged; applying it twice equals applying it once for any ast.", "quantifier": "every source text; every ast for idempotence", "why_tests_cant": "Compares two independent position computations on all inputs.", "anchors": ["full-moon/src/ast/update_positions.rs", "full-moon/src/tokenizer/lexer.rs"]}
{"id": "C28", "title": "Operator precedence and associativity", "statement": "In every expression returned by a successful parse, the tree of binary and unary operators follows the Lua reference precedence table (or < and < comparison < | < ~ < & < shift < .. < + - < * / // % < unary < ^, with .. and ^ right associative), and it is the only tree with that token sequence which does.", "quantifier": "every token sequence that parses", "why_tests_cant": "Expressions nest arbitrarily; finite tests cover few operator chains.", "anchors": ["full-moon/src/ast/parsers.rs: parse_expression, parse_expression_with_precedence", "full-moon/src/ast/mod.rs: make_bin_op!, BinOp::precedence, UnOp::precedence"]}
{"id": "C29", "title": "Printing a node prints its tokens in source order", "statement": "The Display text of any node equals the concatenation of the printed token references in the order the mutable visitor visits them, so no token is printed twice or omitted.", "quantifier": "every syntax tree", "why_tests_cant": "Quantifies over all trees, including edited ones.", "anchors": ["full-moon/src/ast/mod.rs: Display impls", "full-moon/src/util.rs", "full-moon/src/ast/visitors.rs"]}
{"id": "C30", "title": "A mutable visitor that changes nothing returns the same tree", "statement": "visit_ast of a VisitorMut with only default methods returns an equal Ast; and a visitor overriding only visit_token_reference/visit_token changes only those tokens.", "quantifier": "every syntax tree and every token rewriting function", "why_tests_cant": "Quantifies over trees and rewriting functions.", "anchors": ["full-moon/src/visitors.rs: VisitorMut", "full-moon/src/ast/visitors.rs", "full-moon-derive/src/visit.rs"]}
{"id": "C31", "title": "The immutable visitor sees every token of the file in source order", "statement": "Visitor::visit_ast calls the token callbacks for every token reference of the tree, once each, in the order in which they are printed, ending with Eof.", "quantifier": "every syntax tree", "why_tests_cant": "A single node type with a hand-written visitor can skip punctuation.", "anchors": ["full-moon/src/ast/visitors.rs", "full-moon/src/ast/luau_visitors.rs", "full-moon/src/visitors.rs"]}
{"id": "C32", "title": "node.tokens() yields every token of the node exactly once in source order", "statement": "Node::tokens of any node enumerates exactly the tokens printed by the node, in printed order.", "quantifier": "every syntax tree", "why_tests_cant": "Derive-generated field order versus source order for each node type.", "anchors": ["full-moon-derive/src/node.rs", "full-moon/src/node.rs"]}
{"id": "C33", "title": "Node ranges cover exactly the node's tokens", "statement": "For any node of a parsed ast, start_position is the start of its first printed token and end_position the end of its last printed token.", "quantifier": "every node of every parsed ast", "why_tests_cant": "Derive-generated ranges depend on declaration order of fields and optional parts.", "anchors": ["full-moon-derive/src/node.rs: StructRangeGenerator, EnumRangeGenerator", "full-moon/src/node.rs"]}
{"id": "C34", "title": "similar() is an equivalence that ignores trivia and positions", "statement": "similar is reflexive, symmetric and transitive, and replacing positions or trivia anywhere in a tree yields a similar tree.", "quantifier": "all trees", "why_tests_cant": "Universally quantified algebraic law over all node types.", "anchors": ["full-moon/src/node.rs: Node::similar", "full-moon-derive/src/node.rs"]}
{"id": "C35", "title": "Accepted Lua 5.1 programs are in the Lua 5.1 grammar", "statement": "If parsing under lua51 yields no errors then the sequence of non-trivia tokens is derivable from the Lua 5.1 reference grammar.", "quantifier": "every source text", "why_tests_cant": "Over-acceptance is only visible on invalid programs nobody thought to test.", "anchors": ["full-moon/src/ast/parsers.rs", "full-moon/src/ast/parser_structs.rs"]}
{"id": "C36", "title": "Every Lua 5.1 program is accepted", "statement": "Every token sequence derivable from the Lua 5.1 reference grammar is parsed without errors under lua51.", "quantifier": "every derivable token sequence", "why_tests_cant": "The grammar generates infinitely many programs.", "anchors": ["full-moon/src/ast/parsers.rs", "full-moon/src/ast/parser_structs.rs"]}
{"id": "C37", "title": "Dialect constructs appear only when enabled", "statement": "Under a version without a dialect, a successful parse never contains constructs of that dialect (goto/labels, integer division and bitwise operators, attribs, compound assignment, Luau types, if-expressions, interpolated strings, continue).", "quantifier": "every source text, every feature set and every LuaVersion", "why_tests_cant": "Gating is scattered over the parser.", "anchors": ["full-moon/src/ast/parsers.rs", "full-moon/src/tokenizer/lexer.rs"]}
{"id": "C38", "title": "Unclosed or invalid tokens never look clean", "statement": "Lexer::collect returns Ok(tokens) only if no token had an error, and the returned tokens print back to the source; it returns Recovered otherwise with all errors in source order.", "quantifier": "every source text not starting with a shebang, every feature set and every LuaVersion", "why_tests_cant": "Error aggregation over arbitrary sequences of good and bad tokens.", "anchors": ["full-moon/src/tokenizer/lexer.rs: Lexer::collect, LexerResult::new"]}
{"id": "C39", "title": "Re-lexing a printed token gives the same token", "statement": "For every token produced without error, tokenizing its printed text on its own under the same version yields the same token type and then Eof (interpolated-string middle/end sections excepted, since they need an open brace).", "quantifier": "every source text and every token of it", "why_tests_cant": "Quantifies over all tokens that can ever be produced.", "anchors": ["full-moon/src/tokenizer/lexer.rs", "full-moon/src/tokenizer/structs.rs"]}
{"id": "C40", "title": "Parsing reports some error for every skipped token", "statement": "parse_fallible consumes every token: if it finishes, the whole token stream has been consumed up to and including Eof, and if no error was reported no token was skipped by recovery.", "quantifier": "every source text, every feature set and every LuaVersion", "why_tests_cant": "Recovery skips tokens only on malformed inputs, of which there are infinitely many.", "anchors": ["full-moon/src/ast/parser_structs.rs: AstResult::parse_fallible"]}
{"id": "C41", "title": "surrounding_trivia returns the trivia at both ends of a node", "statement": "Node::surrounding_trivia returns the leading trivia of the node's first token and the trailing trivia of its last token, also when the node consists of a single token.", "quantifier": "for all nodes", "why_tests_cant": "needs every node shape, in particular one-token nodes, with trivia on both sides", "anchors": ["full-moon/src/node.rs:34-49", "full-moon/src/node.rs:68-110"]}
{"id": "C42", "title": "Default tokens can always be built", "statement": "Every literal passed to TokenReference::basic_symbol in the crate is a blank-padded Lua 5.1 symbol, so the unwrap never panics under any feature set, and the token prints as the literal.", "quantifier": "for all feature sets and every literal used", "why_tests_cant": "64 feature sets times all constructors are never built together in CI", "anchors": ["full-moon/src/tokenizer/structs.rs:624-626", "full-moon/src/ast/mod.rs:578-580", "full-moon/src/ast/parsers.rs:1582"]}
{"id": "C43", "title": "cfxlua constructs appear only under cfxlua", "statement": "Under a version without cfxlua, a successful parse never contains a set constructor field `{ .a }` nor a `local x in y` assignment.", "quantifier": "every source text, every feature set and every LuaVersion", "why_tests_cant": "the gate is a cargo feature in some places and the runtime version in others; every combination of features, versions and texts matters", "anchors": ["full-moon/src/ast/parsers.rs"]}
{"id": "C44", "title": "Parsed trees are well-formed", "statement": "Every tree returned by parse_fallible, with or without errors, is a value of the declared types in which attribute and type specifier vectors have at most one entry per name, function names, unions and intersections are not empty, and operator nodes hold the token of their operator.", "quantifier": "every source text, every feature set and every LuaVersion", "why_tests_cant": "error recovery builds trees from arbitrary token sequences", "anchors": ["full-moon/src/ast/parsers.rs"]}
{"id": "C45", "title": "Accepted programs of Lua 5.2 to 5.4 and LuaJIT are in the reference grammar", "statement": "If parsing under lua52, lua53, lua54 or luajit yields no errors then the sequence of non-trivia tokens is derivable from the reference grammar of that version.", "quantifier": "every source text, every feature set without cfxlua, every one of these versions", "why_tests_cant": "Over-acceptance is only visible on invalid programs nobody thought to test, and depends on the combination of features and version.", "anchors": ["full-moon/src/ast/parsers.rs", "full-moon/src/ast/parser_structs.rs"]}
{"id": "C46", "title": "Programs of the Lua 5.2 to 5.4 and LuaJIT grammars are accepted", "statement": "Every source whose tokens are derivable from the reference grammar of the version is parsed without errors under that version, the tree holds all its tokens in order, and the tree prints as the source; except that a statement that begins with a parenthesis after an expression is taken for call arguments.", "quantifier": "every source text, every feature set without cfxlua, versions lua52, lua53, lua54, luajit", "why_tests_cant": "There are infinitely many programs in a grammar, and rejections hide in rare combinations of statements.", "anchors": ["full-moon/src/ast/parsers.rs", "full-moon/src/ast/parser_structs.rs"]}
{"id": "C47", "title": "Interpolated strings split into properly nested sections", "statement": "In Luau every section of an interpolated string is exactly the text between its opening delimiter (backtick or closing brace) and the first unescaped opening brace or backtick, or it is reported as UnclosedString; the brace that closes a hole always starts a section, every other closing brace is a symbol, so holes and tables nest; every section the Luau manual allows is read as one token. Outside Luau no such token is produced.", "quantifier": "every source text, every feature set and version", "why_tests_cant": "Nesting depth and combinations of escapes, braces and line ends are unbounded.", "anchors": ["full-moon/src/tokenizer/interpolated_strings.rs", "full-moon/src/tokenizer/lexer.rs:process_next"]}
{"id": "C48", "title": "Parsing undoes printing", "statement": "For every syntax tree that is well-formed (its nodes, tokens and parts follow the tree grammar of RoundSpec.v, operators nest by precedence, and no statement that starts with a parenthesis follows an unfinished call), in every dialect: parsing a source whose tokens are the tokens of the tree gives back exactly that tree, without errors, and printing that tree gives back the source. Hence different well-formed trees never have the same tokens.", "quantifier": "every tree of the grammar, every source with these tokens, every feature set and version", "why_tests_cant": "Trees nest to any depth and combine all productions; a test compares finitely many snapshots.", "anchors": ["full-moon/src/ast/parsers.rs", "full-moon/src/ast/mod.rs:Ast", "full-moon/src/lib.rs:parse"]}
{"id": "C49", "title": "The accepted sources are exactly those the tree grammar describes", "statement": "Outside Luau, parsing a source succeeds with a tree exactly if the tree is in the tree grammar of RoundSpec.v for that version and the tokens of the source are the tokens of the tree and the end of the file; the only other accepted sources have one more last statement right after the last statement of the whole source. In particular nothing is accepted that is not a program of the tree grammar, and no accepted source gets a tree outside it.", "quantifier": "every source text, every tree, every feature set and every version but Luau", "why_tests_cant": "It speaks of every rejected source too; snapshots hold a handful of rejected sources.", "anchors": ["full-moon/src/ast/parsers.rs", "full-moon/src/ast/parser_structs.rs", "full-moon/src/lib.rs:parse"]}
{"id": "C50", "title": "Versions that have more accept what others accept", "statement": "Outside Luau, let one version have every dialect feature another one has. A source that the smaller version accepts, and that has the same tokens in both, is accepted by the larger version with exactly the same tree.", "quantifier": "every source text, every two configurations outside Luau of which one has all that the other has", "why_tests_cant": "It relates two configurations on every source; the test suite parses each case in one configuration.", "anchors": ["full-moon/src/ast/parsers.rs", "full-moon/src/ast/versions.rs:LuaVersion", "full-moon/src/lib.rs:parse_fallible"]}
{"id": "C51", "title": "The parser looks only at the sorts of tokens", "statement": "Take two sources whose lexer results agree one by one: the same symbols, a name for a name, a number for a number, a string for a string, and the same lexer errors. Then, accepted or not, parsing them gives the same tree, where for the i-th token of one source the i-th token of the other stands (or the same token put in by the parser), and the same list of parse errors with the same messages at corresponding tokens and ranges between corresponding tokens; in particular one is accepted exactly if the other is. Whitespace, comments, positions, the values of numbers and strings and the spelling of names do not matter. In Luau the names typeof, read, write, type, export and continue stand for themselves, and it matters whether trivia follows a part of an interpolated string.", "quantifier": "every two source texts with such results, accepted or rejected, every feature set and version", "why_tests_cant": "It relates every two sources of the same shape, including rejected ones; tests compare single sources with snapshots.", "anchors": ["full-moon/src/ast/parsers.rs", "full-moon/src/ast/parser_structs.rs", "full-moon/src/lib.rs:parse_fallible"]}
{"id": "C52", "title": "The lexical grammar, exactly", "statement": "A small grammar describes each sort of token together with what may follow it (maximal munch for words, operators, numbers and blanks; first closing bracket for long brackets; nesting of braces and interpolated strings in Luau). For every source the lexer reports no error (and keeps a shebang line) exactly if the source is a file of this grammar, and its tokens, trivia included, are then those of the grammar; a source can be cut into tokens in one way only; tokens that can stand alone in a file can be written side by side with a space or a line end after each.", "quantifier": "every source text, every list of tokens, every feature set and version", "why_tests_cant": "It is an equivalence over all texts and all token lists; the tests lex finitely many sources.", "anchors": ["full-moon/src/tokenizer/lexer.rs", "full-moon/src/tokenizer/structs.rs"]}
{"id": "C53", "title": "A tree that is printed and parsed again comes back", "statement": "Take any tree of the tree grammar (C48), however it was made, whose tokens with their trivia are the tokens of the text it prints (C52). Parsing that text succeeds and gives the same tree: the same nodes with the same tokens at the same places. If trivia is attached to tokens by the rule of the lexer (C06), the trivia of every token is the same too; and if the positions are right as well, the parser returns exactly the tree that was printed. In Luau the trivia after parts of interpolated strings must be attached by the rule in any case.", "quantifier": "every tree, every end of file token, every feature set and version", "why_tests_cant": "The trees range over everything a program can build or edit; tests reprint only trees that come from the parser unchanged.", "anchors": ["full-moon/src/ast/mod.rs: impl Display for Ast", "full-moon/src/ast/parsers.rs", "full-moon/src/tokenizer/lexer.rs", "full-moon/src/lib.rs:parse_fallible"]}
{"id": "C54", "title": "Programs put together with the constructors are parsed back", "statement": "No constructor of a node panics under any feature set under which the node exists. Call a tree standing if it belongs to its sort of the tree grammar (C48), apart from missing entries None for types and attributes, and its text, put before any text that begins with white space, a parenthesis, a comma, a semicolon or a closing bracket, is read as its tokens. Then single tokens and trees with a space after each token stand; from standing parts, the nodes made by Do, While, Repeat, NumericFor, GenericFor, If, ElseIf, Assignment, LocalAssignment, LocalFunction, FunctionDeclaration, AnonymousFunction, FunctionBody, TableConstructor, FunctionCall, Return, Goto, IfExpression, ElseIfExpression, TypeDeclaration and Block stand, where If and IfExpression with parts, Goto, values of a local assignment and the step of a for loop need an explicit token, and the block of While must be followed by white space. A standing block is parsed back from its text: the same nodes with the same tokens.", "quantifier": "every part that stands, every feature set and version", "why_tests_cant": "The parts are arbitrary trees; tests build a handful of nodes and compare their text.", "anchors": ["full-moon/src/ast/mod.rs: new and with_... of every node", "full-moon/src/ast/lua52.rs", "full-moon/src/ast/luau.rs", "full-moon/src/tokenizer/structs.rs:TokenReference::symbol"]}
{"id": "C55", "title": "Trees hold tokens of the source, each at most once, in order", "statement": "For every source, accepted or not, under every feature set and Lua version, the tokens of the tree that is returned are, up to their order, tokens of the source, each taken at most once, and tokens that the parser puts in for missing ones. If the source has no `elseif`, then the statements of the tree hold their tokens in the order of the source, and so does its last statement; the whole tree does if it has no last statement. In general the order is not that of the source: an unfinished `if` takes the condition of its last `elseif` as its own, and statements after a `return` are put in front of it, with an error only when the `return` is in the first block that was parsed.", "quantifier": "every source, every feature set and version", "why_tests_cant": "Tests compare the trees of a few broken files with snapshots; they do not look for tokens that come twice or in the wrong order in the trees of other broken files.", "anchors": ["full-moon/src/ast/parsers.rs:every function that returns a tree after an error", "full-moon/src/ast/parsers.rs:1031-1083 (unfinished_if)", "full-moon/src/ast/mod.rs:110-116 (merge_blocks)", "full-moon/src/ast/parser_structs.rs:287-383 (parse_fallible)"]}
{"id": "C56", "title": "Errors point into the source", "statement": "For every source, under every feature set and Lua version, the token of every error of the parser is a token of the source, or one that the parser has put in for a missing one; the range of the error begins where such a token begins and ends where such a token ends. Tokens of the source, also of a broken one, are at the positions they have: the text between them is that of the token. The range of an error is a range of the source, and tokens put in have a null position, as the documentation says.", "quantifier": "every source, every feature set and version", "why_tests_cant": "Snapshots record the ranges of errors of a few broken files; an editor that underlines the range of an error needs it to be one for all files.", "anchors": ["full-moon/src/lib.rs:39-62", "full-moon/src/lib.rs:96-112", "full-moon/src/ast/mod.rs:2387-2420 (AstError)", "full-moon/src/ast/parser_structs.rs (token_error, token_error_ranged)"]}
{"id": "C57", "title": "The errors of the lexer are reported, each once and in order", "statement": "For every source, under every feature set and Lua version, the errors of the lexer among the errors of a parse are exactly the errors the lexer has found, each once and in the order of the source.", "quantifier": "every source, every feature set and version", "why_tests_cant": "Errors of the lexer are collected while the parser looks ahead and gives up in many places; tests have at most a few lexical errors in simple places.", "anchors": ["full-moon/src/ast/parser_structs.rs:21-135 (ParserState)", "full-moon/src/ast/mod.rs (AstResult::parse_fallible)", "full-moon/src/tokenizer/lexer.rs"]}
{"id": "C58", "title": "In Luau the accepted sources are exactly those the tree grammar describes", "statement": "In Luau (any feature set; a version with Luau and without Lua 5.2 and LuaJIT): when the tokens of a source are the tokens of a tree and the end of the file, parsing the source gives this tree without an error exactly if the tree is in the tree grammar of RoundSpec.v. In particular every accepted source of which no token was dropped has a tree of this grammar, which settles operators, casts, types, packs, generics, attributes, interpolated strings and type functions; and a source with the tokens of no tree of the grammar is rejected or loses a token.", "quantifier": "every source text, every tree, every feature set, every Luau version", "why_tests_cant": "It speaks of every rejected source too; snapshots hold a handful of rejected Luau sources.", "anchors": ["full-moon/src/ast/parsers.rs", "full-moon/src/ast/luau.rs", "full-moon/src/ast/parser_structs.rs", "full-moon/src/lib.rs:parse"]}
{"id": "C59", "title": "Tokens compare as they stand in the source", "statement": "cmp on positions, tokens and token references is a total preorder. For places of one source it agrees with the order by line and character. Of two tokens of one source, trivia included and whether or not the source has errors, the one that comes first is less, so that for tokens of one source cmp is Equal exactly when == holds. After update_positions the tokens of every tree are in the order of cmp.", "quantifier": "all sources, configurations and trees", "why_tests_cant": "The order relates any two tokens of any source, in particular of sources with lexical errors, characters of several bytes and line breaks in tokens; tests compare a few.", "anchors": ["full-moon/src/tokenizer/structs.rs:526", "full-moon/src/tokenizer/structs.rs:800", "full-moon/src/tokenizer/structs.rs:810", "full-moon/src/tokenizer/structs.rs:877"]}
{"id": "C60", "title": "Nodes of Lua 5.2, Lua 5.4 and Luau put together with the constructors are parsed back", "statement": "Standing is as in C54. From standing parts the following stand too, with the tokens that the constructors make up. Label::new of a name without spaces, before any text. LocalAssignment with an attribute or a type for each name, with and without values. CompoundAssignment. VarExpression with an index by name. MethodCall, and a call with it. TypeAssertion on an expression. TypeField, TypeSpecifier and TypeArgument. TypeInstantiation, in a version in which << and >> are no operators. GenericDeclaration with at least one name, and type declarations and exported ones with it. FunctionBody with generics, types of parameters and a result type. FunctionName of dotted names. LuauAttribute of a name with a space after it. FunctionDeclaration, LocalFunction and AnonymousFunction with attributes. TypeFunction and ExportedTypeFunction. By C54 a block of such statements is parsed back as the same nodes with the same tokens.", "quantifier": "every part that stands, every feature set and version that has the node", "why_tests_cant": "The parts are arbitrary trees; tests build a handful of nodes and compare their text.", "anchors": ["full-moon/src/ast/mod.rs:MethodCall::new", "full-moon/src/ast/mod.rs:VarExpression::new", "full-moon/src/ast/lua52.rs:Label::new", "full-moon/src/ast/lua54.rs:Attribute::new", "full-moon/src/ast/luau.rs: new of every node", "full-moon/src/ast/compound.rs:CompoundAssignment::new"]}
{"id": "C61", "title": "The text of an error tells what the error is", "statement": "If two errors of any two parses have the same text (to_string), then they are of the same kind, have the same message, are about the same text, and are at the same lines and characters. For this it is shown that the message of every error of the parser is not empty and has no line break. Two errors of the lexer in one source have different texts. error_message and range agree with the text and with the ranges of C56.", "quantifier": "all sources, configurations and errors", "why_tests_cant": "The token in the text of an error can be any text, with line breaks, backticks or the words of the message itself; tests compare the texts of a few errors.", "anchors": ["full-moon/src/tokenizer/structs.rs:216", "full-moon/src/tokenizer/structs.rs:947", "full-moon/src/ast/mod.rs:2403", "full-moon/src/ast/mod.rs:2420", "full-moon/src/lib.rs:51", "full-moon/src/lib.rs:69"]}
{"id": "C62", "title": "Getters and the functions with_... fit together", "statement": "Every getter of every struct of the tree returns something for every node of the struct and has a function with_... that sets it. It returns the field it is named for. What is set is got, no other getter of the node changes its value, setting what was got gives the same node, the last of two settings counts, and the getters of a node together return all tokens that the node prints, each once. Block::stmts and last_stmt are the statements without their semicolons, InterpolatedString::expressions are the expressions of the segments in order, and the token of an operator is what it prints.", "quantifier": "all structs, getters, functions with_..., nodes and values", "why_tests_cant": "There are 149 getters and 147 setters, one per field, written by hand; a swapped field of the same type compiles, and tests call only a few of them.", "anchors": ["full-moon/src/ast/mod.rs:78", "full-moon/src/ast/mod.rs:629", "full-moon/src/ast/mod.rs:2249", "full-moon/src/ast/luau.rs:1139", "full-moon/src/ast/luau.rs:1194", "full-moon/src/ast/lua52.rs:40", "full-moon/src/ast/lua54.rs:45", "full-moon/src/ast/compound.rs:143"]}
