{"id": "C01", "title": "Token ranges tile the source", "statement": "Calling next_token repeatedly on a &str, each returned TokenRange starts at or after the end of the previous one, the bytes skipped in between are exactly blanks (tab, vertical tab, form feed, space), each range lies inside the source with start <= end, and the next call resumes at the end of the last range. No source byte is skipped or covered twice.", "quantifier": "every source text, every sequence of Hints chosen by the caller, every number of calls", "why_tests_cant": "A test fixes one source and one hint sequence; the claim is about all prefixes of all call histories.", "anchors": ["src/tokenizer/slice.rs: SliceTokenizer::next_token, eat_whitespace, increment_position", "src/tokenizer/mod.rs: TokenRange, Tokenizer"]}
{"id": "C02", "title": "Tokens are lossless: a range spells its token", "statement": "The source text inside a returned TokenRange is the spelling of the returned token: the fixed spelling of a punctuator, the name of an identifier, '//' plus the value of a line comment, '/*' value '*/' of a block comment, '/' pattern '/' flags of a regular expression, quote value quote of a string, the delimiters plus raw of a template chunk, one of LF, CR, U+2028, U+2029 for a line terminator, nothing for EOF, and for a number a text of ASCII characters that starts with a digit or with '.' and a digit (not only characters of numeric literals: '0x;' is read as one number). The only exception is an unterminated string, which is reported as an empty string over an empty range.", "quantifier": "every source text, hint and position reached", "why_tests_cant": "Needs every token kind with arbitrary contents, including contents that contain other tokens' delimiters.", "anchors": ["src/tokenizer/slice.rs: read_next, tok_ident, tok_slash, tok_str, tok_template_head, tok_curly_close, tok_num, tok_zero_num, tok_fractional"]}
{"id": "C03", "title": "Progress, and exactly when there is none", "statement": "next_token consumes at least one byte beyond the skipped blanks, except in exactly three situations in which it returns an empty range: EOF at the end of the source; an empty identifier in front of a character that starts no token (#, @, backslash, control characters, any non-ASCII character other than U+2028/U+2029); an empty string in front of a quote that is never closed.", "quantifier": "every source text, hint and position", "why_tests_cant": "A caller that loops until EOF relies on progress for all inputs; the failing inputs are exactly the ones nobody thought to test.", "anchors": ["src/tokenizer/slice.rs: next_token, read_next, tok_ident, tok_str"]}
{"id": "C04", "title": "EOF means the end, and stays", "statement": "next_token returns EOF exactly when only blanks remain; from then on every call with any hint returns EOF with the same empty range at the end of the source.", "quantifier": "every source text, hint sequence and number of further calls", "why_tests_cant": "Quantifies over all later calls.", "anchors": ["src/tokenizer/slice.rs: next_token, read_next"]}
{"id": "C05", "title": "Exactly when tokenizing panics", "statement": "next_token panics if and only if the text after the blanks is one of: a no-break space or byte order mark directly after the blanks (slice off a char boundary); an unterminated block comment; an unterminated template chunk; with the expression hint, an unterminated regular expression; a string that, before it is closed, contains a bare line break, an escape '\\1'..'\\9' or an unknown escape; a 0x/0o/0b literal whose first digit is below '0' (in builds with overflow checks) or is a non-ASCII character; 8 or 9 inside an octal literal or 2..9 inside a binary one; an exponent that overflows i32 in a build with overflow checks. In particular the unreachable!() arms are never reached.", "quantifier": "every well-formed UTF-8 source, hint, position and build mode (overflow checks on or off)", "why_tests_cant": "Panic freedom is a statement about all inputs; tests only show particular inputs that do not panic.", "anchors": ["src/tokenizer/slice.rs: read_next (unreachable! arms), tok_slash, tok_str, tok_template_head, tok_curly_close, tok_zero_num, parse_exponent, eat_whitespace"]}
{"id": "C06", "title": "Longest punctuator wins", "statement": "Where a punctuator is returned, it is the longest entry of the punctuator table that is a prefix of the remaining text; and whenever the remaining text starts with a punctuator other than '/', '}' (and '.' followed by a digit), that longest punctuator is returned. '<!--' is never produced.", "quantifier": "every remaining text and hint", "why_tests_cant": "All continuations of every punctuator must be considered, e.g. '>>>' followed by anything.", "anchors": ["src/tokenizer/slice.rs: read_next", "src/tokenizer/tokens.rs: PunctuatorToken"]}
{"id": "C07", "title": "The hint decides '/' and '}'", "statement": "At '/', a comment start ('//' or '/*') always gives a comment; otherwise with the expression hint the result is a regular expression (or a panic) and without it the punctuator '/=' or '/'. At '}', with the template hint the result is a template middle or tail (or a panic) and without it the punctuator '}'.", "quantifier": "every remaining text starting with '/' or '}' and every hint", "why_tests_cant": "Hint and text range over infinitely many combinations.", "anchors": ["src/tokenizer/slice.rs: tok_slash, tok_curly_close", "src/tokenizer/mod.rs: Hint"]}
{"id": "C08", "title": "Line comments end exactly at the first line terminator", "statement": "For a text starting with '//', the comment value is the longest prefix of the rest containing no LF, CR, U+2028 or U+2029, and the terminator itself is not consumed; the comment may end at end of input.", "quantifier": "every text starting with '//'", "why_tests_cant": "Arbitrary comment contents, including partial UTF-8 encodings of U+2028.", "anchors": ["src/tokenizer/slice.rs: tok_slash"]}
{"id": "C09", "title": "Block comments end at the first '*/'", "statement": "For a text starting with '/*', the comment value is everything up to the first '*/' that starts at or after index 2 (so '/*/' does not close itself), the whole delimiter is consumed, and without such a '*/' the call panics.", "quantifier": "every text starting with '/*'", "why_tests_cant": "Arbitrary contents such as '**/', '*/*/', '/*/'.", "anchors": ["src/tokenizer/slice.rs: tok_slash"]}
{"id": "C10", "title": "Template chunks end at the first '${' or backtick", "statement": "A template chunk (after a backtick, or after '}' with the template hint) ends at the first '${' or backtick, raw and cooked are both the text in between, and the format says which delimiters bounded it. A backslash does not protect a delimiter: the text `\\`` ends at the escaped backtick (deviation from ECMAScript).", "quantifier": "every text following an opening backtick or '}'", "why_tests_cant": "Arbitrary contents such as '$$${' or '{${'.", "anchors": ["src/tokenizer/slice.rs: tok_template_head, tok_curly_close"]}
{"id": "C11", "title": "Regular expression extent", "statement": "With the expression hint, a text starting with '/' (not a comment) is read up to the first '/' that is neither escaped by a backslash nor inside a [...] class; the flags are the maximal run of a-z after it.", "quantifier": "every text starting with '/' with the expression hint", "why_tests_cant": "Escapes and classes interact in unboundedly many ways.", "anchors": ["src/tokenizer/slice.rs: tok_slash"]}
{"id": "C12", "title": "Identifiers are maximal runs", "statement": "A text starting with a letter, '$' or '_' gives an identifier whose name is the maximal prefix of ASCII letters, digits, '$' and '_'.", "quantifier": "every text", "why_tests_cant": "Length of names is unbounded; maximality is about the next character.", "anchors": ["src/tokenizer/slice.rs: tok_ident"]}
{"id": "C13", "title": "String literals: extent and value", "statement": "For a text starting with a quote, the literal ends at the first matching quote that is not consumed by an escape; its value is the raw text between the quotes (escapes are not decoded). Contents without backslash and line breaks are accepted whatever they are.", "quantifier": "every text starting with ' or \"", "why_tests_cant": "Escape automaton over arbitrary contents.", "anchors": ["src/tokenizer/slice.rs: tok_str"]}
{"id": "C14", "title": "Decimal integers are exact", "statement": "A literal consisting of a nonzero digit followed by digits, not followed by '.', 'e' or 'E', is consumed as a whole and its value is the binary64 number obtained by exact arithmetic whenever the integer is below 2^53.", "quantifier": "every digit string denoting an integer below 2^53, every continuation", "why_tests_cant": "Floating-point accumulation must be exact at every step for each of about 9*10^15 integers.", "anchors": ["src/tokenizer/slice.rs: tok_num, parse_int_literal"]}
{"id": "C15", "title": "Radix integers", "statement": "0o and 0b literals with valid digits have exactly the value they denote below 2^53 and are consumed maximally; 0x literals consisting of decimal digits likewise. 0x literals containing letters get a wrong value (0x1a is read as 16, 0xa as 49).", "quantifier": "every digit string in the radix", "why_tests_cant": "Same as C14; the refutation shows the tests' digits-only hex samples hide a defect.", "anchors": ["src/tokenizer/slice.rs: tok_zero_num"]}
{"id": "C16", "title": "Numeric literal extents", "statement": "A decimal literal covers exactly: the integer digits, an optional '.' with the maximal digit run, and an optional exponent part. A literal starting with '0' not followed by x, o, b or '.' covers just the '0'.", "quantifier": "every text starting with a digit or '.digit'", "why_tests_cant": "All combinations of parts and continuations.", "anchors": ["src/tokenizer/slice.rs: tok_num, tok_zero_num, tok_fractional, parse_decimal_digits, parse_exponent"]}
{"id": "C17", "title": "Exponents beyond i32", "statement": "With overflow checks the tokenizer panics exactly when the magnitude of an exponent reaches 2^31; without them it silently wraps, so the value of a literal can depend on the build.", "quantifier": "every exponent digit string and both build modes", "why_tests_cant": "Unbounded digit strings.", "anchors": ["src/tokenizer/slice.rs: parse_exponent"]}
{"id": "C18", "title": "Blanks never become tokens", "statement": "Blanks between tokens never change the tokens: inserting tabs, vertical tabs, form feeds or spaces before the remaining text changes neither the token returned nor the text after it; no Whitespace token is ever returned.", "quantifier": "every text, hint and number of blanks", "why_tests_cant": "All insertions everywhere.", "anchors": ["src/tokenizer/slice.rs: eat_whitespace, next_token"]}
{"id": "C19", "title": "Line and column tracking", "statement": "The end position of a range is obtained from its start by walking the token's code points: column counts code points since the last line break, line counts line breaks with CR LF inside one token counted once. Refuted parts: lines start at 0 although documented as 1-indexed, and a CR LF between tokens counts as two lines.", "quantifier": "every source and hint sequence", "why_tests_cant": "Positions accumulate over the whole history of calls.", "anchors": ["src/tokenizer/slice.rs: increment_position, eat_whitespace", "src/tokenizer/mod.rs: Position"]}
{"id": "C20", "title": "Hints matter nowhere else", "statement": "For a text whose first non-blank byte is neither '/' nor '}', the result of next_token is the same under all hints; at '/' only the expression hint matters, at '}' only the template hint; the strict hint never matters.", "quantifier": "every text and every pair of hints", "why_tests_cant": "All texts times all hint pairs.", "anchors": ["src/tokenizer/slice.rs: read_next"]}
{"id": "C21", "title": "Line terminators", "statement": "A LineTerminator token is returned exactly at LF, CR, U+2028 or U+2029, covering just that character (CR LF gives two tokens).", "quantifier": "every text", "why_tests_cant": "Includes all non-ASCII neighbours of U+2028/U+2029.", "anchors": ["src/tokenizer/slice.rs: read_next"]}
{"id": "C22", "title": "Tokenizing is local", "statement": "What next_token returns depends only on the text from the current offset on (the token and its length do not depend on earlier text or on the line/column), so tokenizing a suffix from a fresh tokenizer gives the same tokens with shifted positions.", "quantifier": "every prefix, suffix and hint", "why_tests_cant": "Universally quantified over prefixes.", "anchors": ["src/tokenizer/slice.rs: next_token, read_next"]}
{"id": "C23", "title": "Tokens reach the grammar in source order, none lost or duplicated", "statement": "At every moment of a parse, with any tokenizer, the tokens consumed so far followed by the (at most two) buffered ones are exactly the non-trivia tokens received from the tokenizer, in order, each with a flag telling whether a line break preceded it.", "quantifier": "every tokenizer implementation, every source, every moment of every parse (success or error)", "why_tests_cant": "The two-slot ring buffer and its lookahead interleave differently for each input.", "anchors": ["src/parser/mod.rs: Parser::token_and_line, pop, ident_lookahead, read_token"]}
{"id": "C24", "title": "Grammar context is scoped", "statement": "Every parse function leaves the grammar flags, the depth of the flag stack and the tokenizer's template mode exactly as it found them, whether it matches, does not match, or fails.", "quantifier": "every tokenizer, every parse function, every state", "why_tests_cant": "Drop-based restoration must hold on all exit paths of about seventy functions.", "anchors": ["src/parser/mod.rs: ParserProxy, with, without, push_flags, pop_flags"]}
{"id": "C25", "title": "The parser's own assertions never fire", "statement": "No parse reaches an unreachable!(), an empty flag stack or a token-count underflow: the only panics parse_root can raise are those of the tokenizer and the final unwrap of a parse error.", "quantifier": "every tokenizer and every source", "why_tests_cant": "Absence of a panic over all executions.", "anchors": ["src/parser/mod.rs: pop, pop_flags, punc, keyword, identifier", "src/parser/expressions.rs: parse_assignment_expression"]}
{"id": "C26", "title": "Parsing terminates", "statement": "parse_root returns or panics on every source; the nesting of calls (with loop iterations counted as calls) is bounded by a linear function of the source length.", "quantifier": "every source", "why_tests_cant": "Termination for all inputs, including those on which the tokenizer makes no progress.", "anchors": ["src/parser/file.rs: parse_module", "src/parser/*.rs loops", "src/parser/mod.rs: read_token"]}
{"id": "C27", "title": "Acceptance covers the whole source", "statement": "If parse_root accepts a source, the tokens consumed are exactly all the non-trivia tokens of the source up to and including EOF, their ranges and the trivia tile the source completely, and the last one is EOF at the end of the source.", "quantifier": "every accepted source", "why_tests_cant": "No accepted input may have an unread tail.", "anchors": ["src/parser/file.rs: parse_module", "src/parser/mod.rs: eof, parse_root"]}
{"id": "C28", "title": "Accepted sources derive from the grammar", "statement": "If parse_root accepts a source, its token sequence derives from Module in an explicitly written context-free grammar with automatic semicolon insertion and no-line-terminator restrictions (ECMAScript 2017 with the documented deviations of this parser).", "quantifier": "every accepted source", "why_tests_cant": "Soundness over all inputs.", "anchors": ["src/parser/*.rs"]}
{"id": "C29", "title": "Accepted sources are bracket-balanced", "statement": "In every accepted source the token sequence is well bracketed: '(' with ')', '[' with ']', '{' with '}', and template heads with template tails, middles lying directly inside a template.", "quantifier": "every accepted source", "why_tests_cant": "All nestings of all depths.", "anchors": ["src/parser/*.rs"]}
{"id": "C30", "title": "Programs of the language are accepted", "statement": "Every source made of the tokens of a program of the supported language (all statement forms, expressions with all operators, calls, members, literals, functions, arrow functions, classes, patterns, imports and exports) is accepted, and read as exactly these tokens, provided that every '/' in it stands where the tokens before it settle whether it divides or begins a regular expression (C36). A source without '/' is accepted only if its tokens are a program.", "quantifier": "every program of the grammar, of every size and depth, and every spelling of its tokens with any trivia between them", "why_tests_cant": "Completeness over an infinite family of programs.", "anchors": ["src/parser/*.rs"]}
{"id": "C31", "title": "Automatic semicolon insertion", "statement": "Where a semicolon is required and the next token is not one, the parse continues exactly when the next token is '}' or EOF or is preceded by a line break (or the statement is do-while); otherwise it fails. The inserted semicolon consumes nothing.", "quantifier": "every parser state and next token", "why_tests_cant": "All statement kinds in all contexts.", "anchors": ["src/parser/mod.rs: semicolon, semicolon_dowhile, semicolon_inner"]}
{"id": "C32", "title": "Restricted productions", "statement": "A line break after return, break, continue, throw or yield, or before a postfix ++/--, ends the production there: the following token is never read as its operand.", "quantifier": "every continuation", "why_tests_cant": "All continuations in all contexts.", "anchors": ["src/parser/statements.rs: parse_return_statement, parse_break_statement, parse_continue_statement, parse_throw_statement", "src/parser/expressions.rs: parse_update_expression, parse_yield_expression"]}
{"id": "C33", "title": "Reserved words are never bound", "statement": "No reserved word (nor null, true, false, enum) is ever consumed as a binding identifier, identifier reference or label reference, in any context.", "quantifier": "every source and context", "why_tests_cant": "All contexts times all words.", "anchors": ["src/parser/mod.rs: is_binding_identifier, binding_identifier"]}
{"id": "C34", "title": "Operator precedence never affects acceptance", "statement": "Whether a chain of binary operators is accepted does not depend on their precedences: parse_fancy started at any precedence accepts the same inputs and stops at the same place.", "quantifier": "every token sequence and every precedence", "why_tests_cant": "Unbounded operator chains.", "anchors": ["src/parser/expressions.rs: parse_fancy"]}
{"id": "C35", "title": "Trivia other than line breaks is irrelevant", "statement": "Replacing the trivia between tokens by other trivia with the same line-break status does not change the outcome of the parse.", "quantifier": "every token sequence and all spacings", "why_tests_cant": "All spacings of all programs.", "anchors": ["src/parser/mod.rs: read_token"]}
{"id": "C36", "title": "Division versus regular expression", "statement": "A '/' directly after a name that is not reserved, after a literal that follows an operator, '(', '[', ',', '.' or '...', and after a ')' (unless the ')' closes over a name with a keyword before it) is read as division in every program; at the beginning of the source and after an operator, '(', '{' or ':', after a ',' that is not directly in square brackets and does not end an argument with '...', after delete, void, typeof, in, instanceof, case, else and do where these are not names of properties, and after a ';' if neither if nor export occurs before it, it is read as a regular expression; programs with such slashes parse. Everything after a yield is excepted. Refuted in general: after ']' of a member access, after this, a literal or a postfix operator at the start of a statement, after a literal behind return or typeof, after a template or function expression, after (typeof a), f(typeof a) and (yield a), the parser asks for a regular expression, so that a[b]/x/y is rejected; and in array literals, computed members and template substitutions, after the ',' behind a spread argument, after yield, after new behind an operator, after 'if (a) ;' and 'if (a) var b;', and after 'if (a) return' and 'if (a) throw' it asks for division.", "quantifier": "every program and every such place in it", "why_tests_cant": "The hint is carried in mutable state across peeks; which prefixes break is not visible from samples.", "anchors": ["src/parser/expressions.rs: parse_expression", "src/parser/mod.rs: ident_lookahead, expect_expression"]}
{"id": "C37", "title": "Nested templates and braces", "statement": "Inside a template substitution, a '}' closing a nested block or object literal is a punctuator and the '}' closing the substitution is a template token, at every nesting depth.", "quantifier": "every nesting", "why_tests_cant": "Unbounded nesting depth.", "anchors": ["src/parser/mod.rs: push_flags, pop_flags", "src/parser/expressions.rs: parse_template_literal_expression, parse_object_literal_expression"]}
{"id": "C38", "title": "The outcome is determined by the source", "statement": "parse_root is a function of the source (and build mode): the result of a parse does not depend on the evaluation budget of the model, and a non-match consumes no token.", "quantifier": "every source", "why_tests_cant": "Determinism and absence of hidden consumption over all executions.", "anchors": ["src/parser/*.rs"]}
{"id": "C39", "title": "Known deviations from ECMAScript", "statement": "No accepted source contains two spread arguments in a row, new.target, import.meta, a class expression with a body, an async function declaration or expression, an exported function or class, 'throw x; else', a default clause behind a case clause that is not followed by a statement, an assignment pattern with a default in parentheses, a rest property in a declared pattern, for await, catch without a parameter, or a class field, whatever the names in it and the text around it. Conversely these invalid texts are accepted in front of every program: return, break, continue and yield outside of functions and loops, throw a b, try without catch and finally, assignments to anything, empty parentheses, empty computed names, getters with a star, labels that are reserved words, and others listed in SpecDeviations.v.", "quantifier": "every accepted source and every tokenizer, all names, all surrounding text", "why_tests_cant": "Each is a family of programs with arbitrary text around the deviation, not one program.", "anchors": ["src/parser/expressions.rs", "src/parser/statements.rs", "src/parser/module.rs", "src/parser/classes.rs"]}
{"id": "C40", "title": "Exponents scale the mantissa", "statement": "The value of a decimal literal with an exponent part is the value of the same literal without it, multiplied in binary64 by 10f64.powi(exponent), where exponent is the signed decimal number written after e or E; for every mantissa and every exponent that fits in i32.", "quantifier": "all tokenizer states, hints, mantissas and exponent texts", "why_tests_cant": "there are infinitely many mantissas and exponent texts, with and without sign", "anchors": ["src/tokenizer/slice.rs: parse_exponent, apply exponent in tok_num, tok_fractional, tok_zero_num"]}
{"id": "C41", "title": "Errors are never premature", "statement": "If parse_root reports an error, the tokens read so far are not the beginning of any token sequence that derives from the grammar: no correction of the text behind them could make the source acceptable.", "quantifier": "every rejected source, every tokenizer, every continuation", "why_tests_cant": "It speaks about all continuations of a rejected prefix; a test only shows one continuation failing.", "anchors": ["src/parser/mod.rs: Parser, eat_fn!, try_fn!, opt_fn!", "src/parser/file.rs: parse_root"]}
{"id": "C42", "title": "Decimal literals are close to the number written", "statement": "A decimal literal with at most 280 digits in front of the point and any number of digits behind it is returned as a finite number whose distance from the number written is at most (2i+f+4)/2^53 of it, where i and f (at most 330) are the numbers of digits in front of and behind the point (plus 2^-1000). It is not always the nearest binary64 number: 0.3 is read as 0.30000000000000004.", "quantifier": "every decimal literal without exponent of at most 280 integer digits and any number of fraction digits, wherever it stands in a source", "why_tests_cant": "Rounding errors accumulate over an unbounded number of digits; no finite set of literals bounds them.", "anchors": ["src/tokenizer/slice.rs: tok_num, parse_int_literal, parse_decimal_digits"]}
{"id": "C43", "title": "Parsing takes a number of steps linear in the length of the source", "statement": "For every source text, accepted, rejected or panicking, parse_root makes at most 303*n+400 calls of parse functions and operations on its token buffer, and asks the tokenizer for at most 607*n+800 tokens, where n is the length of the source in bytes: no source makes the parser try alternatives an exponential or quadratic number of times.", "quantifier": "every source text (valid UTF-8), both build profiles", "why_tests_cant": "The parser tries alternatives in sequence and calls itself recursively at every level; whether some nesting of constructs makes the work multiply cannot be seen from the time of particular sources.", "anchors": ["src/parser/mod.rs: Parser::token_and_line, pop, ident_lookahead, read_token", "src/parser/expressions.rs, statements.rs, declarations.rs, functions.rs, classes.rs, module.rs: all parse functions"]}
{"id": "C44", "title": "Only the shapes of tokens matter", "statement": "Whether a source is accepted or rejected, and with which error, depends only on the shapes of its tokens: replacing names that are not words of the language by other such names, strings by strings, numbers by numbers, regular expressions and templates by others, never changes the outcome, as long as the replacements are read as tokens of the same kinds under the same hints. For names and strings in the same trivia this is always so, unless a name stands directly behind a number or a regular expression.", "quantifier": "every accepted or rejected source text, every replacement of its names and literals, and every text behind the last token read", "why_tests_cant": "There are infinitely many names and literals to put into every position of every program; a parser that looks at the spelling of one particular name, or at the value of one number, passes every test that does not use it.", "anchors": ["src/parser/mod.rs: keyword, identifier, binding_identifier, is_binding_identifier, numeric, string, regex, template", "src/parser/expressions.rs, statements.rs, declarations.rs, functions.rs, classes.rs, module.rs: all parse functions"]}
{"id": "C45", "title": "Nesting is not limited: the depth of recursion grows with the source", "statement": "There is no bound on the nesting parse_root accepts, and no bound on the depth of its recursion: the valid program that is a name in d pairs of parentheses is accepted if the calls may nest deep enough, and needs more than 9*d nested calls of parse functions; so does a source of d opening parentheses, before it is rejected. Some source therefore exceeds any finite stack (C26 bounds the depth from above).", "quantifier": "every number of parentheses, every limit on the nesting of calls, both build profiles", "why_tests_cant": "A test runs with one stack size and some nestings; the claim is about every stack size.", "anchors": ["src/parser/expressions.rs: parse_assignment_expression down to parse_primary_expression, parse_cover_parenthesized_expression", "src/parser/mod.rs: parse_root"]}
{"id": "C46", "title": "The formatter's settings are scoped", "statement": "Whatever sequence of printing calls and locks, nested in any way, is made on a formatter of syntax trees, afterwards its required precedence, its permission of the operator in and its treatment of orphan ifs are as before, everything printed before is still there, and what was added is the layout (one space between a word and a word or number) of exactly the items, with parentheses exactly around expressions of lower precedence than required or with a forbidden beginning. The exception is in_wrap_parens, which wraps where the operator in is allowed instead of where it is not.", "quantifier": "every tree of calls and every state of the formatter", "why_tests_cant": "Locks restore the settings when they are dropped; a setting that is not restored after one particular nesting only shows in what is printed later.", "anchors": ["src/ast/display.rs: NodeFormatter, FormatterLock, precedence, require_precedence, restrict_lookahead, lookahead_wrap_parens, allow_in, disallow_in, in_wrap_parens, wrap_parens, wrap_curly, wrap_square, disallow_orphan_if, wrap_orphan_if, keyword, punctuator, identifier, string, number, regexp"]}
{"id": "C47", "title": "The formatter prints balanced brackets", "statement": "Every tree whose nodes leave brackets to the formatter's locks is displayed with balanced parentheses, braces and brackets, under every setting.", "quantifier": "every tree of calls, every setting of precedence, in, orphan if and restriction", "why_tests_cant": "Trees are unboundedly deep and each node decides on parentheses by the settings above it.", "anchors": ["src/ast/display.rs: wrap_parens_inner, wrap_curly, wrap_square, wrap_orphan_if"]}
{"id": "C48", "title": "What the formatter displays is read back as the same tokens", "statement": "If all items displayed spell tokens, no neighbours run together (a number with a word, number or, for an integer, period; a regular expression with a word; punctuators that continue each other) and slashes are at places where the tokens in front decide their kind, then the displayed text has exactly these tokens, and parse_root accepts it if they form a program. The formatter only puts spaces behind words, so without the second condition this fails: an integer followed by a property access and an addition of a signed operand are displayed as texts that are rejected although their tokens form programs.", "quantifier": "every tree of calls, every list of tokens it spells, both build profiles", "why_tests_cant": "Whether two neighbours run together depends on every pair of items a tree can put side by side.", "anchors": ["src/ast/display.rs: NodeFormatter::write, keyword, punctuator, identifier, number, string, regexp", "src/tokenizer/slice.rs: next_token", "src/parser/mod.rs: parse_root"]}
{"id": "C49", "title": "Displayed scripts of expressions are accepted", "statement": "Every script of well-formed expression trees (variables, literals, member accesses, calls, super calls and members, new with and without arguments, conditionals and sequences, nested in any way and with parentheses, spaces and commas only where the formatter decides to put them) is displayed as a source that parse_root accepts. The conditions are needed: a call of let, a property of an integer, two spread arguments in a row and a string with a quote are displayed as sources that are rejected.", "quantifier": "every list of well-formed trees of any depth, both build profiles", "why_tests_cant": "Parentheses depend on the precedence required by every node above; each pair of nested nodes is a case and trees are unboundedly deep.", "anchors": ["src/ast/expression.rs: NodeDisplay implementations", "src/ast/literal.rs: NodeDisplay implementations", "src/ast/alias.rs: NodeDisplay implementations", "src/ast/display.rs: NodeFormatter", "src/parser/mod.rs: parse_root"]}
{"id": "C50", "title": "Different trees are displayed differently", "statement": "A displayed tree can be told from other trees by its text. This fails: a call of new c without arguments is displayed as new c with these arguments, new of a call as a call of a new, a sequence as last argument as two arguments, and a negative value as a logical negation.", "quantifier": "every callee name, every argument list", "why_tests_cant": "Telling apart is about all pairs of trees.", "anchors": ["src/ast/expression.rs: CallExpression, NewExpression, CallArguments, SequenceExpression, UnaryOperator"]}
{"id": "C51", "title": "Displayed scripts of statements are accepted", "statement": "Every script of directives and well-formed statement trees (blocks, declarations, empty and expression statements, if with and without else, for, for-in, for-of, while, do-while, switch, with, labels, throw, try, jumps, return and debugger, nested in any way and over the expressions of C49) is displayed as a source that parse_root accepts. The conditions are needed: a declaration in the head of a for with semicolons, a constant without initializer, a lexical declaration as a body, a default clause behind an empty case, a catch without parameter, for await, a sequence or an initialized variable in the head of a loop and a let named of are displayed as sources that are rejected.", "quantifier": "every list of directives and every well-formed statement tree of any depth, both build profiles", "why_tests_cant": "Where braces, parentheses, spaces and semicolons go depends on all nodes above and on the next statement; trees are unboundedly deep.", "anchors": ["src/ast/statement.rs: NodeDisplay implementations", "src/ast/root.rs: Script", "src/ast/functions.rs: Directive", "src/ast/display.rs: NodeFormatter, wrap_orphan_if, disallow_orphan_if", "src/parser/mod.rs: parse_root"]}
{"id": "C52", "title": "Different scripts are displayed differently", "statement": "A displayed script can be told from other scripts by its text. This fails: a thrown expression is displayed without a semicolon, so that it and the next statement are displayed like another thrown expression; and an expression statement that is a string is displayed like a directive.", "quantifier": "every choice of names; every list of strings in front of any body", "why_tests_cant": "Telling apart is about all pairs of scripts.", "anchors": ["src/ast/statement.rs: ThrowStatement, ExpressionStatement", "src/ast/functions.rs: Directive", "src/ast/root.rs: Script"]}
{"id": "C53", "title": "Displaying keeps the structure of faithful trees", "statement": "Trees that avoid the cases of C50 and C52 can be told apart by their display: two scripts of well-formed expressions with the same text are the same trees, and two scripts of well-formed statements have the same text exactly if they have the same directives and are the same trees once every if without else that an else follows stands in a block. So the parentheses the formatter prints keep operands together, and the braces it prints keep every else with its if. The cases to avoid are raw texts, a call as callee of new, a call of a new without arguments, a sequence as last argument, a thrown expression in front of something else and a string as first statement.", "quantifier": "every two lists of faithful expression trees and every two scripts of directives and faithful statement trees, of any depth", "why_tests_cant": "It is about all pairs of trees, and which brackets are printed depends on all nodes above.", "anchors": ["src/ast/expression.rs: NodeDisplay implementations", "src/ast/statement.rs: NodeDisplay implementations, IfStatement, IfElseStatement", "src/ast/display.rs: precedence, require_precedence, wrap_orphan_if, disallow_orphan_if"]}
{"id": "C54", "title": "Displayed trees are phrases of ECMAScript for these trees", "statement": "The tokens of a displayed tree are derived for that very tree in the grammar of ECMAScript, whose productions say which tree they stand for: every node is displayed with its own words and punctuators in their order, every operand is a phrase of the nonterminal that the grammar has at its place, and parentheses are there where it needs them. For a script the tree is the one in which every if without else that an else follows stands in a block.", "quantifier": "every build; every list of well-formed faithful expression trees and every script of directives and well-formed faithful statement trees, of any depth", "why_tests_cant": "Which nonterminal an operand is displayed for depends on all nodes above it.", "anchors": ["src/ast/expression.rs: NodeDisplay implementations", "src/ast/statement.rs: NodeDisplay implementations", "src/ast/literal.rs", "src/ast/display.rs: keyword, punctuator, precedence, require_precedence"]}
{"id": "C55", "title": "Operators are displayed with their operands", "statement": "A binary operator is displayed as its left operand, the operator's own token and its right operand, both operands such that the operator can take them, and the whole in parentheses exactly where a tighter operand is required; a unary operator likewise. This fails in three ways: a sequence or conditional expression on the left is not put in parentheses, so the operator takes a part of it only; a power is displayed as if it bound more tightly than unary operators; and (C50) negation is displayed as logical negation.", "quantifier": "every operator, every two well-formed faithful operands, every precedence required", "why_tests_cant": "Operands are trees of any depth.", "anchors": ["src/ast/expression.rs: BinaryOperator nodes, UnaryOperator nodes", "src/ast/display.rs: precedence, require_precedence, in_wrap_parens"]}
{"id": "C56", "title": "Inserted semicolons can be written", "statement": "Every accepted source can be written with all its semicolons: its tokens with semicolons added, at most two at one place and only before a closing brace, at the end, after a line break or after a closing parenthesis, are again a program, and one in which no semicolon has to be inserted. In such a program line breaks can all be removed, unless it has the word throw or a line break directly after async or yield. With these it fails: throw at the end of a line takes no operand, and async before of is a variable only on another line.", "quantifier": "every build; every UTF-8 source, every program of any length and nesting", "why_tests_cant": "A semicolon added at one place changes what the parser sees from all enclosing productions; it must be harmless in every nesting.", "anchors": ["src/parser/mod.rs: semicolon, semicolon_dowhile, semicolon_inner", "src/parser/statements.rs", "src/parser/declarations.rs", "src/parser/module.rs"]}
{"id": "C57", "title": "Programs can be put one after another", "statement": "A program in which all semicolons are written and which has no throw, followed by a program that does not start with one of the words else, catch and finally, is a program. Any program without throw can be completed by semicolons so that this holds. Two programs put after another are not always a program: the semicolon may be missing, an if may be followed by the label else, and a thrown expression goes on.", "quantifier": "every two programs of any length", "why_tests_cant": "It ranges over all pairs of programs; the end of the first is seen by productions that are open there.", "anchors": ["src/parser/statements.rs", "src/parser/module.rs: parse_module"]}
{"id": "C58", "title": "Displayed modules are accepted by the parser", "statement": "The text displayed for a module of directives, statements, imports, exports and function declarations is accepted by the parser, provided its nodes are well-formed; functions and generators have parameters with defaults, a rest parameter, directives and statements. This fails for exported declarations that are followed by another item than an empty statement, since the parser asks for a second semicolon, and for the nodes export x from, export * as x from, export x, ... from, export function and async function declarations, which the parser does not know.", "quantifier": "every build; every module of well-formed items, of any length and depth", "why_tests_cant": "It ranges over all modules; whether an item is accepted depends on the one behind it.", "anchors": ["src/ast/modules.rs: NodeDisplay implementations", "src/ast/root.rs: Module", "src/ast/functions.rs: NodeDisplay implementations", "src/parser/module.rs", "src/parser/functions.rs"]}
{"id": "C59", "title": "Displayed modules keep their structure", "statement": "If two well-formed modules without raw texts, in which neither the module nor a function starts with an expression statement that is a string, are displayed as the same text, they have the same directives and the same items: the same imports, exports, names, aliases, sources, trailing commas and functions (kind, name, parameters, directives and body), and the same statements up to the braces the formatter adds around an if that an else follows. The conditions are needed: a string statement at the start is shown as a directive is, and a raw text hides the name or source it stands for.", "quantifier": "all pairs of modules of well-formed, faithful items, of any length and depth", "why_tests_cant": "It compares all pairs of modules; a test compares the texts of finitely many.", "anchors": ["src/ast/modules.rs: NodeDisplay implementations", "src/ast/root.rs: Module", "src/ast/display.rs: NodeFormatter"]}
{"id": "C60", "title": "Expressions that begin with let are not displayed as declarations", "statement": "An expression statement, the initializer of a for statement, or the target of a for-in or for-of statement, is never displayed beginning with let [, which would be read as a declaration; an expression statement and the target of a for-of statement do not begin with let and a period either. Parentheses are put there, however deep the name let stands at the beginning of the expression, and under every setting of the formatter. This fails for a let that is only in the raw text of a name, and a for-of statement, which may not begin with let at all, is displayed with one if it is the whole target or called.", "quantifier": "every expression, every setting of precedence, in, orphan if and restriction", "why_tests_cant": "The name may be any number of accesses, calls, conditionals and sequences deep.", "anchors": ["src/ast/expression.rs: get_sequence, MemberExpression", "src/ast/display.rs: restrict_lookahead, lookahead_wrap_parens", "src/ast/statement.rs: ExpressionStatement, ForInit, ForInInit, ForOfInit"]}
{"id": "C61", "title": "Programs can be put between braces", "statement": "If a source without imports and exports is accepted, its tokens are also accepted between braces, in any number of nested blocks, and as the body of a function, with no semicolon added: a semicolon that is inserted at the end of the source is inserted before the closing brace too. Conversely the tokens that are statements up to a closing brace are statements up to the end of the source. Imports and exports cannot be put in a block, and what stands between the first and the last brace of a program is one if its brackets match each other, but need not be otherwise.", "quantifier": "all token sequences, all numbers of blocks, all names of functions", "why_tests_cant": "It relates every accepted program to infinitely many others; every lookahead of the grammar must treat a closing brace as it treats the end.", "anchors": ["src/parser/file.rs: parse_module", "src/parser/statements.rs: parse_block_statement", "src/parser/functions.rs", "src/parser/mod.rs: semicolon, semicolon_inner"]}
{"id": "C62", "title": "Code without in and await is accepted in functions of all kinds", "statement": "If a source without imports and exports and without the words in and await is accepted, its tokens are also accepted as the body of a generator, of a function expression that is called at once, of an arrow function, of a method and of an exported async function; and what is accepted as such a block is accepted on its own. yield, return, break and the rest are never treated differently. With the words in and await the surroundings matter: 'for (; a in b;);' is accepted only in parentheses, 'let x = a' followed by a line break and 'in: b' only outside, 'await a' only in async functions.", "quantifier": "all token sequences, all grammar contexts, all names of functions and methods", "why_tests_cant": "It compares the outcome for every program in every grammar context.", "anchors": ["src/parser/mod.rs: GrammarFlags, with", "src/parser/functions.rs", "src/parser/classes.rs", "src/parser/expressions.rs", "src/parser/statements.rs: parse_block_statement"]}
{"id": "C63", "title": "The text of a source can be put between braces", "statement": "If a source that ends with a line feed and has no slashes, backquotes, imports and exports is accepted, then the same text between braces is accepted, and so it is after any number of repetitions. If in and await do not occur in it either, '(function(){' before it and '})()' after it, or '()=>{' before it and '}' after it, make an accepted source too. It fails with imports, with a comment that takes the closing brace, and with in: 'let x=a' followed by a line feed and 'in:b' is accepted but not as the body of the called function. What is accepted between braces need not be accepted alone.", "quantifier": "every build; every UTF-8 source of that form, every number of braces, every large enough budget", "why_tests_cant": "It compares the outcomes for infinitely many pairs of sources; every token of the source is read again behind other text, and the last one in front of a brace.", "anchors": ["src/parser/mod.rs: parse_root", "src/parser/statements.rs: parse_block_statement", "src/tokenizer/mod.rs: Tokenizer, next_token", "src/parser/functions.rs"]}
{"id": "C64", "title": "Accepted sources can be put into one", "statement": "Take any list of accepted sources, each ending with a line feed and without slashes, backquotes, imports and exports. Put each between braces and write them one after another: the result is accepted. Without the braces this fails: 'if(a)b' and 'else:c' are accepted, but not one after the other.", "quantifier": "every build, every list of such sources of any length, every large enough budget", "why_tests_cant": "It ranges over all lists of accepted sources; what a source leaves open at its end must never reach into the next one.", "anchors": ["src/parser/mod.rs: parse_root", "src/parser/statements.rs: parse_block_statement, parse_statement_list_item", "src/tokenizer/slice.rs: next_token"]}
{"id": "C65", "title": "Sources with comments, divisions, regular expressions and templates can be put between braces", "statement": "Take a source that ends with a line feed and is made of given tokens with trivia between them (C30), in which each slash and closing brace is read rightly under every right hint. If the tokens are a program without imports and exports, the text between braces is accepted, any number of times, and so is the text as the body of a function; as the body of an arrow function if in and await are not among the tokens. Opening braces before a source thus never change whether a slash divides or a brace ends a substitution. The line feed is needed: a comment at the end would take the closing brace.", "quantifier": "every build; every such source, every number of braces, every large enough budget", "why_tests_cant": "It compares the readings of infinitely many sources, each token after all tokens before it.", "anchors": ["src/parser/mod.rs: parse_root, Hint handling", "src/parser/statements.rs: parse_block_statement", "src/parser/functions.rs", "src/tokenizer/slice.rs: next_token"]}
{"id": "C66", "title": "JSX elements are displayed as JSX texts for the tree", "statement": "Displaying a JSX element writes <, its name, its attributes and either /> or >, its children and a closing tag with the same name, to any depth: spread attributes and children as {...e}, expressions as {e} with e an assignment expression for the tree, empty expressions as {}, strings in quotes and texts as they are. This holds for trees whose names, expressions, strings and texts are possible ones. It needs further conditions, and fails without them: no named attribute right behind a name (<a b/> is displayed as <ab/>, which is also the text of another tree), no raw text that differs from the value of a text (a text < with the raw text &lt; is displayed as <), no sequence as the value of an attribute, and a closing name equal to the opening one.", "quantifier": "every such element, with any attributes, children and expressions, nested to any depth", "why_tests_cant": "The elements and the expressions in them are infinitely many and nested in each other; the tests show a few elements with at most one attribute of each kind.", "anchors": ["src/ast/jsx.rs: Element, ElementName, Attribute, AttributeValue, Child, Text", "src/ast/display.rs: wrap_curly, require_precedence, jsx_string, jsx_text, jsx_identifier, node_list"]}
{"id": "C67", "title": "Declarations with binding patterns are displayed as such and accepted", "statement": "Displaying a script of var, let and const declarations of binding patterns gives a text whose tokens are, in the grammar of ECMAScript, declarations for exactly these trees: objects in braces with shorthands, properties with names, strings, numbers or computed names, defaults and rests; arrays in square brackets with holes, defaults and rests; nested to any depth, with the expressions in them as in C54. The parser accepts the text, except that it rejects rests in object patterns ('let{...a}=b;').", "quantifier": "every build; every list of such declarations, patterns of any width and depth, every large enough budget", "why_tests_cant": "The tests display one flat pattern of each kind; patterns, computed names and default values are nested in each other without bound.", "anchors": ["src/ast/patterns.rs: BindingPattern, ObjectBindingPattern, ArrayBindingPattern and their parts", "src/ast/general.rs: PropertyName, ComputedPropertyName, Initializer", "src/ast/statement.rs: VariableDeclaration, LetDeclaration, ConstDeclaration", "src/parser/statements.rs: parse_binding_pattern and the functions for its parts"]}
