# Formal model of jsparse-rs in Rocq (Coq 8.16.1)

The code is /repo at the pinned commit: a JavaScript tokenizer over `&str`
(`src/tokenizer`) and a recursive-descent recogniser on top of it (`src/parser`).
`src/ast` is not compiled (commented out of `lib.rs`); its formatter and expression nodes are modelled as text that is there (see below).

## Layout of rocq/theories

| file | role |
| --- | --- |
| Base.v | panics, byte strings, UTF-8, slices, f64, build configuration |
| Tokens.v | tokens.rs and the types of tokenizer/mod.rs |
| Tokenizer.v | slice.rs, function by function |
| ParserCore.v | parser/mod.rs: state, token buffer, flags, primitives; the language `prog` in which parse functions are written and its interpreter |
| ParserBody.v | every parse function of parser/{file,expressions,statements,declarations,functions,classes,module}.rs, and `parse_root` |
| SpecTokens.v, SpecStream.v | specification of the tokenizer: what each token spells and where it ends; runs of calls |
| SpecParser.v | specification of the parser's observable behaviour: calls made, tokens delivered, line flags, scopes |
| SpecGrammar.v, SpecBrackets.v, SpecLanguage.v | the grammar, balanced brackets, programs |
| SpecTrivia.v, SpecHints.v | trivia and respacing; right hints and sources made of given tokens |
| ByteFacts.v, Loop/Number/NextFacts.v, Lex*.v, TokenProps*.v | proofs about the tokenizer |
| ParserExec.v, ParserProps*.v, AbstractParser.v, Replay.v, ParserTerminates.v | proofs about the parser for any tokenizer: token order, scopes, panics, termination |
| Grammar*.v, ParserGrammar*.v, DerivationInv.v, Complete*.v, Precedence.v, Restricted.v | soundness and completeness of the parse functions with respect to the grammar |
| HintParser.v, BraceHints.v, Brackets.v, SlashHints.v, RightHints.v, SourceLanguage.v, LexSuffix.v, TriviaFacts.v, Respacing.v, Coverage.v | from token sequences to sources |
| SpecWindows.v, SpecDeviations.v, Windows.v, Deviations.v, PropertiesDeviations.v | deviations from ECMAScript |
| SpecNumbers.v, Rounding.v, Accuracy.v, Fractions.v, PropertiesNumbers.v | accuracy of decimal literals |
| SpecShapes.v, Shapes.v, ShapeSource.v, PropertiesShapes.v | renaming and exchanging literals |
| SpecWork.v, Work.v, WorkEnd.v, WorkExec.v, WorkLinear.v, PropertiesWork.v | the cost of a parse |
| SpecDepth.v, Depth.v, DepthSource.v, PropertiesDepth.v | the depth of recursion |
| Formatter.v, Nodes.v, SpecFormatter.v, FormatterFacts.v, FormatterTokens.v, PropertiesFormatter.v | model of the formatter of syntax trees and of the nodes for expressions; what it prints and how that is read back |
| SpecNodes.v, NodeItems.v, NodeTokens.v, NodeText.v, PropertiesNodes.v | well-formed trees of expressions, the items they print, their derivations and their texts |
| Statements.v, SpecStatements.v, StatementItems.v, StatementTokens.v, StatementText.v, PropertiesStatements.v | model of the nodes for statements; well-formed trees of statements, the items they print, their derivations and their texts |
| SpecFaithful.v, LayoutFacts.v, ReadNodes.v, ReadStatements.v, FaithfulText.v, PropertiesFaithful.v | which trees are displayed faithfully; texts determine items; a reader of items that finds the tree (used in the proofs only); texts determine trees |
| SpecPhrases.v, PhraseFacts.v, PhraseText.v, PropertiesPhrases.v | the grammar of ECMAScript with the tree of each phrase; displayed trees are phrases for them; operators |
| SpecSemicolons.v, Semicolons.v, OneLine.v, SpecSequel.v, Sequel.v, PropertiesSemicolons.v | the language without inserted semicolons; every program can be completed; programs on one line and in sequence |
| Modules.v, SpecModules.v, ModuleText.v, SpecFaithfulModules.v, FaithfulModules.v, PropertiesModules.v | the nodes for imports and exports (src/ast/modules.rs, root.rs) and for function declarations (functions.rs); displayed modules are accepted, and their text determines them |
| SpecBeginnings.v, Beginnings.v, PropertiesBeginnings.v | expressions that begin with `let` |
| SpecEnclose.v, Enclose.v, Unwrap.v, PropertiesEnclose.v | programs in blocks and functions |
| SpecContext.v, Context.v, PropertiesContext.v | code in functions of all kinds |
| SpecWrapping.v, Wrapping.v, PropertiesWrapping.v | text around sources |
| SpecBundle.v, Bundle.v, PropertiesBundle.v | several sources in one |
| SpecSurround.v, Surround.v, PropertiesSurround.v | sources with comments, slashes and templates between braces |
| SpecFed.v, Fed.v, PropertiesFed.v | C30, C39, C56, C57, C61 and C62 in terms of what the parser accepts when it is given tokens with any trivia between them |
| Jsx.v, SpecJsx.v, JsxText.v, PropertiesJsx.v | JSX elements and the texts for them |
| Patterns.v, SpecPatterns.v, PatternText.v, PropertiesPatterns.v | declarations with binding patterns |
| Properties*.v | the theorems, each closed by `exact`, with `Print Assumptions` and a non-vacuity `Example` beside it |

## How the code is modelled

* A `&str` is the list of its UTF-8 bytes (`list N`); theorems that need it assume `utf8`.
* A panic is a value (`TPanic p`, `RPanic p`), never a default. Indexing that the Rust
  guards by a length test is guarded by the same test in the model; slicing `&s[a..b]`
  checks order, length and char boundaries as std does.
* `f64` is IEEE binary64 from Coq's axiom-free `SpecFloat`. `10f64.powi(n)` is a
  parameter of the model (`env`), as std does not specify its precision.
  Integer overflow panics or wraps according to `overflow_checks` in `env`; theorems
  quantify over both.
* Byte loops are structural recursion on the remaining bytes.
* A parse function is a value of type `prog`: sequencing, the primitives of
  `impl Parser` (peek, pop, identifier lookahead, expect_expression, read flags), a
  scope `With` for `ParserProxy`, errors, and calls to other parse functions by name.
  `interp` runs it on a parser state with the two-slot ring buffer, the flag stack
  and the hint exactly as in mod.rs. Recursion between parse functions is by an
  explicit budget (`exec n`); running out is the separate outcome `RFuel`, which C26
  excludes for a budget linear in the source. Rust loops are functions named `L_...`.
* The parser model is generic in the tokenizer, as `Parser<'code, T>` is.

## Not modelled

`src/ast` is 8000 lines of tree types and a printer that are not part of the crate at this
commit: `src/lib.rs:6-7` has the module commented out, and it does not type-check, e.g.
`src/ast/display.rs:329` calls `punctuator` with one argument and line 501 defines it with two.
Of it, the formatter (`display.rs`) and the nodes for expressions without functions, classes,
arrays, objects, templates and JSX, for JSX elements and binding patterns with these expressions in them, and for statements without functions, classes and
destructuring, for imports and exports of these, and for function declarations in modules are modelled (Formatter.v, Nodes.v, Jsx.v, Patterns.v, Statements.v, Modules.v), reading a call
without a position as a call with any position, since positions are not used. The other
nodes, `mod.rs`, the assignment patterns of `patterns.rs` and the conversions (`From`) are not.
Also not modelled:
`src/main.rs`/benches, timing and printing in `FromTokenizer for ()`,
`Clone for SliceTokenizer` (it is `unimplemented!()` and never called), call-stack
depth and memory exhaustion, `usize` overflow of positions (bounded by the source
length), `i32` overflow of the escape counter inside one string escape longer than
2^31 bytes, and unwinding itself (a panic ends the modelled execution).

## Trusted base

Coq 8.16.1's kernel (and `vm_compute` where a closed example is evaluated); the
faithfulness of the model to the Rust text, as cited definition by definition; the
meaning of Rust itself and of the std functions listed in Base.v. `Print Assumptions`
prints `Closed under the global context` for every theorem of the Properties files: no axioms, neither of the
standard library nor of others, are used.

## Plan per property

Tokenizer properties are statements about `next_token`/`read_next` for all byte
strings and hints. Specifications in SpecTokens.v say, per token kind, what text a
token spells and where it ends, without using the scanning loops.

| id | what is modelled / how it is proved |
| --- | --- |
| C01 | `next_token` iterated over arbitrary hint lists (`run_tokens`); induction on calls from a one-step lemma (range inside source, gap blank, state = end of range). |
| C02 | one-step theorem: token spelling = slice of source over the range, by cases on the token kind with loop lemmas. |
| C03 | size 0 iff the three situations; from the per-kind lemmas. |
| C04 | read_next returns EOF iff rest is empty; iteration lemma. |
| C05 | iff characterisation of `TPanic` by a declarative predicate on the rest of the text. |
| C06 | longest-prefix statement against the punctuator table; case analysis. |
| C07, C20 | case analysis on the dispatch. |
| C08-C13, C16 | loop lemmas by induction on the remaining bytes against declarative extents. |
| C14, C15 | exactness of integer accumulation in binary64 below 2^53, via SpecFloat/Flocq lemmas; C15 includes refutations with witnesses. |
| C17 | induction on digits; iff for overflow. |
| C18 | induction on blanks. |
| C19 | specification of positions by counting line breaks and code points; partial because of the two refuted parts, which get witnesses. |
| C21 | case analysis on the dispatch. |
| C22 | `next_token` on `a ++ b` at offset `length a` versus on `b` at 0. |
| C23 | invariant of the interpreter with ghost histories; induction over `prog` and budget, for any tokenizer. |
| C24 | same, for flags, stack and hint.template. |
| C25 | Hoare-style rule set over `prog` (weakest preconditions computed from the program text), each parse function checked once; any tokenizer. |
| C26 | ranking argument over the parse functions on an abstract token stream, transferred to the tokenizer's streams. |
| C27 | from C23 plus C01/C04. |
| C28 | inductive grammar (SpecGrammar.v) over token lists; soundness by induction on the budget, one case per parse function. |
| C29 | same technique with the well-bracketed invariant. |
| C30 | on token sequences: grammar derivation implies acceptance, by induction on derivations with lookahead lemmas (Complete*.v). On sources: a source is a sequence of words and trivia in which every right hint reads each word as its token (`printed` in SpecHints.v); it is accepted if its tokens derive from the grammar (SourceLanguage.v), and without slashes only then. `written` is the case where a blank follows every token. |
| C31-C34 | statements about the token-level semantics of the corresponding functions in any state. |
| C35 | specification of trivia and respacing in SpecTrivia.v; locality of the lexer (LexSuffix.v, TriviaFacts.v); simulation of two parses whose tokens are word for word the same (Respacing.v). |
| C36 | the same analysis as for C37 for the expression hint (SlashHints.v): facts about the state of the parser (is a token read ahead, which hint comes next, what the last token allows, which bracket is open) are propagated through all parse functions; a slash asked for with the wrong hint at a settled place can only be the next token, and the parse then fails. RightHints.v joins both analyses. Refutations by witnesses that are programs of the grammar. |
| C37 | the parser run on a token sequence with a ghost history of reads (HintParser.v); a Hoare-style analysis of all parse functions shows that the template hint of each read of a closing brace equals the innermost open brace of the tokens before it (BraceHints.v), transferred to sources in SourceLanguage.v. |
| C38 | budget monotonicity of `exec`; non-match consumes nothing via C25's technique. |
| C39 | shapes of neighbouring tokens (SpecWindows.v, SpecDeviations.v). An automaton for a shape is run over the grammar: a table of the states between which each nonterminal can lead is computed and checked to be closed under all productions (Windows.v, proved sound by induction on derivations), so that no program shows the shape. The converse part by derivations with an arbitrary rest (Deviations.v). |
| C40 | the exponent is a function of the text (SpecTokens.v: `exponent_value`); the scanning functions are computed on a literal with and without its exponent part and the results compared. |
| C41 | converse of the completeness of the abstract parser: if some continuation of the tokens received derived, the parser, which has not read further, would not have failed (ParserGrammar.v, `rejected_run`). |
| C42 | values are compared with the number written in exact rational arithmetic (SpecNumbers.v). Rounding error of one addition or multiplication from the definition of `SpecFloat` rounding (Rounding.v); errors are propagated through the loops by induction on the digits (Accuracy.v, Fractions.v), the 330 nonzero factors 10^-k are bounded by computation. |
| C43 | SpecWork.v counts the calls of parse functions, the operations on the token buffer and the calls of the tokenizer along the run of the concrete parser. The abstract parser is executed symbolically (WorkExec.v) with an amortised bound: `price` per consumed token, `idle f` for a call that consumes nothing, `spare f` left over by a call that consumes something; the end of the input is settled by computation (WorkEnd.v). WorkLinear.v carries the bound over to the concrete parser by the simulation of Replay.v. |
| C44 | shapes of tokens and renaming in SpecShapes.v. Simulation of two runs of the concrete parser whose tokens have the same shapes, through all parse functions (Shapes.v); every function that looks into a token gives the same answer for tokens of one shape. ShapeSource.v carries this over to texts; a lexeme stays one when a name or string behind it is exchanged. |
| C45 | the abstract parser on d opening parentheses runs out of every budget up to 9d, by induction on the budget through the nine functions from parse_assignment_expression to the parenthesized one (Depth.v). DepthSource.v relates runs of the concrete parser on the text to it, and derives the closed text in the grammar by induction on d, so that C30 accepts it. |
| C46 | a caller of the formatter is a tree of prints and of locks held over further calls (`uses`); `perform` runs it on the mutable settings, `prints` in SpecFormatter.v hands a scope down and returns items. Equal by induction on the tree, from one lemma per lock. The documentation of `in_wrap_parens` is refuted. |
| C47 | induction on the tree over `prints`; `balanced` is an inductive grammar of brackets. `C47_text` says it of the brackets in the displayed text, for trees that print none themselves. |
| C48 | each item spells a token, each separation is trivia, and the separation conditions `apart` give the lexemes of C30 (by the tokenizer's exactness per kind), so C30 accepts. Witnesses show that without `apart` it is false. |
| C49 | `items` gives the items of a tree without settings (NodeItems.v, equal to `prints` by mutual induction on the tree); each item list is derived in the grammar of C30 at the level the precedence allows (NodeTokens.v), spells tokens and keeps neighbours apart (NodeText.v); then C48. |
| C50 | refuted: both trees of each pair print the same items whatever their arguments print. |
| C51 | as C49, for statements: `items_statement` gives the items, depending on whether an `if` without `else` is put in braces (StatementItems.v); its tokens are derived as a statement in front of any token that cannot continue it (StatementTokens.v); pieces that end in an item that may be followed by anything are put together (StatementText.v); then C48. |
| C52 | refuted, as C50. |
| C53 | the text determines the items, since every item is the lexeme the tokenizer finds there (LayoutFacts.v, from C02-like totality `lexeme_read`); a reader with fuel finds the tree from the items, by mutual induction over trees (ReadNodes.v, ReadStatements.v); adding the braces changes no item (FaithfulText.v). |
| C54 | the items of NodeItems.v and StatementItems.v, as tokens, are derived in the grammar of SpecPhrases.v, by mutual induction over trees with the precedences as nonterminals (PhraseFacts.v); C48 gives the tokens of the text. |
| C55 | the text displayed for an operator as the layout of items that spell the tokens of its operands and its own, with a table of the operators' tokens and nonterminals written from ECMAScript (SpecPhrases.v); left operands and powers are refuted. |
| C56 | `explicit` has the rules of `derives` without the one for insertion. By mutual induction over derivations every inserted semicolon is written, two at most at one place; this needs that no condition of the grammar looks at a token where one may be inserted (Semicolons.v). Removing line breaks: each condition on line breaks is looked at in OneLine.v; refuted where `calm` fails. |
| C57 | a derivation of statements in front of the end is one in front of any program that starts afresh, by mutual induction over `explicit` derivations (Sequel.v); with C56 every program can be completed first. Refuted without the conditions. |
| C58 | as C51, for modules: the items of imports and exports, pieces put together as in StatementText.v, and derivations of NModuleItem; behind `export default` more is derived (`derives_default`), and in generators what is derived without `yield` still is (`at_yield`). Forms of exports and functions that the parser lacks, and declarations it wants a second semicolon for, are refuted. |
| C59 | as C53, for modules: the pieces of two items that are shown alike are compared (`item_same`), statements through the reader of C53; no statement begins with `import`, `export` or `function`; parameters are read by the reader of expressions, bodies by that of statements. What the conditions exclude is refuted by pairs shown alike. |
| C60 | induction over expressions along their first operands: under a restriction the first item is not `let`, or the next one is not the one kept off, or `let` is the whole expression. `C60_text` says it of the displayed text. What the formatter misses is refuted. |
| C61 | no condition of the grammar tells the end from a closing brace (`all_blind`), so in every derivation one can be exchanged for the other (`exchanged`, mutual induction); module items are statement list items where no import or export is. Conversely a program that starts with a brace starts with a block (`program_block`), and its closing brace is the last one if the tokens between are balanced (`first_close`). |
| C62 | the conditions of the grammar that depend on parameters are listed (`all_steady`); where the words `in` and `await` do not occur they have the same outcome under other parameters, so derivations carry over (`carried`, mutual induction); with C61, the statements of a program are a block under all parameters. |
| C63 | the run of the tokenizer on the source is read as pieces, each a gap of white space and a lexeme (`embedded`, induction on the run); a lexeme of a source without slashes and backquotes that ends with a line feed stays one with other tokens before it and a brace behind it (`lexeme_more`); the pieces with those of the added text form a program by C61 and C62, which C30 says is accepted. |
| C64 | induction on the list: the pieces of a source (C63) between those of two braces stand before the pieces of the others, and a block before statements is again a list of statements (`block_first`); accepted by C30. |
| C65 | a hint that is right behind the added tokens is right without them (`suits_behind`: the open braces, the open brackets and the words looked at are the same), and trivia and lexemes stay what they are before a brace (`trivia_more`, `lexeme_more`); so the pieces of the source are pieces of the longer text (`printed_lines`, induction); the closing brace closes no substitution as the tokens are balanced; then C61, C62 and C30. |
| C66 | the specification gives the texts for an element by rules (`element_text`), with the tokens of an assignment expression (C55) in braces. The pieces the formatter writes are put together one after another (`texts_both`); an expression in braces is displayed as when alone with the precedence of an assignment; induction over elements, attributes, values and children together (`element_displayed`). The conditions are shown to be needed by trees that are displayed as the text of another tree, or as no text for themselves (`C66_names_refuted`, for all names; `C66_refuted`). |
| C67 | the items displayed for a pattern are given by a function on the tree (`prints_pattern`); every pattern ends with a name or a bracket, so anything can follow it (`pattern_closed`); the tokens are those of the tree (`pattern_phrase`) and are derived by the grammar of C30 (`pattern_derived`); each by induction over the seven kinds of nodes together; then C48, C49. |
