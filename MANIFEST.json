{
 "claims": [
  {
   "property": "C01",
   "status": "proved",
   "theorems": [
    "C01_ranges_tile_the_source",
    "C01_start"
   ],
   "note": "Any number of calls, any hints; tiles is defined in SpecStream.v."
  },
  {
   "property": "C02",
   "status": "proved",
   "theorems": [
    "C02_range_spells_token",
    "C02_number_characters_refuted"
   ],
   "note": "The stronger claim that numbers consist of numeric-literal characters is refuted (0x;)."
  },
  {
   "property": "C03",
   "status": "proved",
   "theorems": [
    "C03_progress"
   ],
   "note": ""
  },
  {
   "property": "C04",
   "status": "proved",
   "theorems": [
    "C04_eof_is_the_end",
    "C04_eof_stays"
   ],
   "note": ""
  },
  {
   "property": "C05",
   "status": "proved",
   "theorems": [
    "C05_panics_exactly",
    "C05_no_unreachable"
   ],
   "note": "Equivalence with the inductive lex_error of SpecTokens.v, for both build modes."
  },
  {
   "property": "C06",
   "status": "proved",
   "theorems": [
    "C06_returned_is_longest",
    "C06_longest_is_returned"
   ],
   "note": ""
  },
  {
   "property": "C07",
   "status": "proved",
   "theorems": [
    "C07_slash",
    "C07_curly"
   ],
   "note": ""
  },
  {
   "property": "C08",
   "status": "proved",
   "theorems": [
    "C08_line_comment"
   ],
   "note": ""
  },
  {
   "property": "C09",
   "status": "proved",
   "theorems": [
    "C09_block_comment"
   ],
   "note": ""
  },
  {
   "property": "C10",
   "status": "proved",
   "theorems": [
    "C10_template_start",
    "C10_template_rest",
    "C10_escapes_honoured_refuted"
   ],
   "note": "Also refuted: escapes protecting a backtick."
  },
  {
   "property": "C11",
   "status": "proved",
   "theorems": [
    "C11_regexp"
   ],
   "note": ""
  },
  {
   "property": "C12",
   "status": "proved",
   "theorems": [
    "C12_identifier"
   ],
   "note": ""
  },
  {
   "property": "C13",
   "status": "proved",
   "theorems": [
    "C13_string",
    "C13_plain_text"
   ],
   "note": ""
  },
  {
   "property": "C14",
   "status": "proved",
   "theorems": [
    "C14_decimal_integer"
   ],
   "note": ""
  },
  {
   "property": "C15",
   "status": "proved",
   "theorems": [
    "C15_radix_integer",
    "C15_radix_as_read",
    "C15_hex_value_refuted",
    "C15_hex_first_letter_refuted"
   ],
   "note": "Exact value when all digits are decimal digits; the value actually read for letters is C15_radix_as_read; C15_hex_*_refuted show the deviation."
  },
  {
   "property": "C16",
   "status": "proved",
   "theorems": [
    "C16_decimal_extent"
   ],
   "note": ""
  },
  {
   "property": "C17",
   "status": "proved",
   "theorems": [
    "C17_exponent_overflow",
    "C17_no_checks_no_panic"
   ],
   "note": ""
  },
  {
   "property": "C18",
   "status": "proved",
   "theorems": [
    "C18_blanks_do_not_matter",
    "C18_no_whitespace_token"
   ],
   "note": ""
  },
  {
   "property": "C19",
   "status": "proved",
   "theorems": [
    "C19_positions",
    "C19_crlf_is_one_line_refuted"
   ],
   "note": "Refutation of the one-line CR LF claim included."
  },
  {
   "property": "C20",
   "status": "proved",
   "theorems": [
    "C20_hint_irrelevant",
    "C20_slash",
    "C20_curly"
   ],
   "note": ""
  },
  {
   "property": "C21",
   "status": "proved",
   "theorems": [
    "C21_line_terminator_exactly",
    "C21_line_terminator_covers"
   ],
   "note": ""
  },
  {
   "property": "C22",
   "status": "proved",
   "theorems": [
    "C22_local"
   ],
   "note": ""
  },
  {
   "property": "C23",
   "status": "proved",
   "theorems": [
    "C23_token_order",
    "C23_peek",
    "C23_pop",
    "C23_lookahead"
   ],
   "note": "During a parse of parse_root over any tokenizer; calls/significant/waiting are defined in SpecParser.v."
  },
  {
   "property": "C24",
   "status": "proved",
   "theorems": [
    "C24_scoped"
   ],
   "note": "Any parse function started in any state of a parse."
  },
  {
   "property": "C25",
   "status": "proved",
   "theorems": [
    "C25_no_panic_of_its_own",
    "C25_no_unreachable"
   ],
   "note": "Generic over tokenizers; C25_no_unreachable is for the slice tokenizer on UTF-8 sources. Rust stack overflow is not modelled."
  },
  {
   "property": "C26",
   "status": "proved",
   "theorems": [
    "C26_terminates"
   ],
   "note": "Budget = nesting of calls and loop iterations; linear in the source length."
  },
  {
   "property": "C27",
   "status": "proved",
   "theorems": [
    "C27_whole_source"
   ],
   "note": "During the parse of parse_root; log is the list of all tokens read, hs the hints."
  },
  {
   "property": "C28",
   "status": "proved",
   "theorems": [
    "C28_accepted_source_is_a_program",
    "C28_accepted_tokens_are_a_program"
   ],
   "note": "Grammar: SpecGrammar.v (derives), program: SpecLanguage.v. For the slice tokenizer and for any tokenizer."
  },
  {
   "property": "C29",
   "status": "proved",
   "theorems": [
    "C29_balanced"
   ],
   "note": "Any tokenizer; balanced is defined in SpecBrackets.v. C28_accepted_source_is_a_program has it for sources."
  },
  {
   "property": "C30",
   "status": "proved",
   "theorems": [
    "C30_parser",
    "C30_token_sequences",
    "C30_sources",
    "C30_sources_exact",
    "C30_separated_sources"
   ],
   "note": "printed (SpecHints.v): every right hint (suits) reads each word as its token; written is the case where a blank follows every token. C30_token_sequences is exact for any token sequence."
  },
  {
   "property": "C31",
   "status": "proved",
   "theorems": [
    "C31_semicolon",
    "C31_no_error",
    "C31_insertable"
   ],
   "note": "Any state of a parse over any tokenizer."
  },
  {
   "property": "C32",
   "status": "proved",
   "theorems": [
    "C32_statement",
    "C32_statement_ends",
    "C32_yield",
    "C32_postfix"
   ],
   "note": "Any state of a parse over any tokenizer; no_operand_over_line in SpecLanguage.v."
  },
  {
   "property": "C33",
   "status": "proved",
   "theorems": [
    "C33_binding_identifier",
    "C33_reserved"
   ],
   "note": "Any state of a parse over any tokenizer; reserved_words and bindable in SpecGrammar.v."
  },
  {
   "property": "C34",
   "status": "proved",
   "theorems": [
    "C34_precedence"
   ],
   "note": "For tokenizers whose tokens do not depend on hints (the two precedences issue the same hints anyway, but a run is compared by its tokens)."
  },
  {
   "property": "C35",
   "status": "proved",
   "theorems": [
    "C35_respacing"
   ],
   "note": "All outcomes, including the panics. A gap may be replaced when both gaps begin with a blank or a line terminator; the gap before the first token may be any. The line flag of each token must stay. The tokens are those of the parse: a rejected source shows its error in them."
  },
  {
   "property": "C36",
   "status": "proved",
   "theorems": [
    "C36_settled_slashes",
    "C36_slash_refuted"
   ],
   "note": "The positive part is C36_settled_slashes: suits in SpecHints.v says for which slashes only one hint is right, and printed asks the words to be read right under these hints only. C36_slash_refuted: twenty-three programs that are rejected, spelled so that each token is read under some hint."
  },
  {
   "property": "C37",
   "status": "proved",
   "theorems": [
    "C37_closing_braces"
   ],
   "note": "At every depth, for every accepted source: open_braces in SpecHints.v is a stack over the tokens before. The hint is the one of the call that returned the token."
  },
  {
   "property": "C38",
   "status": "proved",
   "theorems": [
    "C38_larger_budget",
    "C38_unique",
    "C38_non_match"
   ],
   "note": "Budget independence and uniqueness; a non-match consumes no token."
  },
  {
   "property": "C39",
   "status": "proved",
   "theorems": [
    "C39_unsupported",
    "C39_rejected_sources",
    "C39_superfluous",
    "C39_accepted_sources",
    "C39_labels",
    "C39_parser"
   ],
   "note": "unsupported and superfluous in SpecDeviations.v list the shapes. C39_rejected_sources speaks of sources without slashes, C39_unsupported of the tokens of every accepted parse."
  },
  {
   "property": "C40",
   "status": "proved",
   "theorems": [
    "C40_exponent_scales"
   ],
   "note": "10f64.powi is a parameter of the model."
  },
  {
   "property": "C41",
   "status": "proved",
   "theorems": [
    "C41_rejected_prefix"
   ],
   "note": "Any tokenizer: what was read when the error was reported has no continuation in the grammar."
  },
  {
   "property": "C42",
   "status": "proved",
   "theorems": [
    "C42_fraction",
    "C42_integer",
    "C42_nearest_refuted"
   ],
   "note": "near and number_written (SpecNumbers.v) are stated in rational arithmetic; binary64 operations are those of Coq's SpecFloat. Accuracy in literals with an exponent depends on the platform's powi (C40)."
  },
  {
   "property": "C43",
   "status": "proved",
   "theorems": [
    "C43_operations",
    "C43_token_requests"
   ],
   "note": "Counts are defined along the run of the concrete parser (SpecWork.v). Every token consumed pays a fixed price: each parse function returns with a surplus for its caller, or has consumed nothing and cost a constant. Counted are operations, not time: the time inside one next_token call is not modelled."
  },
  {
   "property": "C44",
   "status": "proved",
   "theorems": [
    "C44_shapes"
   ],
   "note": "First part: any replacement of the tokens read by tokens of the same shapes, with the same line flags, that the tokenizer reads under the hints the parser used. Second part: replacing names and strings in the text. Sources on which the parser panics are not covered: exchanging a literal can make the tokenizer panic."
  },
  {
   "property": "C45",
   "status": "proved",
   "theorems": [
    "C45_depth",
    "C45_unclosed"
   ],
   "note": "Lower bound to the upper bound of C26. What a Rust thread does when its stack ends is not modelled."
  },
  {
   "property": "C46",
   "status": "proved",
   "theorems": [
    "C46_scope",
    "C46_display",
    "C46_in_refuted"
   ],
   "note": "The model reads calls without a position as calls with one; src/ast is not compiled into the crate at this commit. C46_in_refuted refutes the documentation of in_wrap_parens."
  },
  {
   "property": "C47",
   "status": "proved",
   "theorems": [
    "C47_balanced",
    "C47_text"
   ],
   "note": "On the items printed; strings and other literals are single items."
  },
  {
   "property": "C48",
   "status": "proved",
   "theorems": [
    "C48_read_back",
    "C48_accepted",
    "C48_refuted"
   ],
   "note": "C48_refuted gives two nodes of the code whose display is rejected although their tokens form a program."
  },
  {
   "property": "C49",
   "status": "proved",
   "theorems": [
    "C49_accepted",
    "C49_refuted"
   ],
   "note": "Regular expressions, private names and import calls are left out of the well-formed trees; C49_refuted shows that the other conditions are needed."
  },
  {
   "property": "C50",
   "status": "proved",
   "theorems": [
    "C50_new_refuted",
    "C50_new_call_refuted",
    "C50_sequence_refuted",
    "C50_negative_refuted"
   ],
   "note": "Refuted: the theorems give families of pairs of different trees with the same display."
  },
  {
   "property": "C51",
   "status": "proved",
   "theorems": [
    "C51_accepted",
    "C51_refuted"
   ],
   "note": "Patterns in declarations are restricted to identifiers and in loop heads to identifiers and members; functions and classes are left out. C51_refuted shows that the conditions are needed, except that thrown expressions are at the end of a block or script (C52)."
  },
  {
   "property": "C52",
   "status": "proved",
   "theorems": [
    "C52_throw_refuted",
    "C52_directive_refuted"
   ],
   "note": "Refuted: the theorems give families of pairs of different scripts with the same display."
  },
  {
   "property": "C53",
   "status": "proved",
   "theorems": [
    "C53_expressions",
    "C53_scripts"
   ],
   "note": "SpecFaithful.v says which trees are faithful and what the braces are; the conditions are the refutations of C50 and C52."
  },
  {
   "property": "C54",
   "status": "proved",
   "theorems": [
    "C54_expressions",
    "C54_scripts"
   ],
   "note": "SpecPhrases.v is the grammar with trees. The semicolon behind a thrown expression is left out there; C51 shows that such a text is accepted."
  },
  {
   "property": "C55",
   "status": "proved",
   "theorems": [
    "C55_binary",
    "C55_in",
    "C55_unary",
    "C55_left_refuted",
    "C55_power_refuted"
   ],
   "note": "Proved for binary operators other than in and power (in has its own theorem) and unary operators other than negation; the other cases are refuted. Operator nodes are no expressions in this crate, so operands contain none."
  },
  {
   "property": "C56",
   "status": "proved",
   "theorems": [
    "C56_parser",
    "C56_parser_one_line",
    "C56_semicolons",
    "C56_accepted_source",
    "C56_one_line",
    "C56_one_line_refuted"
   ],
   "note": "explicit_program (SpecSemicolons.v) is the grammar of C30 without insertion; semicolons_added says where semicolons are added. C56_one_line_refuted shows why calm is needed."
  },
  {
   "property": "C57",
   "status": "proved",
   "theorems": [
    "C57_parser",
    "C57_sequence",
    "C57_completed_sequence",
    "C57_concatenation_refuted"
   ],
   "note": "C57_concatenation_refuted: why explicit semicolons, no throw and no label else, catch or finally at the start are asked for."
  },
  {
   "property": "C58",
   "status": "proved",
   "theorems": [
    "C58_accepted",
    "C58_refuted"
   ],
   "note": "Functions are modelled as items of a module, without async bodies; functions within statements and expressions, and classes, are not. C58_refuted shows why the conditions are needed."
  },
  {
   "property": "C59",
   "status": "proved",
   "theorems": [
    "C59_modules",
    "C59_refuted"
   ],
   "note": "faithful_module (SpecFaithfulModules.v) asks for no raw texts and no string statement at the start of the module or a function; C59_refuted shows why."
  },
  {
   "property": "C60",
   "status": "proved",
   "theorems": [
    "C60_statements",
    "C60_for",
    "C60_for_in",
    "C60_for_of",
    "C60_text",
    "C60_refuted"
   ],
   "note": "The nodes are those of Nodes.v and Statements.v. C60_refuted holds the cases in which the formatter misses a let."
  },
  {
   "property": "C61",
   "status": "proved",
   "theorems": [
    "C61_scripts",
    "C61_braces",
    "C61_blocks",
    "C61_functions",
    "C61_exact",
    "C61_accepted_source",
    "C61_refuted",
    "C61_parser",
    "C61_parser_exact"
   ],
   "note": "About token sequences with the line breaks between them; C28 and C30 relate them to sources."
  },
  {
   "property": "C62",
   "status": "proved",
   "theorems": [
    "C62_phrases",
    "C62_blocks",
    "C62_functions",
    "C62_accepted_source",
    "C62_refuted",
    "C62_parser"
   ],
   "note": "About token sequences with the line breaks between them; C28 and C30 relate them to sources. C62_blocks asks that nameless declarations are not allowed by the surroundings (they are inside an exported default function)."
  },
  {
   "property": "C63",
   "status": "proved",
   "theorems": [
    "C63_braces",
    "C63_called",
    "C63_arrow",
    "C63_refuted"
   ],
   "note": "about the text; sources with slashes or backquotes are covered by C61 and C62 at the level of tokens"
  },
  {
   "property": "C64",
   "status": "proved",
   "theorems": [
    "C64_bundle",
    "C64_refuted"
   ],
   "note": "About the text of the sources, in one theorem for lists of any length."
  },
  {
   "property": "C65",
   "status": "proved",
   "theorems": [
    "C65_braces",
    "C65_function",
    "C65_arrow",
    "C65_refuted"
   ],
   "note": "For sources given by their tokens, as in C30; C63 starts from acceptance but allows no slashes and backquotes."
  },
  {
   "property": "C66",
   "status": "proved",
   "theorems": [
    "C66_elements",
    "C66_names_refuted",
    "C66_refuted"
   ],
   "note": "The refuted theorems show that the conditions on attributes, raw texts, sequences and closing names are needed."
  },
  {
   "property": "C67",
   "status": "proved",
   "theorems": [
    "C67_shown",
    "C67_accepted",
    "C67_refuted"
   ],
   "note": "C67_refuted: rests in object patterns are displayed but not accepted. Assignment patterns are not modelled."
  }
 ]
}