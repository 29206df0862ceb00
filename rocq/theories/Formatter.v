(** Model of the formatter of syntax trees, src/ast/display.rs.

    The module [ast] is commented out in src/lib.rs:6-7 and does not type-check: the calls
    [punctuator(p)] and [keyword(k)] lack the position argument that lines 437 and 501
    declare and ignore. The model reads such a call as one with any position. Writing into
    the [String] never fails (lines 670-676), so the [Result]s are all [Ok]. *)
From Coq Require Import String List NArith Bool Arith.
From Verif Require Import Base.
Import ListNotations.

(** display.rs:8-88 [enum Punctuator]. *)
Inductive fpunct : Set :=
| Fp_Eq | Fp_EqEq | Fp_EqEqEq | Fp_Neq | Fp_NeqEq | Fp_CurlyR | Fp_CurlyL | Fp_ParenR
| Fp_ParenL | Fp_SquareR | Fp_SquareL | Fp_AngleR | Fp_AngleL | Fp_Semicolon | Fp_SQuote | Fp_Ellipsis
| Fp_Period | Fp_At | Fp_Comma | Fp_Question | Fp_Colon | Fp_ColonColon | Fp_Slash | Fp_Star
| Fp_StarStar | Fp_Plus | Fp_PlusPlus | Fp_Subtract | Fp_Minus | Fp_MinusMinus | Fp_Arrow | Fp_ArrowStar
| Fp_Caret | Fp_LAngle | Fp_LAngleEq | Fp_LAngleAngle | Fp_RAngle | Fp_RAngleEq | Fp_RAngleAngle | Fp_RAngleAngleAngle
| Fp_Mod | Fp_Amp | Fp_AmpAmp | Fp_Bar | Fp_BarBar | Fp_Bind | Fp_Exclam | Fp_Tilde
| Fp_Hash | Fp_TemplateOpen | Fp_TemplateClose | Fp_TemplateTick | Fp_SlashAngle | Fp_AngleSlash | Fp_QuestionPeriod.

(** display.rs:91-141 [enum Keyword]. *)
Inductive fkeyword : Set :=
| Fk_Export | Fk_Default | Fk_Function | Fk_Class | Fk_Import | Fk_From | Fk_This | Fk_Extends
| Fk_New | Fk_Target | Fk_Meta | Fk_Sent | Fk_Arguments | Fk_Super | Fk_Typeof | Fk_Var
| Fk_Let | Fk_Const | Fk_In | Fk_While | Fk_Do | Fk_Switch | Fk_With | Fk_Finally
| Fk_Debugger | Fk_Catch | Fk_True | Fk_False | Fk_Return | Fk_Case | Fk_Await | Fk_For
| Fk_Throw | Fk_Try | Fk_Of | Fk_If | Fk_Else | Fk_Continue | Fk_Break | Fk_Async
| Fk_Null | Fk_Delete | Fk_Yield | Fk_Instanceof | Fk_Void | Fk_Get | Fk_Set | Fk_Static
| Fk_As.

(** display.rs:144-165 [enum Precedence]; [p as u32] counts from 1. *)
Inductive precedence : Set :=
| Pr_Normal | Pr_Assignment | Pr_Conditional | Pr_LogicalOr | Pr_LogicalAnd | Pr_BitwiseOr | Pr_BitwiseXOr | Pr_BitwiseAnd
| Pr_Equality | Pr_Relational | Pr_Shift | Pr_Additive | Pr_Multiplicative | Pr_Exponential | Pr_Unary | Pr_Update
| Pr_LeftHand | Pr_New | Pr_Member | Pr_Primary.
Definition rank (p : precedence) : nat :=
  match p with
  | Pr_Normal => 1 | Pr_Assignment => 2 | Pr_Conditional => 3 | Pr_LogicalOr => 4 | Pr_LogicalAnd => 5
  | Pr_BitwiseOr => 6 | Pr_BitwiseXOr => 7 | Pr_BitwiseAnd => 8 | Pr_Equality => 9 | Pr_Relational => 10
  | Pr_Shift => 11 | Pr_Additive => 12 | Pr_Multiplicative => 13 | Pr_Exponential => 14 | Pr_Unary => 15
  | Pr_Update => 16 | Pr_LeftHand => 17 | Pr_New => 18 | Pr_Member => 19 | Pr_Primary => 20
  end.

(** display.rs:168-182 [enum LookaheadRestriction], display.rs:185-191 [enum LookaheadSequence]. *)
Inductive restriction : Set := R_ExportDefault | R_ExpressionStatement | R_ForInit | R_ForOfInit | R_ConciseBody.
Inductive sequence : Set := S_None | S_Declaration | S_Curly | S_LetSquare | S_Let.

(** display.rs:195-205 [struct NodeFormatter]. *)
Record formatter : Set := Formatter {
  f_prec : precedence;
  f_in : bool;
  f_orphan : bool;            (* wrap_standalone_if *)
  f_restriction : option restriction;
  f_integer : bool;           (* ends_with_integer *)
  f_keyword : bool;           (* ends_with_keyword *)
  f_output : bytes }.

(** display.rs:207-218 [NodeFormatter::new]. *)
Definition formatter_new : formatter := Formatter Pr_Normal true false None false false [].

Definition set_prec (f : formatter) (p : precedence) : formatter :=
  Formatter p (f_in f) (f_orphan f) (f_restriction f) (f_integer f) (f_keyword f) (f_output f).
Definition set_in (f : formatter) (b : bool) : formatter :=
  Formatter (f_prec f) b (f_orphan f) (f_restriction f) (f_integer f) (f_keyword f) (f_output f).
Definition set_orphan (f : formatter) (b : bool) : formatter :=
  Formatter (f_prec f) (f_in f) b (f_restriction f) (f_integer f) (f_keyword f) (f_output f).
Definition set_restriction (f : formatter) (r : option restriction) : formatter :=
  Formatter (f_prec f) (f_in f) (f_orphan f) r (f_integer f) (f_keyword f) (f_output f).
Definition set_integer (f : formatter) (b : bool) : formatter :=
  Formatter (f_prec f) (f_in f) (f_orphan f) (f_restriction f) b (f_keyword f) (f_output f).
Definition set_keyword (f : formatter) (b : bool) : formatter :=
  Formatter (f_prec f) (f_in f) (f_orphan f) (f_restriction f) (f_integer f) b (f_output f).

(** display.rs:670-676 [write_str]. *)
Definition write (s : bytes) (f : formatter) : formatter :=
  Formatter (f_prec f) (f_in f) (f_orphan f) (f_restriction f) (f_integer f) (f_keyword f) (f_output f ++ s).

(** display.rs:507-563, the text of a punctuator; in the [write!] formats [{{] stands for
    an opening brace. *)
Definition fpunct_text (p : fpunct) : bytes := s2b
  match p with
  | Fp_Eq => "=" | Fp_EqEq => "==" | Fp_EqEqEq => "===" | Fp_Neq => "!=" | Fp_NeqEq => "!=="
  | Fp_CurlyR => "}" | Fp_CurlyL => "{" | Fp_ParenR => ")" | Fp_ParenL => "(" | Fp_SquareR => "]"
  | Fp_SquareL => "[" | Fp_AngleR => ">" | Fp_AngleL => "<" | Fp_Semicolon => ";" | Fp_SQuote => "'"
  | Fp_Ellipsis => "..." | Fp_Period => "." | Fp_At => "@" | Fp_Comma => "," | Fp_Question => "?"
  | Fp_Colon => ":" | Fp_ColonColon => "::" | Fp_Slash => "/" | Fp_Star => "*" | Fp_StarStar => "**"
  | Fp_Plus => "+" | Fp_PlusPlus => "++" | Fp_Subtract => "-" | Fp_Minus => "-" | Fp_MinusMinus => "--"
  | Fp_Arrow => "=>" | Fp_ArrowStar => "=*>" | Fp_Caret => "^" | Fp_LAngle => "<" | Fp_LAngleEq => "<="
  | Fp_LAngleAngle => "<<" | Fp_RAngle => ">" | Fp_RAngleEq => ">=" | Fp_RAngleAngle => ">>" | Fp_RAngleAngleAngle => ">>>"
  | Fp_Mod => "%" | Fp_Amp => "&" | Fp_AmpAmp => "&&" | Fp_Bar => "|" | Fp_BarBar => "||"
  | Fp_Bind => "::" | Fp_Exclam => "!" | Fp_Tilde => "~" | Fp_Hash => "#" | Fp_TemplateOpen => "${"
  | Fp_TemplateClose => "}" | Fp_TemplateTick => "`" | Fp_SlashAngle => "/>" | Fp_AngleSlash => "</" | Fp_QuestionPeriod => "?."
  end.

(** display.rs:447-497, the text of a keyword. *)
Definition fkeyword_text (k : fkeyword) : bytes := s2b
  match k with
  | Fk_Export => "export" | Fk_Default => "default" | Fk_Function => "function" | Fk_Class => "class" | Fk_Import => "import"
  | Fk_From => "from" | Fk_This => "this" | Fk_Extends => "extends" | Fk_New => "new" | Fk_Target => "target"
  | Fk_Meta => "meta" | Fk_Sent => "sent" | Fk_Arguments => "arguments" | Fk_Super => "super" | Fk_Typeof => "typeof"
  | Fk_Var => "var" | Fk_Let => "let" | Fk_Const => "const" | Fk_In => "in" | Fk_While => "while"
  | Fk_Do => "do" | Fk_Switch => "switch" | Fk_With => "with" | Fk_Finally => "finally" | Fk_Debugger => "debugger"
  | Fk_Catch => "catch" | Fk_True => "true" | Fk_False => "false" | Fk_Return => "return" | Fk_Case => "case"
  | Fk_Await => "await" | Fk_For => "for" | Fk_Throw => "throw" | Fk_Try => "try" | Fk_Of => "of"
  | Fk_If => "if" | Fk_Else => "else" | Fk_Continue => "continue" | Fk_Break => "break" | Fk_Async => "async"
  | Fk_Null => "null" | Fk_Delete => "delete" | Fk_Yield => "yield" | Fk_Instanceof => "instanceof" | Fk_Void => "void"
  | Fk_Get => "get" | Fk_Set => "set" | Fk_Static => "static" | Fk_As => "as"
  end.

(** display.rs:501-564 [punctuator]. *)
Definition fmt_punctuator (p : fpunct) (f : formatter) : formatter :=
  write (fpunct_text p) (set_restriction (set_integer (set_keyword f false) false) None).

(** display.rs:440-445 and 567-572: the space in front of a keyword or an identifier. *)
Definition before_word (f : formatter) : formatter :=
  let f := if f_keyword f then write (s2b " ") f else f in
  set_restriction (set_integer (set_keyword f true) false) None.

(** display.rs:437-498 [keyword]. *)
Definition fmt_keyword (k : fkeyword) (f : formatter) : formatter := write (fkeyword_text k) (before_word f).

(** display.rs:566-582 [identifier]. *)
Definition fmt_identifier (name : bytes) (raw : option bytes) (f : formatter) : formatter :=
  let f := before_word f in
  match raw with Some raw => write raw f | None => write name f end.

(** display.rs:583-598 [string]. *)
Definition fmt_string (value : bytes) (raw : option bytes) (f : formatter) : formatter :=
  let f := set_restriction f None in
  let f := fmt_punctuator Fp_SQuote f in
  let f := match raw with Some raw => write raw f | None => write value f end in
  fmt_punctuator Fp_SQuote f.

(** display.rs:599-614 [number]. Simplified: [s] is the text std's [Display] for [f64] gives
    for the value (line 606). *)
Definition fmt_number (s : bytes) (f : formatter) : formatter :=
  let f := if f_keyword f then set_integer (write (s2b " ") f) false else f in
  let f := set_restriction f None in
  let f := write s f in
  let f := set_integer f (negb (existsb (N.eqb 46) s)) in
  set_keyword f false.

(** display.rs:616-625 [template_part], 637-646 [jsx_identifier], 659-668 [jsx_text]: the
    three have the same body. *)
Definition fmt_verbatim (value : bytes) (raw : option bytes) (f : formatter) : formatter :=
  match raw with Some raw => write raw f | None => write value f end.

(** display.rs:627-635 [regexp]; [flags] are the bytes of the characters. *)
Definition fmt_regexp (value flags : bytes) (f : formatter) : formatter :=
  let f := fmt_punctuator Fp_Slash f in
  let f := write value f in
  let f := fmt_punctuator Fp_Slash f in
  fold_left (fun f c => write [c] f) flags f.

(** display.rs:647-658 [jsx_string]. *)
Definition fmt_jsx_string (value : bytes) (raw : option bytes) (f : formatter) : formatter :=
  let f := fmt_punctuator Fp_SQuote f in
  let f := match raw with Some raw => write raw f | None => write value f end in
  fmt_punctuator Fp_SQuote f.

(** ** Locks

    A lock changes the formatter, is used in its place, and runs a closure on it when it is
    dropped (display.rs:679-712): [acquire] gives the changed formatter and the closure. *)
Definition lock_result : Set := formatter * (formatter -> formatter).

(** display.rs:317-340 [wrap_parens_inner]. *)
Definition wrap_parens_inner (wrap : bool) (f : formatter) : lock_result :=
  if negb wrap then (f, fun fmt => fmt) else
  let prec := f_prec f in
  let in_operator := f_in f in
  let wrap_standalone_if := f_orphan f in
  let f := set_orphan (set_in (set_prec f Pr_Normal) true) false in
  (fmt_punctuator Fp_ParenL f,
   fun fmt => fmt_punctuator Fp_ParenR (set_orphan (set_in (set_prec fmt prec) in_operator) wrap_standalone_if)).

(** display.rs:221-229 [precedence]. *)
Definition lock_precedence (p : precedence) (f : formatter) : lock_result :=
  wrap_parens_inner (rank p <? rank (f_prec f)) f.
(** display.rs:231-236 [require_precedence]. *)
Definition lock_require_precedence (p : precedence) (f : formatter) : lock_result :=
  let prec := f_prec f in (set_prec f p, fun fmt => set_prec fmt prec).
(** display.rs:241-258 [restrict_lookahead]. *)
Definition lock_restrict_lookahead (r : restriction) (f : formatter) : lock_result :=
  let previous := f_restriction f in
  (set_restriction f (Some r),
   fun fmt => match f_restriction fmt with Some _ => set_restriction fmt previous | None => fmt end).
(** display.rs:266-285, the condition of [lookahead_wrap_parens]. *)
Definition restricted (r : option restriction) (s : sequence) : bool :=
  match r, s with
  | Some R_ExportDefault, S_Declaration => true
  | Some R_ExpressionStatement, S_None => false
  | Some R_ExpressionStatement, _ => true
  | Some R_ForInit, S_LetSquare => true
  | Some R_ForOfInit, (S_Let | S_LetSquare) => true
  | Some R_ConciseBody, S_Curly => true
  | _, _ => false
  end.
(** display.rs:262-286 [lookahead_wrap_parens]. *)
Definition lock_lookahead_wrap_parens (s : sequence) (f : formatter) : lock_result :=
  wrap_parens_inner (restricted (f_restriction f) s) f.
(** display.rs:289-297 [allow_in], 300-308 [disallow_in]. *)
Definition lock_in (b : bool) (f : formatter) : lock_result :=
  let in_operator := f_in f in (set_in f b, fun fmt => set_in fmt in_operator).
(** display.rs:312-315 [in_wrap_parens]. *)
Definition lock_in_wrap_parens (f : formatter) : lock_result := wrap_parens_inner (f_in f) f.
(** display.rs:343-345 [wrap_parens]. *)
Definition lock_wrap_parens (f : formatter) : lock_result := wrap_parens_inner true f.
(** display.rs:348-364 [wrap_curly], 367-383 [wrap_square]. *)
Definition wrap_in (opening closing : fpunct) (f : formatter) : lock_result :=
  let wrap_standalone_if := f_orphan f in
  let in_operator := f_in f in
  (fmt_punctuator opening (set_in (set_orphan f false) true),
   fun fmt => fmt_punctuator closing (set_in (set_orphan fmt wrap_standalone_if) in_operator)).
(** display.rs:387-395 [disallow_orphan_if]. *)
Definition lock_disallow_orphan_if (f : formatter) : lock_result :=
  let wrap_standalone_if := f_orphan f in (set_orphan f true, fun fmt => set_orphan fmt wrap_standalone_if).
(** display.rs:399-405 [wrap_orphan_if]. *)
Definition lock_wrap_orphan_if (f : formatter) : lock_result :=
  if negb (f_orphan f) then (f, fun fmt => fmt) else wrap_in Fp_CurlyL Fp_CurlyR f.

(** ** Uses of the formatter

    The calls a caller makes: prints, and locks held while other calls are made. A lock
    borrows the formatter (display.rs:680), so locks are dropped in the reverse order. *)
Inductive print : Set :=
| P_keyword (k : fkeyword)
| P_punctuator (p : fpunct)
| P_identifier (name : bytes) (raw : option bytes)
| P_string (value : bytes) (raw : option bytes)
| P_number (s : bytes)
| P_regexp (value flags : bytes)
| P_jsx_string (value : bytes) (raw : option bytes)
| P_verbatim (value : bytes) (raw : option bytes).
Inductive lock : Set :=
| L_precedence (p : precedence)
| L_require_precedence (p : precedence)
| L_restrict_lookahead (r : restriction)
| L_lookahead_wrap_parens (s : sequence)
| L_allow_in | L_disallow_in | L_in_wrap_parens
| L_wrap_parens | L_wrap_curly | L_wrap_square
| L_disallow_orphan_if | L_wrap_orphan_if.
Inductive uses : Set :=
| Done
| Print (p : print) (k : uses)
| Hold (l : lock) (body : uses) (k : uses).

Definition do_print (p : print) : formatter -> formatter :=
  match p with
  | P_keyword k => fmt_keyword k
  | P_punctuator p => fmt_punctuator p
  | P_identifier name raw => fmt_identifier name raw
  | P_string value raw => fmt_string value raw
  | P_number s => fmt_number s
  | P_regexp value flags => fmt_regexp value flags
  | P_jsx_string value raw => fmt_jsx_string value raw
  | P_verbatim value raw => fmt_verbatim value raw
  end.
Definition acquire (l : lock) : formatter -> lock_result :=
  match l with
  | L_precedence p => lock_precedence p
  | L_require_precedence p => lock_require_precedence p
  | L_restrict_lookahead r => lock_restrict_lookahead r
  | L_lookahead_wrap_parens s => lock_lookahead_wrap_parens s
  | L_allow_in => lock_in true
  | L_disallow_in => lock_in false
  | L_in_wrap_parens => lock_in_wrap_parens
  | L_wrap_parens => lock_wrap_parens
  | L_wrap_curly => wrap_in Fp_CurlyL Fp_CurlyR
  | L_wrap_square => wrap_in Fp_SquareL Fp_SquareR
  | L_disallow_orphan_if => lock_disallow_orphan_if
  | L_wrap_orphan_if => lock_wrap_orphan_if
  end.
Fixpoint perform (c : uses) (f : formatter) : formatter :=
  match c with
  | Done => f
  | Print p k => perform k (do_print p f)
  | Hold l body k => let '(f1, drop) := acquire l f in perform k (drop (perform body f1))
  end.

(** mod.rs:90-99, [Display] of a node: the output of a new formatter. *)
Definition display (c : uses) : bytes := f_output (perform c formatter_new).
