(** The language the parser accepts, as a grammar.

    The input is a list of tokens, each with a flag telling whether a line break precedes
    it.  A nonterminal has productions; a production is a list of symbols: tokens,
    nonterminals (possibly under changed parameters, as in [Expression[+In]] of the
    ECMAScript specification), semicolons that may be inserted, and conditions on the
    following tokens (the lookahead restrictions and [no LineTerminator here] of the
    ECMAScript specification).

    The grammar follows ECMAScript 2017 with the deviations of this parser, which are
    marked [DEV].  Of the model, only the names of the parameters ([flag],
    [grammar_flags]) are used. *)
From Coq Require Import String List Arith NArith Bool.
From Verif Require Import Base Tokens ParserCore.
Import ListNotations.
Local Open Scope string_scope.

Definition tokens := list lookahead.

(** The next token and whether a line break precedes it; EOF after the last one. *)
Definition next (i : tokens) : lookahead := hd (false, TEOF) i.

(** ** Terminals *)

(** Words that are never identifiers of variables or labels. *)
Definition reserved_words : list string :=
  ["break"; "case"; "catch"; "class"; "const"; "continue"; "debugger"; "default"; "delete"; "do";
   "else"; "enum"; "export"; "extends"; "false"; "finally"; "for"; "function"; "if"; "import";
   "in"; "instanceof"; "new"; "null"; "return"; "super"; "switch"; "this"; "throw"; "true"; "try";
   "typeof"; "var"; "void"; "while"; "with"; "yield"].
(** Words reserved in strict code only. *)
Definition strict_reserved_words : list string :=
  ["let"; "static"; "implements"; "package"; "protected"; "interface"; "private"; "public"].

Definition word_in (l : list string) (name : bytes) : bool := existsb (fun w => beqb name (s2b w)) l.

(** [DEV] [await] names a variable exactly where await expressions are allowed. *)
Definition bindable (g : grammar_flags) (name : bytes) : bool :=
  negb (word_in reserved_words name) &&
  negb (is_strict g && word_in strict_reserved_words name) &&
  (allow_await g || negb (word_in ["await"] name)).

Inductive term : Set :=
| P (p : punctuator)
| K (word : string)              (** the keyword [word] *)
| Name                           (** IdentifierName: any identifier or keyword *)
| NameExcept (words : list string)
| Bind                           (** Identifier: a name that is not reserved *)
| Num | Str | RegEx
| TplWhole | TplHead | TplMiddle | TplTail   (** [`..`]  [`..${]  [}..${]  [}..`] *)
| Eof.

Definition matches (g : grammar_flags) (t : term) (tok : token) : bool :=
  match t, tok with
  | P p, TPunctuator q => if punctuator_eq_dec p q then true else false
  | K w, TIdent n => beqb n (s2b w)
  | Name, TIdent _ => true
  | NameExcept l, TIdent n => negb (word_in l n)
  | Bind, TIdent n => bindable g n
  | Num, TNumeric _ => true
  | Str, TString _ => true
  | RegEx, TRegExp _ _ => true
  | TplWhole, TTemplate TF_NoSubstitution _ _ => true
  | TplHead, TTemplate TF_Head _ _ => true
  | TplMiddle, TTemplate TF_Middle _ _ => true
  | TplTail, TTemplate TF_Tail _ _ => true
  | Eof, TEOF => true
  | _, _ => false
  end.
Definition one_of (g : grammar_flags) (ts : list term) (tok : token) : bool :=
  existsb (fun t => matches g t tok) ts.

(** ** Conditions *)
Definition condition := grammar_flags -> tokens -> bool.

(** A line break, or none, precedes the next token. *)
Definition line_break : condition := fun _ i => fst (next i).
Definition no_line_break : condition := fun _ i => negb (fst (next i)).
(** The next token is none of these. *)
Definition no (ts : list term) : condition := fun g i => negb (one_of g ts (snd (next i))).
(** The next token is one of [ts] and the one after it one of [us], on the same line if
    [same_line]. *)
Definition pair (ts : list term) (same_line : bool) (us : list term) : condition := fun g i =>
  one_of g ts (snd (next i)) && one_of g us (snd (next (tl i))) &&
  negb (same_line && fst (next (tl i))).
Definition no_pair ts same_line us : condition := fun g i => negb (pair ts same_line us g i).
Definition both (c d : condition) : condition := fun g i => c g i && d g i.

(** ** Parameters *)
Definition param (f : flag) (g : grammar_flags) : bool :=
  match f with
  | FIn => allow_in g | FYield => allow_yield g | FAwait => allow_await g | FReturn => allow_return g
  | FDefault => allow_default g | FModule => is_module g | FStrict => is_strict g
  | FTemplate => expect_template g | FNoop => false
  end.
(** The production is there only if the parameter has the value [v]. *)
Definition only_if (f : flag) (v : bool) : condition := fun g _ => Bool.eqb (param f g) v.
Definition changed (g : grammar_flags) (ch : list (flag * bool)) : grammar_flags :=
  fold_left (fun g fv => set_flag g (fst fv) (snd fv)) ch g.

(** ** Where a semicolon may be inserted: before [}], at the end of the source, after a
    line break; after the [)] of a do-while statement always. *)
Definition insertable (do_while : bool) (i : tokens) : bool :=
  match snd (next i) with
  | TPunctuator CurlyClose | TEOF => true
  | _ => do_while || fst (next i)
  end.

(** ** Nonterminals *)
Inductive nt : Set :=
| NModule | NModuleItems | NModuleItem | NScriptItem
| NImport | NImportNames | NImportFrom | NImportSpecifiers | NImportSpecifier
| NExport | NExportSpecifiers | NExportSpecifier
| NStatementList | NStatementListItem | NStatement | NBlock
| NDeclaration | NLexical (initializer_required : bool) | NLexicalTail (initializer_required : bool)
| NLet | NConst
| NVariableStatement | NVariableTail | NVariable
| NIf | NBreakable | NIteration | NDoWhile | NWhile | NFor | NForVariables (k : for_kind) | NForConstants
| NForMore (k : for_kind) | NForBinding | NOptExpression
| NSwitch | NClauses (has_default : bool) | NCaseClause | NDefaultClause
| NReturn | NBreak | NContinue | NWith | NLabelled | NThrow | NTry | NFinally | NDebugger | NExpressionStatement
| NPattern | NObjectPattern | NPatternProperties | NPatternProperty | NPropertyName | NComputedName
| NArrayPattern | NPatternElements | NRestElement | NPatternElement | NPatternOrName | NInitializer
| NFunctionDeclaration | NFunctionDeclarationRest (async generator : bool) | NFunctionExpression
| NFunctionRest (async generator : bool) | NParameters | NParameterList | NParameterNext
| NClass | NHeritage | NClassBody | NClassItems | NClassItem
| NMethodHead (h : method_head) | NMethodName (static : bool) (h : method_head) | NMethodTail (h : method_head)
| NExpression | NExpressionTail | NAssignment | NArrowBody | NYield | NConditional
| NBinary | NBinaryTail | NUnary | NUpdate
| NLeftHand (calls : bool) | NLeftHandTail (calls : bool)
| NArguments | NArgumentList | NPlainArgumentList
| NPrimary | NArray | NElements | NElement | NObject | NProperties | NProperty
| NTemplate | NTemplateRest | NParenthesized | NParenthesizedBody | NParenthesizedTail.

(** ** Productions *)
Inductive sym : Type :=
| T (ts : list term)                               (** one token, matching one of these *)
| N (n : nt) (ch : list (flag * bool))             (** a nonterminal, parameters changed *)
| Semi (do_while : bool)
| When (c : condition).

Notation "'`' p" := (T [P p]) (at level 0, p at level 0).
Notation "'#' w" := (T [K w]) (at level 0, w at level 0).
Notation "'!' n" := (N n []) (at level 0, n at level 0).
Notation "n '+In'" := (N n [(FIn, true)]) (at level 0).
Notation "n '-In'" := (N n [(FIn, false)]) (at level 0).
Notation "n '-Template'" := (N n [(FTemplate, false)]) (at level 0).
Notation "n '+Template'" := (N n [(FTemplate, true)]) (at level 0).

(** What the first token of an expression can be. *)
Definition primary_start : list term :=
  [K "this"; K "true"; K "false"; K "null"; K "function"; K "class"; Bind; Str; Num;
   TplWhole; TplHead; TplMiddle; TplTail; RegEx; P SquareOpen; P CurlyOpen; P ParenOpen].
Definition left_hand_start : list term := K "new" :: K "super" :: primary_start.
Definition update_start : list term := P PlusPlus :: P MinusMinus :: left_hand_start.
Definition unary_operator : list term :=
  [P Plus; P Minus; P Tilde; P Exclam; K "delete"; K "void"; K "typeof"].
Definition unary_start : list term := K "await" :: unary_operator ++ update_start.
Definition expression_start : list term := K "yield" :: unary_start.

Definition assignment_operator : list term :=
  map P [Eq_; StarEq; SlashEq; PercentEq; PlusEq; MinusEq; LAngleAngleEq; RAngleAngleEq;
         RAngleAngleAngleEq; AmpEq; CaretEq; BarEq; StarStarEq].
Definition binary_operator : list term :=
  K "instanceof" ::
  map P [BarBar; AmpAmp; Bar; Caret; Amp; EqEq; EqEqEq; ExclamEq; ExclamEqEq; LAngle; RAngle;
         LAngleEq; RAngleEq; LAngleAngle; RAngleAngle; RAngleAngleAngle; Plus; Minus; Star;
         Percent; Slash; StarStar].

(** What the first token of a statement can be, other than an expression or a label. *)
Definition statement_keyword : list term :=
  [P CurlyOpen; P Semicolon; K "var"; K "if"; K "switch"; K "while"; K "do"; K "for"; K "continue";
   K "break"; K "return"; K "with"; K "throw"; K "try"; K "debugger"].
Definition declaration_keyword : list term := [K "class"; K "function"; K "let"; K "const"].
Definition labelled : condition := pair [Name] false [P Colon].
(** No statement or declaration starts here. *)
Definition no_item : condition :=
  both (no (declaration_keyword ++ statement_keyword ++ expression_start)) (no_pair [Name] false [P Colon]).

Definition property_name_start : list term := [Name; Str; Num; P SquareOpen].
Definition property_start : list term := P Ellipsis :: P Star :: property_name_start.
Definition pattern_start : list term := [P CurlyOpen; P SquareOpen].

(** [let] starts a declaration in the head of a [for]. *)
Definition for_let : condition := pair [K "let"] false [NameExcept ["in"; "of"]; P SquareOpen; P CurlyOpen].
Definition no_for_let : condition := fun g i => negb (for_let g i).

(** [async function] on one line; a [function] not followed by [function] on its line. *)
Definition async_function : condition := pair [K "async"] true [K "function"].
Definition no_function_start : condition := fun g i =>
  negb (async_function g i) &&
  negb (one_of g [K "function"] (snd (next i)) && negb (pair [Name] true [K "function"] g i)).

Definition function_params (async generator : bool) : list (flag * bool) :=
  if async then [(FYield, false)] else [(FAwait, false); (FYield, generator)].
Definition function_body (async generator : bool) : list (flag * bool) :=
  if async then [(FYield, false); (FAwait, true)] else [(FAwait, false); (FYield, generator)].

Definition star (generator : bool) : sym := if generator then `Star else When (no [P Star]).

Definition prods (n : nt) : list (list sym) :=
  match n with
  (** *** Modules *)
  | NModule => [[ !NModuleItems; T [Eof] ]]
  | NModuleItems =>
    [[ !NModuleItem; !NModuleItems ];
     [ When (both no_item (no [K "import"; K "export"])) ]]
  | NModuleItem =>
    [[ !NScriptItem ];
     [ When no_item; !NImport ];
     [ When no_item; !NExport ]]
  | NScriptItem | NStatementListItem =>
    [[ !NDeclaration ];
     [ When (no declaration_keyword); !NStatement ]]
  | NImport =>
    [[ #"import"; T [Str]; Semi false ];
     [ #"import"; T [Bind]; `Comma; !NImportNames ];
     [ #"import"; T [Bind]; When (no [P Comma]); !NImportFrom ];
     [ #"import"; When (no [Str; Bind]); !NImportNames ]]
  | NImportNames =>
    [[ `Star; #"as"; T [Bind]; !NImportFrom ];
     [ `CurlyOpen; !NImportSpecifiers; `CurlyClose; !NImportFrom ]]
  | NImportFrom => [[ #"from"; T [Str]; Semi false ]]
  | NImportSpecifiers =>
    [[ !NImportSpecifier; `Comma; !NImportSpecifiers ];
     [ !NImportSpecifier; When (no [P Comma]) ];
     [ When (no [Name]) ]]
  | NImportSpecifier | NExportSpecifier =>
    [[ T [Name]; #"as"; T [Name] ];
     [ T [Name]; When (no [K "as"]) ]]
  (* [DEV] a second semicolon after an exported variable declaration; no exported
     functions or classes *)
  | NExport =>
    [[ #"export"; #"default"; N NFunctionDeclaration [(FDefault, true)] ];
     [ #"export"; #"default"; N NClass [(FDefault, true)] ];
     [ #"export"; #"default"; When (both no_function_start (no [K "class"]));
         N NExpression [(FDefault, true); (FIn, true)]; Semi false ];
     [ #"export"; !NVariableStatement; Semi false ];
     [ #"export"; !NLet; Semi false ];
     [ #"export"; !NConst; Semi false ];
     [ #"export"; `Star; #"from"; T [Str]; Semi false ];
     [ #"export"; `CurlyOpen; !NExportSpecifiers; `CurlyClose; #"from"; T [Str]; Semi false ];
     [ #"export"; `CurlyOpen; !NExportSpecifiers; `CurlyClose; When (no [K "from"]); Semi false ]]
  | NExportSpecifiers =>
    [[ !NExportSpecifier; `Comma; !NExportSpecifiers ];
     [ !NExportSpecifier; When (no [P Comma]) ];
     [ When (no [Name]) ]]

  (** *** Statements *)
  | NStatementList =>
    [[ !NStatementListItem; !NStatementList ];
     [ When no_item ]]
  | NStatement =>
    [[ !NBlock ]; [ `Semicolon ]; [ !NVariableStatement ]; [ !NIf ]; [ !NBreakable ];
     [ !NContinue ]; [ !NBreak ]; [ !NReturn ]; [ !NWith ]; [ !NThrow ]; [ !NTry ]; [ !NDebugger ];
     [ When (no statement_keyword); !NLabelled ];
     [ When (both (no statement_keyword) (no_pair [Name] false [P Colon])); !NExpressionStatement ]]
  | NBlock => [[ `CurlyOpen; NStatementList -Template; `CurlyClose ]]
  (* [DEV] no async functions here *)
  | NDeclaration => [[ !NClass ]; [ When (no [K "async"]); !NFunctionDeclaration ]; [ !NLet ]; [ !NConst ]]
  | NLet => [[ #"let"; !(NLexical false); !(NLexicalTail false); Semi false ]]
  | NConst => [[ #"const"; !(NLexical true); !(NLexicalTail true); Semi false ]]
  | NLexicalTail r =>
    [[ `Comma; !(NLexical r); !(NLexicalTail r) ];
     [ When (no [P Comma]) ]]
  | NLexical r =>
    [[ !NPattern; !NInitializer ];
     [ T [Bind]; !NInitializer ]] ++
    if r then [] else [[ T [Bind]; When (no [P Eq_]) ]]
  | NVariableStatement => [[ #"var"; NVariable +In; !NVariableTail; Semi false ]]
  | NVariableTail =>
    [[ `Comma; NVariable +In; !NVariableTail ];
     [ When (no [P Comma]) ]]
  | NVariable =>
    [[ !NPattern; !NInitializer ];
     [ T [Bind]; !NInitializer ];
     [ T [Bind]; When (no [P Eq_]) ]]
  | NExpressionStatement => [[ NExpression +In; Semi false ]]
  | NIf =>
    [[ #"if"; `ParenOpen; NExpression +In; `ParenClose; !NStatement; #"else"; !NStatement ];
     [ #"if"; `ParenOpen; NExpression +In; `ParenClose; !NStatement; When (no [K "else"]) ]]
  | NBreakable => [[ !NIteration ]; [ !NSwitch ]]
  | NIteration => [[ !NDoWhile ]; [ !NWhile ]; [ !NFor ]]
  | NDoWhile => [[ #"do"; !NStatement; #"while"; `ParenOpen; NExpression +In; `ParenClose; Semi true ]]
  | NWhile => [[ #"while"; `ParenOpen; NExpression +In; `ParenClose; !NStatement ]]
  (* [DEV] the test and update expressions inherit the parameter [In]; the expression
     of a for-in or for-of head is arbitrary, even absent *)
  | NFor =>
    [[ #"for"; `ParenOpen; #"var"; !(NForVariables ForVar);
         `Semicolon; !NOptExpression; `Semicolon; !NOptExpression; `ParenClose; !NStatement ];
     [ #"for"; `ParenOpen; When for_let; #"let"; !(NForVariables ForLexical);
         `Semicolon; !NOptExpression; `Semicolon; !NOptExpression; `ParenClose; !NStatement ];
     [ #"for"; `ParenOpen; #"const"; !NForConstants;
         `Semicolon; !NOptExpression; `Semicolon; !NOptExpression; `ParenClose; !NStatement ];
     [ #"for"; `ParenOpen; When (both (no [K "var"; K "const"]) no_for_let); NOptExpression -In;
         `Semicolon; !NOptExpression; `Semicolon; !NOptExpression; `ParenClose; !NStatement ];
     [ #"for"; `ParenOpen; T [K "var"; K "const"]; !NForBinding;
         T [K "in"; K "of"]; NAssignment +In; `ParenClose; !NStatement ];
     [ #"for"; `ParenOpen; When for_let; #"let"; !NForBinding;
         T [K "in"; K "of"]; NAssignment +In; `ParenClose; !NStatement ];
     [ #"for"; `ParenOpen; When (both (no [K "var"; K "const"]) no_for_let); NOptExpression -In;
         T [K "in"; K "of"]; NAssignment +In; `ParenClose; !NStatement ]]
  | NForVariables k =>
    [[ !NPattern; NInitializer -In; !(NForMore k) ];
     [ T [Bind]; NInitializer -In; !(NForMore k) ];
     [ T [Bind]; When (no [P Eq_]); !(NForMore k) ]]
  | NForConstants =>
    [[ !NPattern; NInitializer -In; !(NForMore ForLexical) ];
     [ T [Bind]; NInitializer -In; !(NForMore ForLexical) ]]
  (* [DEV] further declarators after [let] need initializers *)
  | NForMore k =>
    [[ `Comma; (match k with ForVar => NVariable | ForLexical => NLexical true end) -In; !(NForMore k) ];
     [ When (no [P Comma]) ]]
  | NForBinding =>
    [[ !NPattern; When (no [P Eq_]) ];
     [ T [Bind]; When (no [P Eq_; P Comma]) ]]
  | NOptExpression => [[ !NExpression ]; [ When (no expression_start) ]]
  | NSwitch =>
    [[ #"switch"; `ParenOpen; NExpression +In; `ParenClose;
         `CurlyOpen; (NClauses false) -Template; `CurlyClose ]]
  | NClauses d =>
    (if d then [] else [[ !NDefaultClause; !(NClauses true) ]]) ++
    [[ !NCaseClause; !(NClauses d) ];
     [ When (no [K "default"; K "case"]) ]]
  | NCaseClause => [[ #"case"; NExpression +In; `Colon; !NStatementList ]]
  | NDefaultClause => [[ #"default"; `Colon; !NStatementList ]]
  | NReturn =>
    [[ #"return"; When no_line_break; NExpression +In; Semi false ];
     [ #"return"; When (both no_line_break (no expression_start)); Semi false ];
     [ #"return"; When line_break; Semi false ]]
  | NBreak =>
    [[ #"break"; When no_line_break; T [Bind]; Semi false ];
     [ #"break"; When (both no_line_break (no [Bind])); Semi false ];
     [ #"break"; When line_break; Semi false ]]
  | NContinue =>
    [[ #"continue"; When no_line_break; T [Bind]; Semi false ];
     [ #"continue"; When (both no_line_break (no [Bind])); Semi false ];
     [ #"continue"; When line_break; Semi false ]]
  | NDebugger => [[ #"debugger"; Semi false ]]
  | NWith => [[ #"with"; `ParenOpen; NExpression +In; `ParenClose; !NStatement ]]
  (* [DEV] the label may be a reserved word; the body may be any statement *)
  | NLabelled => [[ T [Name]; `Colon; !NStatement ]]
  (* [DEV] no semicolon is asked for; a line break ends the statement *)
  | NThrow =>
    [[ #"throw"; When no_line_break; NExpression +In ];
     [ #"throw"; When line_break ]]
  (* [DEV] both catch and finally may be missing *)
  | NTry =>
    [[ #"try"; !NBlock; #"catch"; `ParenOpen; !NPatternOrName; `ParenClose; !NBlock; !NFinally ];
     [ #"try"; !NBlock; When (no [K "catch"]); !NFinally ]]
  | NFinally => [[ #"finally"; !NBlock ]; [ When (no [K "finally"]) ]]

  (** *** Patterns *)
  | NPattern => [[ !NObjectPattern ]; [ !NArrayPattern ]]
  | NPatternOrName => [[ !NPattern ]; [ T [Bind] ]]
  | NObjectPattern => [[ `CurlyOpen; NPatternProperties -Template; `CurlyClose ]]
  | NPatternProperties =>
    [[ !NPatternProperty; `Comma; !NPatternProperties ];
     [ !NPatternProperty; When (no [P Comma]) ];
     [ When (no property_name_start) ]]
  (* [DEV] a shorthand may be any property name *)
  | NPatternProperty =>
    [[ !NPropertyName; `Colon; !NPatternElement ];
     [ !NPropertyName; NInitializer +In ];
     [ !NPropertyName; When (no [P Colon; P Eq_]) ]]
  | NPropertyName => [[ T [Name; Str; Num] ]; [ !NComputedName ]]
  (* [DEV] the expression may be missing *)
  | NComputedName =>
    [[ `SquareOpen; NAssignment +In; `SquareClose ];
     [ `SquareOpen; When (no expression_start); `SquareClose ]]
  | NArrayPattern => [[ `SquareOpen; !NPatternElements; `SquareClose ]]
  | NPatternElements =>
    [[ !NRestElement ];
     [ !NPatternElement; `Comma; !NPatternElements ];
     [ `Comma; !NPatternElements ];
     [ !NPatternElement; When (no [P Comma]) ];
     [ When (no (P Ellipsis :: P Comma :: Bind :: pattern_start)) ]]
  | NRestElement => [[ `Ellipsis; !NPatternOrName ]]
  | NPatternElement =>
    [[ !NPatternOrName; NInitializer +In ];
     [ !NPatternOrName; When (no [P Eq_]) ]]
  | NInitializer => [[ `Eq_; !NAssignment ]]

  (** *** Functions and classes *)
  (* [DEV] the parameter [Default] also holds inside the function *)
  | NFunctionDeclaration =>
    [[ When async_function; #"async"; #"function"; !(NFunctionDeclarationRest true false) ];
     [ When (no_pair [K "function"] true [K "function"]); #"function"; `Star;
         !(NFunctionDeclarationRest false true) ];
     [ When (no_pair [K "function"] true [K "function"]); #"function"; When (no [P Star]);
         !(NFunctionDeclarationRest false false) ]]
  | NFunctionDeclarationRest a s =>
    [[ T [Bind]; !(NFunctionRest a s) ];
     [ When (only_if FDefault true); When (no [Bind]); !(NFunctionRest a s) ]]
  (* [DEV] no async function expressions *)
  | NFunctionExpression =>
    [[ When (no_pair [K "function"] true [K "function"]); #"function"; `Star; T [Bind];
         !(NFunctionRest false true) ];
     [ When (no_pair [K "function"] true [K "function"]); #"function"; `Star; When (no [Bind]);
         !(NFunctionRest false true) ];
     [ When (no_pair [K "function"] true [K "function"]); #"function"; T [Bind];
         !(NFunctionRest false false) ];
     [ When (no_pair [K "function"] true [K "function"]); #"function"; When (no [P Star; Bind]);
         !(NFunctionRest false false) ]]
  | NFunctionRest a s =>
    [[ N NParameters (function_params a s); N NBlock (function_body a s) ]]
  | NParameters => [[ `ParenOpen; !NParameterList; `ParenClose ]]
  | NParameterList =>
    [[ !NRestElement ];
     [ !NPatternOrName; !NInitializer; !NParameterNext ];
     [ !NPatternOrName; When (no [P Eq_]); !NParameterNext ];
     [ When (no (P Ellipsis :: Bind :: pattern_start)) ]]
  | NParameterNext => [[ `Comma; !NParameterList ]; [ When (no [P Comma]) ]]
  | NClass =>
    [[ #"class"; T [Bind]; !NHeritage; !NClassBody ];
     [ #"class"; When (only_if FDefault true); When (no [Bind]); !NHeritage; !NClassBody ]]
  | NHeritage => [[ #"extends"; !(NLeftHand true) ]; [ When (no [K "extends"]) ]]
  | NClassBody => [[ `CurlyOpen; NClassItems -Template; `CurlyClose ]]
  | NClassItems =>
    [[ !NClassItem; !NClassItems ];
     [ When (no (P Semicolon :: P Star :: property_name_start)) ]]
  | NClassItem =>
    [ `Semicolon ] ::
    map (fun h => [ !(NMethodHead h); !(NMethodTail h) ])
      [MethodHead MNone false false; MethodHead MNone true false; MethodHead MNone false true;
       MethodHead MGet false false; MethodHead MGet true false;
       MethodHead MSet false false; MethodHead MSet true false]
  (* the words before the name, and the name *)
  | NMethodHead h =>
    [[ #"static"; !(NMethodName true h) ];
     [ When (no [K "static"]); !(NMethodName false h) ]]
  (* [DEV] getters and setters may have a star; [get] or [set] may follow [static] as
     names, but not as names with a star; an async method may lack a name *)
  | NMethodName static h =>
    let '(MethodHead kind generator async) := h in
    match kind, async with
    | MGet, false => [[ #"get"; star generator; !NPropertyName ]]
    | MSet, false => [[ #"set"; star generator; !NPropertyName ]]
    | MNone, false =>
      [[ When (no [K "get"; K "set"; K "async"]); star generator; !NPropertyName ]] ++
      (if generator then []
       else [[ T [K "get"; K "set"]; When (no (P Star :: property_name_start)) ]] ++
            if static then [[ When (no (P Star :: property_name_start)) ]] else [])
    | MNone, true =>
      if generator then []
      else [[ #"async"; When no_line_break; !NPropertyName ];
            [ #"async"; When (both no_line_break (no property_name_start)) ];
            [ #"async"; When line_break ]]
    | _, _ => []
    end
  | NMethodTail h =>
    let '(MethodHead kind generator async) := h in
    match kind with
    | MGet => [[ `ParenOpen; `ParenClose; !NBlock ]]
    | MSet => [[ `ParenOpen; !NPatternOrName; `ParenClose; !NBlock ]]
    | MNone => [[ !(NFunctionRest async generator) ]]
    end

  (** *** Expressions *)
  | NExpression => [[ !NAssignment; !NExpressionTail ]]
  | NExpressionTail =>
    [[ `Comma; !NAssignment; !NExpressionTail ];
     [ When (no [P Comma]) ]]
  (* [DEV] any conditional expression may stand before [=>] or an assignment operator *)
  | NAssignment =>
    [[ !NYield ];
     [ When (pair [K "async"] true [Bind]); #"async"; T [Bind]; When no_line_break; `Arrow; !NArrowBody ];
     [ When (no_pair [K "async"] true [Bind]); !NConditional; `Arrow; !NArrowBody ];
     [ When (no_pair [K "async"] true [Bind]); !NConditional; T assignment_operator; !NAssignment ];
     [ When (no_pair [K "async"] true [Bind]); !NConditional; When (no (P Arrow :: assignment_operator)) ]]
  | NArrowBody => [[ !NBlock ]; [ When (no [P CurlyOpen]); !NAssignment ]]
  (* [DEV] the operand is an Expression; yield is accepted everywhere *)
  | NYield =>
    [[ #"yield"; When no_line_break; `Star; !NOptExpression ];
     [ #"yield"; When (both no_line_break (no [P Star])); !NOptExpression ];
     [ #"yield"; When line_break ]]
  | NConditional =>
    [[ !NBinary; `Question; NAssignment +In; `Colon; !NAssignment ];
     [ !NBinary; When (no [P Question]) ]]
  (* precedence plays no role in acceptance *)
  | NBinary => [[ !NUnary; !NBinaryTail ]]
  | NBinaryTail =>
    [[ T binary_operator; !NUnary; !NBinaryTail ];
     [ When (only_if FIn true); #"in"; !NUnary; !NBinaryTail ];
     [ When (only_if FIn true); When (no (K "in" :: binary_operator)) ];
     [ When (only_if FIn false); When (no binary_operator) ]]
  | NUnary =>
    [[ T unary_operator; !NUnary ];
     [ When (only_if FAwait true); #"await"; !NUnary ];
     [ When (no (K "await" :: unary_operator)); !NUpdate ]]
  | NUpdate =>
    [[ T [P PlusPlus; P MinusMinus]; !NUpdate ];
     [ !(NLeftHand true); When no_line_break; T [P PlusPlus; P MinusMinus] ];
     [ !(NLeftHand true); When (both no_line_break (no [P PlusPlus; P MinusMinus])) ];
     [ !(NLeftHand true); When line_break ]]
  | NLeftHand c =>
    [[ #"new"; !(NLeftHand false); !(NLeftHandTail c) ];
     [ !NPrimary; !(NLeftHandTail c) ];
     [ #"super"; !(NLeftHandTail c) ]]
  | NLeftHandTail c =>
    [[ `Period; T [Name]; !(NLeftHandTail c) ];
     [ `SquareOpen; NExpression +In; `SquareClose; !(NLeftHandTail c) ];
     [ !NTemplate; !(NLeftHandTail c) ]] ++
    if c
    then [[ !NArguments; !(NLeftHandTail c) ];
          [ When (no [P Period; P SquareOpen; P ParenOpen; TplWhole; TplHead]) ]]
    else [[ When (no [P Period; P SquareOpen; TplWhole; TplHead]) ]]
  | NArguments => [[ `ParenOpen; NArgumentList +In; `ParenClose ]]
  (* [DEV] a spread argument cannot follow a spread argument *)
  | NArgumentList =>
    [[ `Ellipsis; !NAssignment; `Comma; !NPlainArgumentList ];
     [ `Ellipsis; !NAssignment; When (no [P Comma]) ];
     [ When (no [P Ellipsis]); !NPlainArgumentList ]]
  | NPlainArgumentList =>
    [[ !NAssignment; `Comma; !NArgumentList ];
     [ !NAssignment; When (no [P Comma]) ];
     [ When (no expression_start) ]]
  (* [DEV] a class expression is the keyword alone *)
  | NPrimary =>
    [[ T [K "this"; K "true"; K "false"; K "null"; K "class"; Num; Str; RegEx] ];
     [ When (no_pair [Bind] false [K "function"]); T [Bind] ];
     [ !NArray ]; [ !NObject ]; [ !NTemplate ]; [ !NParenthesized ]; [ !NFunctionExpression ]]
  | NArray => [[ `SquareOpen; !NElements; `SquareClose ]]
  | NElements => [[ !NElement; `Comma; !NElements ]; [ !NElement; When (no [P Comma]) ]]
  | NElement =>
    [[ `Ellipsis; !NAssignment ];
     [ !NAssignment ];
     [ When (no (P Ellipsis :: expression_start)) ]]
  | NObject => [[ `CurlyOpen; NProperties -Template; `CurlyClose ]]
  (* [DEV] elisions are accepted *)
  | NProperties =>
    [[ !NProperty; `Comma; !NProperties ];
     [ !NProperty; When (no [P Comma]) ];
     [ `Comma; !NProperties ];
     [ When (no (P Comma :: property_start)) ]]
  (* [DEV] any method head may be followed by a colon, or stand alone *)
  | NProperty =>
    [ `Ellipsis; !NAssignment ] ::
    flat_map (fun h =>
      [[ !(NMethodHead h); `Colon; !NAssignment ];
       [ !(NMethodHead h); !(NMethodTail h) ];
       [ !(NMethodHead h); When (no [P Colon; P ParenOpen]) ]])
      [MethodHead MNone false false; MethodHead MNone true false; MethodHead MNone false true;
       MethodHead MGet false false; MethodHead MGet true false;
       MethodHead MSet false false; MethodHead MSet true false]
  | NTemplate => [[ T [TplWhole] ]; [ T [TplHead]; NTemplateRest +Template ]]
  | NTemplateRest =>
    [[ !NExpression; T [TplTail] ];
     [ !NExpression; T [TplMiddle]; !NTemplateRest ]]
  | NParenthesized => [[ `ParenOpen; !NParenthesizedBody; `ParenClose ]]
  (* covers expressions and the parameters of arrow functions; [DEV] also outside these *)
  | NParenthesizedBody =>
    [[ !NAssignment; !NParenthesizedTail ];
     [ `Ellipsis; !NPatternOrName ];
     [ When (no (P Ellipsis :: expression_start)) ]]
  | NParenthesizedTail =>
    [[ `Comma; `Ellipsis; !NPatternOrName; !NParenthesizedTail ];
     [ `Comma; When (no [P Ellipsis]); !NAssignment; !NParenthesizedTail ];
     [ When (no [P Comma]) ]]
  end.

(** ** Derivations

    [derives g n i r]: under the parameters [g], the nonterminal [n] derives the tokens of
    [i] up to the rest [r]. *)
Inductive derives : grammar_flags -> nt -> tokens -> tokens -> Prop :=
| by_production g n alpha i r : In alpha (prods n) -> derives_seq g alpha i r -> derives g n i r
with derives_seq : grammar_flags -> list sym -> tokens -> tokens -> Prop :=
| d_end g i : derives_seq g [] i i
| d_token g ts nl t i alpha r :
    one_of g ts t = true -> derives_seq g alpha i r -> derives_seq g (T ts :: alpha) ((nl, t) :: i) r
| d_nonterminal g n ch i m alpha r :
    derives (changed g ch) n i m -> derives_seq g alpha m r -> derives_seq g (N n ch :: alpha) i r
| d_semicolon g b nl i alpha r :
    derives_seq g alpha i r -> derives_seq g (Semi b :: alpha) ((nl, TPunctuator Semicolon) :: i) r
| d_inserted g b i alpha r :
    snd (next i) <> TPunctuator Semicolon -> insertable b i = true ->
    derives_seq g alpha i r -> derives_seq g (Semi b :: alpha) i r
| d_condition g c i alpha r :
    c g i = true -> derives_seq g alpha i r -> derives_seq g (When c :: alpha) i r.
