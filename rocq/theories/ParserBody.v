(** Model of the parse functions of src/parser/{file,expressions,statements,
    declarations,functions,classes,module}.rs, one definition per Rust function,
    plus [parse_root] of src/parser/mod.rs.

    Every parse function builds no tree: its result is [Ok(Some(()))] (matched and
    consumed), [Ok(None)] (did not match) or [Err].  Vectors that the code fills and
    drops ([body.push(item)]) are omitted.  Arguments of type [()] are omitted. *)
From Coq Require Import String List Arith NArith Bool.
From Verif Require Import Base Tokens Tokenizer ParserCore.
Import ListNotations.
Local Open Scope string_scope.

Definition pf := prog (option unit).

(** ** src/parser/expressions.rs *)

(** expressions.rs:9-11. *)
Definition parse_left_hand_side_expression : pf := Call (F_left_hand true).

(** expressions.rs:13-23. *)
Definition parse_expression : pf :=
  try_ Call F_assignment ;;
  run_ expect_expression ;;
  Call L_expression.
(** expressions.rs:17-22, the [while let] loop. *)
Definition parse_expression_loop : pf :=
  if_some_ punc Comma then_
    (run_ expect_expression ;;
     eat_ Call F_assignment ;;
     Call L_expression)
  else_ done_.

(** expressions.rs:83-99: which token continues an assignment expression. *)
Inductive reify : Set := ReifyArrow | ReifyAssign.
Definition reify_of (t : token) : option reify :=
  match t with
  | TPunctuator Arrow => Some ReifyArrow
  | TPunctuator Eq_ | TPunctuator StarEq | TPunctuator SlashEq | TPunctuator PercentEq
  | TPunctuator PlusEq | TPunctuator MinusEq | TPunctuator LAngleAngleEq
  | TPunctuator RAngleAngleEq | TPunctuator RAngleAngleAngleEq | TPunctuator AmpEq
  | TPunctuator CaretEq | TPunctuator BarEq | TPunctuator StarStarEq => Some ReifyAssign
  | _ => None
  end.

(** expressions.rs:63-124, the part of [parse_assignment_expression] after the
    async-arrow test. *)
Definition parse_assignment_tail : pf :=
  try_ Call F_conditional ;;
  do_ t <- token_ ;;
  match reify_of t with
  | None => done_
  | Some ReifyArrow => run_ pop_ ;; eat_ Call F_reify_arrow ;; done_
  | Some ReifyAssign => run_ pop_ ;; eat_ Call F_reify_assignment ;; done_
  end.

(** expressions.rs:31-42: the token after an identifier is, on the same line, an
    identifier usable as a binding. *)
Definition maybe_async_arrow (g : grammar_flags) (la : option lookahead) : bool :=
  match la with
  | Some (false, TIdent name) => is_binding_identifier g name
  | _ => false
  end.

(** expressions.rs:24-125. *)
Definition parse_assignment_expression : pf :=
  if_some_ Call F_yield then_ done_ else_
  (do_ g <- get_flags ;;
   do_ la <- ident_lookahead ;;
   if maybe_async_arrow g la then
     if_some_ keyword "async" then_
       (do_ nl <- no_line_terminator ;;
        if negb nl then Crash "async arrow"
        else
        eat_ binding_identifier ;;
        do_ nl2 <- no_line_terminator ;;
        if negb nl2 then
          Throw (Bail "Unexpected line terminator between async arrow argument and arrow")
        else
        eat_ punc Arrow ;;
        eat_ Call F_reify_arrow ;;
        done_)
     else_ parse_assignment_tail
   else parse_assignment_tail).

(** expressions.rs:126-133. *)
Definition reify_arrow : pf :=
  run_ expect_expression ;;
  try_sequence [Call F_block; Call F_assignment].

(** expressions.rs:134-142. *)
Definition reify_assignment : pf :=
  run_ expect_expression ;;
  eat_ Call F_assignment ;;
  done_.

(** expressions.rs:144-156. *)
Definition parse_yield_expression : pf :=
  try_ keyword "yield" ;;
  do_ nl <- no_line_terminator ;;
  if nl then
    run_ expect_expression ;;
    opt_ punc Star ;;
    run_ expect_expression ;;
    opt_ Call F_expression ;;
    done_
  else done_.

(** expressions.rs:157-169. *)
Definition parse_conditional_expression : pf :=
  try_ Call (F_fancy 0) ;;   (* parse_logical_or_expression, expressions.rs:171-173 *)
  if_some_ punc Question then_
    (run_ expect_expression ;;
     eat_ With FIn true (Call F_assignment) ;;
     eat_ punc Colon ;;
     run_ expect_expression ;;
     eat_ Call F_assignment ;;
     done_)
  else_ done_.

(** expressions.rs:180-212: the precedence of a binary operator token. *)
Definition binary_precedence (allow_in_ : bool) (t : token) : option nat :=
  match t with
  | TPunctuator BarBar => Some 1
  | TPunctuator AmpAmp => Some 2
  | TPunctuator Bar => Some 3
  | TPunctuator Caret => Some 4
  | TPunctuator Amp => Some 5
  | TPunctuator EqEq | TPunctuator EqEqEq | TPunctuator ExclamEq | TPunctuator ExclamEqEq => Some 6
  | TPunctuator LAngle | TPunctuator RAngle | TPunctuator LAngleEq | TPunctuator RAngleEq => Some 7
  | TPunctuator LAngleAngle | TPunctuator RAngleAngle | TPunctuator RAngleAngleAngle => Some 8
  | TPunctuator Plus | TPunctuator Minus => Some 9
  | TPunctuator Star | TPunctuator Percent | TPunctuator Slash => Some 10
  | TPunctuator StarStar => Some 11
  | TIdent name =>
    if kw "in" name && allow_in_ then Some 7
    else if kw "instanceof" name then Some 7
    else None
  | _ => None
  end.

(** expressions.rs:174-232. *)
Definition parse_fancy (precedence : nat) : pf :=
  try_ Call F_exponential ;;
  do_ g <- get_flags ;;
  Call (L_fancy precedence (allow_in g)).
(** expressions.rs:179-231, the loop. *)
Definition parse_fancy_loop (precedence : nat) (allow_in_ : bool) : pf :=
  do_ t <- token_ ;;
  match binary_precedence allow_in_ t with
  | None => done_
  | Some new_precedence =>
    run_ pop_ ;;
    run_ expect_expression ;;
    if Nat.leb precedence new_precedence && negb (Nat.eqb new_precedence 11) then
      eat_ Call F_unary ;;
      Call (L_fancy new_precedence allow_in_)
    else
      eat_ Call (F_fancy new_precedence) ;;
      Call (L_fancy precedence allow_in_)
  end.

(** expressions.rs:234-246. *)
Definition parse_exponential_expression : pf :=
  try_ Call F_unary ;;
  if_some_ punc StarStar then_
    (run_ expect_expression ;;
     eat_ Call F_exponential ;;
     done_)
  else_ done_.

(** expressions.rs:248-275: which unary operator the token is. *)
Inductive unary_type : Set :=
| UDelete | UVoid | UTypeof | UPlus | UMinus | UTilde | UExclam | UAwait | UUnknown.
Definition unary_type_of (t : token) : unary_type :=
  match t with
  | TPunctuator Plus => UPlus
  | TPunctuator Minus => UMinus
  | TPunctuator Tilde => UTilde
  | TPunctuator Exclam => UExclam
  | TIdent name =>
    if kw "delete" name then UDelete
    else if kw "void" name then UVoid
    else if kw "typeof" name then UTypeof
    else if kw "await" name then UAwait
    else UUnknown
  | _ => UUnknown
  end.

(** expressions.rs:247-290. *)
Definition parse_unary_expression : pf :=
  do_ t <- token_ ;;
  match unary_type_of t with
  | UDelete => eat_ Call F_delete ;; done_
  | UVoid => eat_ Call F_void ;; done_
  | UTypeof => eat_ Call F_typeof ;; done_
  | UPlus => eat_ Call F_plus ;; done_
  | UMinus => eat_ Call F_minus ;; done_
  | UTilde => eat_ Call F_tilde ;; done_
  | UExclam => eat_ Call F_exclam ;; done_
  | UAwait => eat_ Call F_await ;; done_
  | UUnknown => try_ Call F_update ;; done_
  end.

(** expressions.rs:291-299. *)
Definition parse_delete_expression : pf :=
  try_ keyword "delete" ;;
  run_ expect_expression ;;
  eat_ Call F_unary ;;
  done_.
(** expressions.rs:300-307. *)
Definition parse_void_expression : pf :=
  try_ keyword "void" ;;
  run_ expect_expression ;;
  eat_ Call F_unary ;;
  done_.
(** expressions.rs:308-315. *)
Definition parse_typeof_expression : pf :=
  try_ keyword "typeof" ;;
  run_ expect_expression ;;
  eat_ Call F_unary ;;
  done_.
(** expressions.rs:316-323. *)
Definition parse_plus_expression : pf :=
  try_ punc Plus ;;
  run_ expect_expression ;;
  eat_ Call F_unary ;;
  done_.
(** expressions.rs:324-331. *)
Definition parse_minus_expression : pf :=
  try_ punc Minus ;;
  run_ expect_expression ;;
  eat_ Call F_unary ;;
  done_.
(** expressions.rs:332-339. *)
Definition parse_tilde_expression : pf :=
  try_ punc Tilde ;;
  run_ expect_expression ;;
  eat_ Call F_unary ;;
  done_.
(** expressions.rs:340-347. *)
Definition parse_exclam_expression : pf :=
  try_ punc Exclam ;;
  run_ expect_expression ;;
  eat_ Call F_unary ;;
  done_.
(** expressions.rs:348-359. *)
Definition parse_await_expression : pf :=
  do_ g <- get_flags ;;
  if negb (allow_await g) then Ret None
  else
  try_ keyword "await" ;;
  run_ expect_expression ;;
  eat_ Call F_unary ;;
  done_.

(** expressions.rs:360-385. *)
Definition parse_update_expression : pf :=
  do_ op <- (if_some_ punc PlusPlus then_ Ret true
             else_ (if_some_ punc MinusMinus then_ Ret true else_ Ret false)) ;;
  if op : bool then
    run_ expect_expression ;;
    eat_ Call F_update ;;
    done_
  else
    try_ Call (F_left_hand true) ;;
    do_ nl <- no_line_terminator ;;
    if nl then
      if_some_ punc PlusPlus then_ done_
      else_ (if_some_ punc MinusMinus then_ done_ else_ done_)
    else done_.

(** expressions.rs:482-486. *)
Definition parse_super_expression : pf :=
  try_ keyword "super" ;; done_.

(** expressions.rs:386-439. *)
Definition parse_left_hand_expression (allow_call : bool) : pf :=
  if_some_ keyword "new" then_
    (eat_ Call (F_left_hand false) ;;
     Call (L_left_hand allow_call))
  else_
    (try_ try_sequence [Call F_primary; Call F_meta_property; parse_super_expression] ;;
     Call (L_left_hand allow_call)).
(** expressions.rs:401-436, the loop over member accesses, calls and templates. *)
Definition parse_left_hand_loop (allow_call : bool) : pf :=
  do_ t <- token_ ;;
  match t with
  | TPunctuator Period =>
    run_ pop_ ;;
    eat_ With FIn true identifier ;;
    Call (L_left_hand allow_call)
  | TPunctuator SquareOpen =>
    run_ pop_ ;;
    eat_ With FIn true (Call F_expression) ;;
    eat_ punc SquareClose ;;
    Call (L_left_hand allow_call)
  | TPunctuator ParenOpen =>
    if allow_call then
      eat_ Call F_call_arguments ;;
      Call (L_left_hand allow_call)
    else done_
  | TTemplate TF_NoSubstitution _ _ | TTemplate TF_Head _ _ =>
    eat_ Call F_template_literal ;;
    Call (L_left_hand allow_call)
  | _ => done_
  end.

(** expressions.rs:442-473. *)
Definition parse_call_arguments : pf :=
  With FIn true
    (try_ punc ParenOpen ;;
     run_ Call L_call_arguments ;;
     eat_ punc ParenClose ;;
     done_).
(** expressions.rs:460-467, the second half of the loop body. *)
Definition parse_call_arguments_plain : pf :=
  if_some_ Call F_assignment then_
    (if_some_ punc Comma then_ Call L_call_arguments else_ done_)
  else_ done_.
(** expressions.rs:447-468, the loop. *)
Definition parse_call_arguments_loop : pf :=
  run_ expect_expression ;;
  if_some_ punc Ellipsis then_
    (run_ expect_expression ;;
     eat_ Call F_assignment ;;
     if_some_ punc Comma then_ parse_call_arguments_plain else_ done_)
  else_ parse_call_arguments_plain.

(** expressions.rs:475-481. *)
Definition parse_meta_property_expression : pf :=
  try_ keyword "new" ;;
  eat_ punc Period ;;
  eat_ keyword "target" ;;
  done_.

(** expressions.rs:489-537: which primary expression the token starts. *)
Inductive primary_type : Set :=
| PrThis | PrIdent | PrNumber | PrString | PrTrue | PrFalse | PrNull | PrArray | PrObject
| PrRegex | PrTemplate | PrParen | PrFunction | PrClass.
Definition primary_type_of (g : grammar_flags) (t : token) : option primary_type :=
  match t with
  | TIdent name =>
    if kw "this" name then Some PrThis
    else if kw "true" name then Some PrTrue
    else if kw "false" name then Some PrFalse
    else if kw "null" name then Some PrNull
    else if kw "function" name then Some PrFunction
    else if kw "class" name then Some PrClass
    else if is_binding_identifier g name then Some PrIdent
    else None
  | TString _ => Some PrString
  | TNumeric _ => Some PrNumber
  | TTemplate _ _ _ => Some PrTemplate
  | TRegExp _ _ => Some PrRegex
  | TPunctuator SquareOpen => Some PrArray
  | TPunctuator CurlyOpen => Some PrObject
  | TPunctuator ParenOpen => Some PrParen
  | _ => None
  end.

(** expressions.rs:574-578, 605-629 and 694-698: the one-token primaries. *)
Definition parse_this_expression : pf := try_ keyword "this" ;; done_.
Definition parse_null_expression : pf := try_ keyword "null" ;; done_.
Definition parse_true_expression : pf := try_ keyword "true" ;; done_.
Definition parse_false_expression : pf := try_ keyword "false" ;; done_.
Definition parse_numeric_expression : pf := try_ numeric ;; done_.
Definition parse_string_expression : pf := try_ string_ ;; done_.
Definition parse_regular_expression_literal_expression : pf := try_ regex ;; done_.

(** expressions.rs:579-595. *)
Definition parse_identifier_reference_expression : pf :=
  do_ ahead <- ident_lookahead ;;
  match ahead with
  | Some (_, TIdent name) =>
    if kw "function" name then Ret None
    else try_ reference_identifier ;; done_
  | _ => try_ reference_identifier ;; done_
  end.

(** classes.rs:24-28: a class expression is the keyword alone. *)
Definition parse_class_expression : pf := try_ keyword "class" ;; done_.

(** expressions.rs:488-557. *)
Definition parse_primary_expression : pf :=
  do_ g <- get_flags ;;
  do_ t <- token_ ;;
  match primary_type_of g t with
  | None => Ret None
  | Some PrThis => eat_ parse_this_expression ;; done_
  | Some PrIdent => eat_ parse_identifier_reference_expression ;; done_
  | Some PrNumber => eat_ parse_numeric_expression ;; done_
  | Some PrString => eat_ parse_string_expression ;; done_
  | Some PrTrue => eat_ parse_true_expression ;; done_
  | Some PrFalse => eat_ parse_false_expression ;; done_
  | Some PrNull => eat_ parse_null_expression ;; done_
  | Some PrArray => eat_ Call F_array_literal ;; done_
  | Some PrObject => eat_ Call F_object_literal ;; done_
  | Some PrRegex => eat_ parse_regular_expression_literal_expression ;; done_
  | Some PrTemplate => eat_ Call F_template_literal ;; done_
  | Some PrParen => eat_ Call F_cover_parenthesized ;; done_
  | Some PrFunction => eat_ Call F_function_expression ;; done_
  | Some PrClass => eat_ parse_class_expression ;; done_
  end.

(** expressions.rs:630-645. *)
Definition parse_array_literal_expression : pf :=
  try_ punc SquareOpen ;;
  run_ Call L_array_literal ;;
  eat_ punc SquareClose ;;
  done_.
(** expressions.rs:633-640, the loop. *)
Definition parse_array_literal_loop : pf :=
  opt_ Call F_array_item ;;
  if_some_ punc Comma then_ Call L_array_literal else_ done_.

(** expressions.rs:646-662. *)
Definition parse_object_literal_expression : pf :=
  With FTemplate false
    (try_ punc CurlyOpen ;;
     run_ Call L_object_literal ;;
     eat_ punc CurlyClose ;;
     done_).
(** expressions.rs:650-657, the loop. *)
Definition parse_object_literal_loop : pf :=
  opt_ Call F_object_property ;;
  if_some_ punc Comma then_ Call L_object_literal else_ done_.

(** classes.rs:63-132. *)
Definition parse_method_head (allow_static : bool) : prog (option method_head) :=
  do_ stat <- (if allow_static then keyword "static" else Ret None) ;;
  do_ kind <- (if_some_ keyword "get" then_ Ret MGet
               else_ (if_some_ keyword "set" then_ Ret MSet else_ Ret MNone)) ;;
  do_ async <- (match kind with
                | MNone => if_some_ keyword "async" then_ Ret true else_ Ret false
                | _ => Ret false
                end) ;;
  do_ star <- (if async : bool then Ret None else punc Star) ;;
  let generator := match star with Some _ => true | None => false end in
  do_ named <- (if async then no_line_terminator else Ret false) ;;
  if async && named then
    opt_ Call F_property_name ;;
    Ret (Some (MethodHead kind generator async))
  else if async then
    Ret (Some (MethodHead kind generator async))
  else
    if_some_ Call F_property_name then_
      Ret (Some (MethodHead kind generator async))
    else_
      match star, kind, stat with
      | Some _, _, _ => Throw (Bail "expected method name")
      | None, MGet, _ => Ret (Some (MethodHead MNone generator async))
      | None, MSet, _ => Ret (Some (MethodHead MNone generator async))
      | None, MNone, Some _ => Ret (Some (MethodHead kind generator async))
      | None, MNone, None => Ret None
      end.

(** expressions.rs:664-685. *)
Definition parse_object_property : pf :=
  if_some_ punc Ellipsis then_
    (run_ expect_expression ;;
     eat_ Call F_assignment ;;
     done_)
  else_
    (try_as_ head <- parse_method_head true ;;
     if_some_ punc Colon then_
       (run_ expect_expression ;;
        eat_ Call F_assignment ;;
        done_)
     else_
       (opt_ Call (F_method_tail head) ;;
        done_)).

(** expressions.rs:686-692. *)
Definition parse_array_item : pf :=
  if_some_ punc Ellipsis then_
    (eat_ Call F_assignment ;; done_)
  else_
    (opt_ Call F_assignment ;; done_).

(** expressions.rs:699-716. *)
Definition parse_template_literal_expression : pf :=
  try_as_ format <- template ;;
  match format with
  | TF_Head => With FTemplate true (Call L_template_literal)
  | _ => done_
  end.
(** expressions.rs:704-712, the loop over substitutions. *)
Definition parse_template_literal_loop : pf :=
  eat_ Call F_expression ;;
  eat_as_ format <- template_tail ;;
  match format with
  | TF_Tail => done_
  | _ => Call L_template_literal
  end.

(** expressions.rs:726-729 and 736-739 (also statements.rs:263-265, 690-692 and
    classes.rs:145-147): a binding pattern, or else a required binding identifier. *)
Definition pattern_or_identifier (k : pf) : pf :=
  if_some_ Call F_binding_pattern then_ k
  else_ (eat_ binding_identifier ;; k).

(** expressions.rs:717-746. *)
Definition parse_cover_parenthesized_expression : pf :=
  try_ punc ParenOpen ;;
  run_ expect_expression ;;
  run_ (if_some_ Call F_assignment then_
          Call L_cover_parenthesized
        else_
          (if_some_ punc Ellipsis then_ pattern_or_identifier done_
           else_ done_)) ;;
  eat_ punc ParenClose ;;
  done_.
(** expressions.rs:723-733, the loop. *)
Definition parse_cover_parenthesized_loop : pf :=
  if_some_ punc Comma then_
    (run_ expect_expression ;;
     if_some_ punc Ellipsis then_
       pattern_or_identifier (Call L_cover_parenthesized)
     else_
       (eat_ Call F_assignment ;;
        Call L_cover_parenthesized))
  else_ done_.

(** ** src/parser/statements.rs *)

(** statements.rs:40-57 and 67-89: which statement the token starts. *)
Inductive statement_type : Set :=
| SBlock | SEmpty | SVar | SIf | SSwitch | SWhile | SDo | SFor | SContinue | SBreak
| SReturn | SWith | SThrow | STry | SDebugger | SUnknown.
Definition statement_type_of (t : token) : statement_type :=
  match t with
  | TPunctuator CurlyOpen => SBlock
  | TPunctuator Semicolon => SEmpty
  | TIdent name =>
    if kw "var" name then SVar
    else if kw "if" name then SIf
    else if kw "switch" name then SSwitch
    else if kw "while" name then SWhile
    else if kw "do" name then SDo
    else if kw "for" name then SFor
    else if kw "continue" name then SContinue
    else if kw "break" name then SBreak
    else if kw "return" name then SReturn
    else if kw "with" name then SWith
    else if kw "throw" name then SThrow
    else if kw "try" name then STry
    else if kw "debugger" name then SDebugger
    else SUnknown
  | _ => SUnknown
  end.

(** statements.rs:287-291. *)
Definition parse_empty_statement : pf := try_ punc Semicolon ;; done_.

(** statements.rs:602-612. *)
Definition parse_continue_statement : pf :=
  try_ keyword "continue" ;;
  do_ nl <- no_line_terminator ;;
  run_ (if nl then label_identifier else Ret None) ;;
  eat_ semicolon ;;
  done_.

(** statements.rs:613-622. *)
Definition parse_break_statement : pf :=
  try_ keyword "break" ;;
  do_ nl <- no_line_terminator ;;
  run_ (if nl then label_identifier else Ret None) ;;
  eat_ semicolon ;;
  done_.

(** statements.rs:706-711. *)
Definition parse_debugger_statement : pf :=
  try_ keyword "debugger" ;;
  eat_ semicolon ;;
  done_.

(** statements.rs:64-118. *)
Definition parse_statement : pf :=
  run_ expect_expression ;;
  do_ t <- token_ ;;
  match statement_type_of t with
  | SBlock => eat_ Call F_block ;; done_
  | SEmpty => eat_ parse_empty_statement ;; done_
  | SVar => eat_ Call F_variable_statement ;; done_
  | SIf => eat_ Call F_if ;; done_
  | SSwitch => eat_ Call F_breakable ;; done_
  | SWhile => eat_ Call F_breakable ;; done_
  | SDo => eat_ Call F_breakable ;; done_
  | SFor => eat_ Call F_breakable ;; done_
  | SContinue => eat_ parse_continue_statement ;; done_
  | SBreak => eat_ parse_break_statement ;; done_
  | SReturn => eat_ Call F_return ;; done_
  | SWith => eat_ Call F_with ;; done_
  | SThrow => eat_ Call F_throw ;; done_
  | STry => eat_ Call F_try ;; done_
  | SDebugger => eat_ parse_debugger_statement ;; done_
  | SUnknown => try_sequence [Call F_labelled; Call F_expression_statement]
  end.

(** statements.rs:120-125. *)
Definition parse_statement_list_item : pf :=
  try_sequence [Call F_declaration; Call F_statement].

(** statements.rs:132-134, 580-582 and 594-596: [while let] over statement list items. *)
Definition parse_statement_list_loop : pf :=
  if_some_ Call F_statement_list_item then_ Call L_statement_list else_ done_.

(** statements.rs:127-139. *)
Definition parse_block_statement : pf :=
  With FTemplate false
    (try_ punc CurlyOpen ;;
     run_ Call L_statement_list ;;
     eat_ punc CurlyClose ;;
     done_).

(** statements.rs:141-153. *)
Definition parse_variable_statement : pf :=
  try_ keyword "var" ;;
  eat_ With FIn true (Call F_var_declarator) ;;
  run_ Call L_variable_statement ;;
  eat_ semicolon ;;
  done_.
(** statements.rs:146-148, the loop. *)
Definition parse_variable_statement_loop : pf :=
  if_some_ punc Comma then_
    (eat_ With FIn true (Call F_var_declarator) ;;
     Call L_variable_statement)
  else_ done_.

(** statements.rs:155-163. *)
Definition parse_var_declarator : pf :=
  if_some_ Call F_binding_pattern then_
    (eat_ Call F_initializer ;; done_)
  else_
    (eat_ binding_identifier ;;
     opt_ Call F_initializer ;;
     done_).

(** statements.rs:165-170. *)
Definition parse_binding_pattern : pf :=
  try_sequence [Call F_object_binding_pattern; Call F_array_binding_pattern].

(** statements.rs:172-191. *)
Definition parse_object_binding_pattern : pf :=
  With FTemplate false
    (try_ punc CurlyOpen ;;
     run_ Call L_object_binding_pattern ;;
     eat_ punc CurlyClose ;;
     done_).
(** statements.rs:177-186, the loop. *)
Definition parse_object_binding_pattern_loop : pf :=
  if_some_ Call F_binding_property then_
    (if_some_ punc Comma then_ Call L_object_binding_pattern else_ done_)
  else_ done_.

(** statements.rs:197-207. *)
Definition parse_binding_property : pf :=
  try_ Call F_property_name ;;
  if_some_ punc Colon then_
    (eat_ Call F_binding_element ;; done_)
  else_
    (opt_ With FIn true (Call F_initializer) ;; done_).

(** statements.rs:216-225. *)
Definition parse_literal_property_name : pf :=
  if_some_ identifier then_ done_
  else_ (if_some_ string_ then_ done_
  else_ (if_some_ numeric then_ done_
  else_ Ret None)).

(** statements.rs:209-214. *)
Definition parse_property_name : pf :=
  try_sequence [parse_literal_property_name; Call F_computed_property_name].

(** statements.rs:227-236. *)
Definition parse_computed_property_name : pf :=
  try_ punc SquareOpen ;;
  run_ expect_expression ;;
  opt_ With FIn true (Call F_assignment) ;;
  eat_ punc SquareClose ;;
  done_.

(** statements.rs:238-258. *)
Definition parse_array_binding_pattern : pf :=
  try_ punc SquareOpen ;;
  run_ Call L_array_binding_pattern ;;
  eat_ punc SquareClose ;;
  done_.
(** statements.rs:241-253, the loop. *)
Definition parse_array_binding_pattern_loop : pf :=
  if_some_ Call F_binding_rest_element then_ done_
  else_
    (opt_ Call F_binding_element ;;
     if_some_ punc Comma then_ Call L_array_binding_pattern else_ done_).

(** statements.rs:260-268. *)
Definition parse_binding_rest_element : pf :=
  try_ punc Ellipsis ;;
  pattern_or_identifier done_.

(** statements.rs:269-276. *)
Definition parse_binding_element : pf :=
  if_some_ Call F_binding_pattern then_
    (opt_ With FIn true (Call F_initializer) ;; done_)
  else_
    (try_ binding_identifier ;;
     opt_ With FIn true (Call F_initializer) ;; done_).

(** statements.rs:278-285. *)
Definition parse_initializer : pf :=
  try_ punc Eq_ ;;
  run_ expect_expression ;;
  eat_ Call F_assignment ;;
  done_.

(** statements.rs:293-299. *)
Definition parse_expression_statement : pf :=
  try_ With FIn true (Call F_expression) ;;
  eat_ semicolon ;;
  done_.

(** statements.rs:301-318. *)
Definition parse_if_statement : pf :=
  try_ keyword "if" ;;
  eat_ punc ParenOpen ;;
  run_ expect_expression ;;
  eat_ With FIn true (Call F_expression) ;;
  eat_ punc ParenClose ;;
  eat_ Call F_statement ;;
  if_some_ keyword "else" then_
    (eat_ Call F_statement ;; done_)
  else_ done_.

(** statements.rs:320-325. *)
Definition parse_breakable_statement : pf :=
  try_sequence [Call F_iteration; Call F_switch].

(** statements.rs:327-333. *)
Definition parse_iteration_statement : pf :=
  try_sequence [Call F_do_while; Call F_while; Call F_for].

(** statements.rs:335-350. *)
Definition parse_do_while_statement : pf :=
  try_ keyword "do" ;;
  eat_ Call F_statement ;;
  eat_ keyword "while" ;;
  eat_ punc ParenOpen ;;
  run_ expect_expression ;;
  eat_ With FIn true (Call F_expression) ;;
  eat_ punc ParenClose ;;
  eat_ semicolon_dowhile ;;
  done_.

(** statements.rs:352-363. *)
Definition parse_while_statement : pf :=
  try_ keyword "while" ;;
  eat_ punc ParenOpen ;;
  run_ expect_expression ;;
  eat_ With FIn true (Call F_expression) ;;
  eat_ punc ParenClose ;;
  eat_ Call F_statement ;;
  done_.

(** statements.rs:392, 417 and 456: the declarator after a comma in a for-init. *)
Definition for_declarator (k : for_kind) : pf :=
  match k with
  | ForVar => With FIn false (Call F_var_declarator)
  | ForLexical => With FIn false (Call (F_lexical_declarator true))
  end.

(** statements.rs:390-393, 415-418 and 454-457: the loop over further declarators. *)
Definition parse_for_declarators_loop (k : for_kind) : pf :=
  if_some_ punc Comma then_
    (eat_ for_declarator k ;;
     Call (L_for_declarators k))
  else_ done_.

(** What the head of a [for] was: the tuple of statements.rs:372, without its two
    constant components. *)
Inductive for_head_kind : Set := HVar | HConst | HLet | HExpression.
Record for_head : Set := ForHead {
  fh_kind : for_head_kind; fh_pattern : bool; fh_initialized : bool; fh_multiple : bool
}.

(** statements.rs:373-396, 398-421 and 437-460: the three (identical up to the
    declarator function) declaration heads. *)
Definition for_declaration (k : for_kind) (hk : for_head_kind) : prog for_head :=
  do_ pattern <- (if_some_ Call F_binding_pattern then_ Ret true
                  else_ (eat_ binding_identifier ;; Ret false)) ;;
  do_ initialized <- (if_some_ With FIn false (Call F_initializer) then_ Ret true
                      else_ Ret false) ;;
  do_ multiple <-
    (if negb pattern || initialized then
       if_some_ punc Comma then_
         (eat_ for_declarator k ;;
          run_ Call (L_for_declarators k) ;;
          Ret true)
       else_ Ret false
     else Ret false) ;;
  Ret (ForHead hk pattern initialized multiple).

(** statements.rs:423-432: may [let] start a declaration here? *)
Definition for_maybe_decl (la : option lookahead) : bool :=
  match la with
  | Some (_, TIdent name) => negb (kw "in" name) && negb (kw "of" name)
  | Some (_, TPunctuator SquareOpen) => true
  | Some (_, TPunctuator CurlyOpen) => true
  | _ => false
  end.

(** statements.rs:471-475. *)
Definition for_expression_head : prog for_head :=
  opt_ With FIn false (Call F_expression) ;;
  Ret (ForHead HExpression false false false).

(** statements.rs:372-477. *)
Definition parse_for_head : prog for_head :=
  if_some_ keyword "var" then_ for_declaration ForVar HVar
  else_
    (if_some_ keyword "const" then_ for_declaration ForLexical HConst
     else_
       (do_ la <- ident_lookahead ;;
        if for_maybe_decl la then
          if_some_ keyword "let" then_ for_declaration ForLexical HLet
          else_ for_expression_head
        else for_expression_head)).

(** statements.rs:479-502. *)
Definition for_allowed (h : for_head) : bool * bool :=
  match fh_kind h with
  | HVar | HLet =>
    (negb (fh_pattern h) || fh_initialized h, negb (fh_multiple h) && negb (fh_initialized h))
  | HConst => (fh_initialized h, negb (fh_multiple h) && negb (fh_initialized h))
  | HExpression => (true, true)
  end.

(** statements.rs:537-541. *)
Definition parse_for_tail : pf :=
  eat_ punc ParenClose ;;
  eat_ Call F_statement ;;
  done_.

(** statements.rs:521-535. *)
Definition parse_for_in_of (maybe_x : bool) : pf :=
  if maybe_x then
    if_some_ keyword "in" then_
      (run_ expect_expression ;;
       eat_ With FIn true (Call F_assignment) ;;
       parse_for_tail)
    else_
      (if_some_ keyword "of" then_
         (run_ expect_expression ;;
          eat_ With FIn true (Call F_assignment) ;;
          parse_for_tail)
       else_ Throw (Bail "Invalid for loop"))
  else Throw (Bail "bad for loop").

(** statements.rs:365-542. *)
Definition parse_for_statement : pf :=
  try_ keyword "for" ;;
  eat_ punc ParenOpen ;;
  run_ expect_expression ;;
  do_ h <- parse_for_head ;;
  if fst (for_allowed h) then
    if_some_ punc Semicolon then_
      (run_ expect_expression ;;
       opt_ Call F_expression ;;
       eat_ punc Semicolon ;;
       run_ expect_expression ;;
       opt_ Call F_expression ;;
       parse_for_tail)
    else_ parse_for_in_of (snd (for_allowed h))
  else parse_for_in_of (snd (for_allowed h)).

(** statements.rs:544-574. *)
Definition parse_switch_statement : pf :=
  try_ keyword "switch" ;;
  eat_ punc ParenOpen ;;
  run_ expect_expression ;;
  eat_ With FIn true (Call F_expression) ;;
  eat_ punc ParenClose ;;
  With FTemplate false
    (eat_ punc CurlyOpen ;;
     run_ Call (L_switch false) ;;
     eat_ punc CurlyClose ;;
     done_).
(** statements.rs:558-569, the loop. *)
Definition parse_switch_loop (has_default : bool) : pf :=
  if_some_ Call F_default_clause then_
    (if has_default then Throw (Bail "duplicate default statements")
     else Call (L_switch true))
  else_
    (if_some_ Call F_case_clause then_ Call (L_switch has_default) else_ done_).

(** statements.rs:575-585. *)
Definition parse_default_clause : pf :=
  try_ keyword "default" ;;
  eat_ punc Colon ;;
  run_ Call L_statement_list ;;
  done_.

(** statements.rs:587-599. *)
Definition parse_case_clause : pf :=
  try_ keyword "case" ;;
  run_ expect_expression ;;
  eat_ With FIn true (Call F_expression) ;;
  eat_ punc Colon ;;
  run_ Call L_statement_list ;;
  done_.

(** statements.rs:624-635. *)
Definition parse_return_statement : pf :=
  try_ keyword "return" ;;
  do_ nl <- no_line_terminator ;;
  run_ (if nl then
          run_ expect_expression ;;
          With FIn true (Call F_expression)
        else Ret None) ;;
  eat_ semicolon ;;
  done_.

(** statements.rs:637-648. *)
Definition parse_with_statement : pf :=
  try_ keyword "with" ;;
  eat_ punc ParenOpen ;;
  run_ expect_expression ;;
  eat_ With FIn true (Call F_expression) ;;
  eat_ punc ParenClose ;;
  eat_ Call F_statement ;;
  done_.

(** statements.rs:650-669. *)
Definition parse_labelled_statement : pf :=
  do_ la <- ident_lookahead ;;
  match la with
  | Some (_, TPunctuator Colon) =>
    eat_ identifier ;;
    eat_ punc Colon ;;
    eat_ Call F_statement ;;
    done_
  | _ => Ret None
  end.

(** statements.rs:671-680. *)
Definition parse_throw_statement : pf :=
  try_ keyword "throw" ;;
  do_ nl <- no_line_terminator ;;
  if nl then
    run_ expect_expression ;;
    eat_ With FIn true (Call F_expression) ;;
    done_
  else done_.

(** statements.rs:699-703. *)
Definition parse_finally : pf :=
  if_some_ keyword "finally" then_ (eat_ Call F_block ;; done_) else_ done_.

(** statements.rs:682-704. *)
Definition parse_try_statement : pf :=
  try_ keyword "try" ;;
  eat_ Call F_block ;;
  if_some_ keyword "catch" then_
    (eat_ punc ParenOpen ;;
     eat_ pattern_or_identifier done_ ;;
     eat_ punc ParenClose ;;
     eat_ Call F_block ;;
     parse_finally)
  else_ parse_finally.

(** ** src/parser/declarations.rs *)

(** declarations.rs:13-32: which declaration the token starts. *)
Inductive decl_type : Set := DClass | DFunction | DLet | DConst.
Definition decl_type_of (t : token) : option decl_type :=
  match t with
  | TIdent name =>
    if kw "class" name then Some DClass
    else if kw "function" name then Some DFunction
    else if kw "let" name then Some DLet
    else if kw "const" name then Some DConst
    else None
  | _ => None
  end.

(** declarations.rs:9-42. *)
Definition parse_declaration : pf :=
  run_ expect_expression ;;
  do_ t <- token_ ;;
  match decl_type_of t with
  | None => Ret None
  | Some DClass => eat_ Call F_class_declaration ;; done_
  | Some DFunction => eat_ Call F_function_declaration ;; done_
  | Some DLet => eat_ Call F_let_declaration ;; done_
  | Some DConst => eat_ Call F_const_declaration ;; done_
  end.

(** declarations.rs:44-55. *)
Definition parse_let_declaration : pf :=
  try_ keyword "let" ;;
  eat_ Call (F_lexical_declarator false) ;;
  run_ Call (L_lexical_declarators false) ;;
  eat_ semicolon ;;
  done_.

(** declarations.rs:57-68. *)
Definition parse_const_declaration : pf :=
  try_ keyword "const" ;;
  eat_ Call (F_lexical_declarator true) ;;
  run_ Call (L_lexical_declarators true) ;;
  eat_ semicolon ;;
  done_.

(** declarations.rs:49-51 and 62-64, the loops. *)
Definition parse_lexical_declarators_loop (initializer_required : bool) : pf :=
  if_some_ punc Comma then_
    (eat_ Call (F_lexical_declarator initializer_required) ;;
     Call (L_lexical_declarators initializer_required))
  else_ done_.

(** declarations.rs:70-83. *)
Definition parse_lexical_declarator (initializer_required : bool) : pf :=
  if_some_ Call F_binding_pattern then_
    (eat_ Call F_initializer ;; done_)
  else_
    (eat_ binding_identifier ;;
     if initializer_required then
       eat_ Call F_initializer ;; done_
     else
       opt_ Call F_initializer ;; done_).

(** ** src/parser/functions.rs *)

(** functions.rs:11-18 and 60-67. *)
Definition maybe_async_function (la : option lookahead) : bool :=
  match la with
  | Some (false, TIdent name) => kw "function" name
  | _ => false
  end.

(** functions.rs:37-54 and 82-99: parameters and body of a function that is async,
    a generator ([star]), or neither. *)
Definition parse_function_rest (async star : bool) : pf :=
  if async then
    With FYield false
      (eat_ Call F_function_params ;;
       eat_ With FAwait true (Call F_block) ;;
       done_)
  else
    With FAwait false
      (With FYield star
        (eat_ Call F_function_params ;;
         eat_ Call F_block ;;
         done_)).

(** functions.rs:31-57. *)
Definition parse_function_declaration_tail (async star : bool) : pf :=
  do_ g <- get_flags ;;
  if allow_default g then
    opt_ binding_identifier ;;
    parse_function_rest async star
  else
    eat_ binding_identifier ;;
    parse_function_rest async star.

(** functions.rs:10-57. *)
Definition parse_function_declaration : pf :=
  do_ la <- ident_lookahead ;;
  if maybe_async_function la then
    try_ keyword "async" ;;
    eat_ keyword "function" ;;
    parse_function_declaration_tail true false
  else
    try_ keyword "function" ;;
    if_some_ punc Star then_ parse_function_declaration_tail false true
    else_ parse_function_declaration_tail false false.

(** functions.rs:59-102. *)
Definition parse_function_expression : pf :=
  do_ la <- ident_lookahead ;;
  if maybe_async_function la then
    try_ keyword "async" ;;
    eat_ keyword "function" ;;
    opt_ binding_identifier ;;
    parse_function_rest true false
  else
    try_ keyword "function" ;;
    if_some_ punc Star then_
      (opt_ binding_identifier ;; parse_function_rest false true)
    else_
      (opt_ binding_identifier ;; parse_function_rest false false).

(** functions.rs:104-128. *)
Definition parse_function_params : pf :=
  try_ punc ParenOpen ;;
  run_ Call L_function_params ;;
  eat_ punc ParenClose ;;
  done_.
(** functions.rs:107-123, the loop. *)
Definition parse_function_params_next : pf :=
  if_some_ punc Comma then_ Call L_function_params else_ done_.
Definition parse_function_params_loop : pf :=
  if_some_ Call F_binding_rest_element then_ done_
  else_
    (if_some_ Call F_binding_pattern then_
       (opt_ Call F_initializer ;; parse_function_params_next)
     else_
       (if_some_ binding_identifier then_
          (opt_ Call F_initializer ;; parse_function_params_next)
        else_ done_)).

(** functions.rs:129-131 [parse_function_body] is [parse_block_statement]; its
    callers above and below call [F_block]. *)

(** ** src/parser/classes.rs *)

(** classes.rs:9-23. *)
Definition parse_class_declaration : pf :=
  try_ keyword "class" ;;
  do_ g <- get_flags ;;
  run_ (if allow_default g then binding_identifier
        else (eat_ binding_identifier ;; done_)) ;;
  opt_ Call F_class_heritage ;;
  eat_ Call F_class_body ;;
  done_.

(** classes.rs:30-37. *)
Definition parse_class_heritage : pf :=
  try_ keyword "extends" ;;
  run_ expect_expression ;;
  eat_ parse_left_hand_side_expression ;;
  done_.

(** classes.rs:39-49. *)
Definition parse_class_body : pf :=
  With FTemplate false
    (eat_ punc CurlyOpen ;;
     run_ Call L_class_body ;;
     eat_ punc CurlyClose ;;
     done_).
(** classes.rs:43-44, the loop. *)
Definition parse_class_body_loop : pf :=
  if_some_ Call F_class_item then_ Call L_class_body else_ done_.

(** classes.rs:51-61. *)
Definition parse_class_item : pf :=
  if_some_ punc Semicolon then_ done_
  else_
    (try_as_ head <- parse_method_head true ;;
     eat_ Call (F_method_tail head) ;;
     done_).

(** classes.rs:134-176. *)
Definition parse_method_tail (head : method_head) : pf :=
  match mh_kind head with
  | MGet =>
    try_ punc ParenOpen ;;
    eat_ punc ParenClose ;;
    eat_ Call F_block ;;
    done_
  | MSet =>
    try_ punc ParenOpen ;;
    eat_ pattern_or_identifier done_ ;;
    eat_ punc ParenClose ;;
    eat_ Call F_block ;;
    done_
  | MNone =>
    if mh_async head then
      With FYield false
        (try_ Call F_function_params ;;
         eat_ With FAwait true (Call F_block) ;;
         done_)
    else
      With FAwait false
        (With FYield (mh_generator head)
          (try_ Call F_function_params ;;
           eat_ Call F_block ;;
           done_))
  end.

(** ** src/parser/module.rs *)

(** module.rs:47-58. *)
Definition parse_import_specifier : pf :=
  try_ identifier ;;
  if_some_ keyword "as" then_ (eat_ identifier ;; done_) else_ done_.

(** module.rs:38-44. *)
Definition parse_from_clause : pf :=
  eat_ keyword "from" ;;
  eat_ string_ ;;
  eat_ semicolon ;;
  done_.

(** module.rs:21-36. *)
Definition parse_import_names : pf :=
  if_some_ punc Star then_
    (eat_ keyword "as" ;;
     eat_ binding_identifier ;;
     parse_from_clause)
  else_
    (eat_ punc CurlyOpen ;;
     run_ Call L_import_specifiers ;;
     eat_ punc CurlyClose ;;
     parse_from_clause).
(** module.rs:28-32, the loop. *)
Definition parse_import_specifiers_loop : pf :=
  if_some_ parse_import_specifier then_
    (if_some_ punc Comma then_ Call L_import_specifiers else_ done_)
  else_ done_.

(** module.rs:9-45. *)
Definition parse_import_declaration : pf :=
  try_ keyword "import" ;;
  if_some_ string_ then_
    (eat_ semicolon ;; done_)
  else_
    (if_some_ binding_identifier then_
       (if_some_ punc Comma then_ parse_import_names else_ parse_from_clause)
     else_ parse_import_names).

(** module.rs:108-116. *)
Definition parse_export_specifier : pf :=
  try_ identifier ;;
  if_some_ keyword "as" then_ (eat_ identifier ;; done_) else_ done_.
(** module.rs:87-91, the loop. *)
Definition parse_export_specifiers_loop : pf :=
  if_some_ parse_export_specifier then_
    (if_some_ punc Comma then_ Call L_export_specifiers else_ done_)
  else_ done_.

(** module.rs:60-106. *)
Definition parse_export_declaration : pf :=
  try_ keyword "export" ;;
  if_some_ keyword "default" then_
    With FDefault true
      (if_some_ Call F_function_declaration then_ done_
       else_ (if_some_ Call F_class_declaration then_ done_
       else_
         (eat_ With FIn true (Call F_expression) ;;
          eat_ semicolon ;;
          done_)))
  else_
    (if_some_ Call F_variable_statement then_ (eat_ semicolon ;; done_)
     else_ (if_some_ Call F_let_declaration then_ (eat_ semicolon ;; done_)
     else_ (if_some_ Call F_const_declaration then_ (eat_ semicolon ;; done_)
     else_ (if_some_ punc Star then_
              (eat_ keyword "from" ;; eat_ string_ ;; eat_ semicolon ;; done_)
     else_
       (eat_ punc CurlyOpen ;;
        run_ Call L_export_specifiers ;;
        eat_ punc CurlyClose ;;
        if_some_ keyword "from" then_
          (eat_ string_ ;; eat_ semicolon ;; done_)
        else_ (eat_ semicolon ;; done_)))))).

(** ** src/parser/file.rs *)

(** file.rs:24-31. *)
Definition parse_script_item : pf :=
  run_ expect_expression ;;
  try_sequence [Call F_declaration; Call F_statement].

(** file.rs:33-41. *)
Definition parse_module_item : pf :=
  run_ expect_expression ;;
  try_sequence [Call F_script_item; Call F_import_declaration; Call F_export_declaration].

(** file.rs:10-11, the loop of [parse_script]. *)
Definition parse_script_loop : pf :=
  if_some_ Call F_script_item then_ Call L_script else_ done_.
(** file.rs:17-18, the loop of [parse_module]. *)
Definition parse_module_loop : pf :=
  if_some_ Call F_module_item then_ Call L_module else_ done_.

(** file.rs:9-15. *)
Definition parse_script : pf :=
  run_ Call L_script ;;
  eat_ eof ;;
  done_.
(** file.rs:16-22. *)
Definition parse_module : pf :=
  run_ Call L_module ;;
  eat_ eof ;;
  done_.

(** ** The table of parse functions *)
Definition body (f : fn) : pf :=
  match f with
  | F_script_item => parse_script_item
  | F_module_item => parse_module_item
  | L_script => parse_script_loop
  | L_module => parse_module_loop
  | F_expression => parse_expression
  | L_expression => parse_expression_loop
  | F_assignment => parse_assignment_expression
  | F_reify_arrow => reify_arrow
  | F_reify_assignment => reify_assignment
  | F_yield => parse_yield_expression
  | F_conditional => parse_conditional_expression
  | F_fancy p => parse_fancy p
  | L_fancy p i => parse_fancy_loop p i
  | F_exponential => parse_exponential_expression
  | F_unary => parse_unary_expression
  | F_delete => parse_delete_expression
  | F_void => parse_void_expression
  | F_typeof => parse_typeof_expression
  | F_plus => parse_plus_expression
  | F_minus => parse_minus_expression
  | F_tilde => parse_tilde_expression
  | F_exclam => parse_exclam_expression
  | F_await => parse_await_expression
  | F_update => parse_update_expression
  | F_left_hand c => parse_left_hand_expression c
  | L_left_hand c => parse_left_hand_loop c
  | F_call_arguments => parse_call_arguments
  | L_call_arguments => parse_call_arguments_loop
  | F_meta_property => parse_meta_property_expression
  | F_primary => parse_primary_expression
  | F_array_literal => parse_array_literal_expression
  | L_array_literal => parse_array_literal_loop
  | F_object_literal => parse_object_literal_expression
  | L_object_literal => parse_object_literal_loop
  | F_object_property => parse_object_property
  | F_array_item => parse_array_item
  | F_template_literal => parse_template_literal_expression
  | L_template_literal => parse_template_literal_loop
  | F_cover_parenthesized => parse_cover_parenthesized_expression
  | L_cover_parenthesized => parse_cover_parenthesized_loop
  | F_statement => parse_statement
  | F_statement_list_item => parse_statement_list_item
  | L_statement_list => parse_statement_list_loop
  | F_block => parse_block_statement
  | F_variable_statement => parse_variable_statement
  | L_variable_statement => parse_variable_statement_loop
  | F_var_declarator => parse_var_declarator
  | F_binding_pattern => parse_binding_pattern
  | F_object_binding_pattern => parse_object_binding_pattern
  | L_object_binding_pattern => parse_object_binding_pattern_loop
  | F_binding_property => parse_binding_property
  | F_property_name => parse_property_name
  | F_computed_property_name => parse_computed_property_name
  | F_array_binding_pattern => parse_array_binding_pattern
  | L_array_binding_pattern => parse_array_binding_pattern_loop
  | F_binding_rest_element => parse_binding_rest_element
  | F_binding_element => parse_binding_element
  | F_initializer => parse_initializer
  | F_expression_statement => parse_expression_statement
  | F_if => parse_if_statement
  | F_breakable => parse_breakable_statement
  | F_iteration => parse_iteration_statement
  | F_do_while => parse_do_while_statement
  | F_while => parse_while_statement
  | F_for => parse_for_statement
  | L_for_declarators k => parse_for_declarators_loop k
  | F_switch => parse_switch_statement
  | L_switch d => parse_switch_loop d
  | F_default_clause => parse_default_clause
  | F_case_clause => parse_case_clause
  | F_return => parse_return_statement
  | F_with => parse_with_statement
  | F_labelled => parse_labelled_statement
  | F_throw => parse_throw_statement
  | F_try => parse_try_statement
  | F_declaration => parse_declaration
  | F_let_declaration => parse_let_declaration
  | F_const_declaration => parse_const_declaration
  | L_lexical_declarators r => parse_lexical_declarators_loop r
  | F_lexical_declarator r => parse_lexical_declarator r
  | F_function_declaration => parse_function_declaration
  | F_function_expression => parse_function_expression
  | F_function_params => parse_function_params
  | L_function_params => parse_function_params_loop
  | F_class_declaration => parse_class_declaration
  | F_class_heritage => parse_class_heritage
  | F_class_body => parse_class_body
  | L_class_body => parse_class_body_loop
  | F_class_item => parse_class_item
  | F_method_tail h => parse_method_tail h
  | F_import_declaration => parse_import_declaration
  | L_import_specifiers => parse_import_specifiers_loop
  | F_export_declaration => parse_export_declaration
  | L_export_specifiers => parse_export_specifiers_loop
  end.

(** ** Entry points *)

(** Running a program of the parser over a tokenizer, from the initial state. *)
Definition run_parser {T : Type} (next : T -> hint -> tres (token * token_range * T))
    (read_fuel fuel : nat) (p : pf) (t : T) : res T (option unit) :=
  interp next read_fuel (exec next read_fuel body fuel) p (pstate_init t).

(** What a caller of [parse_root::<_, ()>] sees (mod.rs:18-77): it returns [()],
    or it panics, either inside the parser or tokenizer or by [.unwrap()] on the
    parse error.  [OutOfFuel] is the model's own. *)
Inductive outcome : Set :=
| Accepted
| Rejected (e : perr)       (** [p.parse_module().unwrap()] panics on [Err(e)] *)
| Panicked (p : panic)
| OutOfFuel.

Definition outcome_of {T : Type} (r : res T (option unit)) : outcome :=
  match r with
  | ROk _ _ => Accepted
  | RErr e _ => Rejected e
  | RPanic p => Panicked p
  | RFuel _ => OutOfFuel
  end.

(** mod.rs:18-24 and 52-77 [parse_root] on any tokenizer. *)
Definition parse_root_with {T : Type} (next : T -> hint -> tres (token * token_range * T))
    (read_fuel fuel : nat) (t : T) : outcome :=
  outcome_of (run_parser next read_fuel fuel parse_module t).

(** [parse_root] on a [&str] (slice.rs:99-108 supplies the tokenizer). *)
Definition parse_root (E : env) (read_fuel fuel : nat) (code : bytes) : outcome :=
  parse_root_with (next_token E) read_fuel fuel (into_tokenizer code).
