(** Model of the nodes of syntax trees for expressions and of what they ask the formatter to
    print: src/ast/expression.rs, literal.rs, general.rs, [ExpressionStatement] of
    statement.rs and [Script] of root.rs. Positions, comments and blanks recorded in the
    nodes are left out, as no [NodeDisplay] uses them. *)
From Coq Require Import String List NArith Bool.
From Verif Require Import Base Formatter.
Import ListNotations.

(** One use after another. *)
Fixpoint andthen (a b : uses) : uses :=
  match a with
  | Done => b
  | Print p k => Print p (andthen k b)
  | Hold l body k => Hold l body (andthen k b)
  end.
Definition print_ (p : print) : uses := Print p Done.
Definition hold (l : lock) (body : uses) : uses := Hold l body Done.
Definition keyword_ (k : fkeyword) : uses := print_ (P_keyword k).
Definition punct_ (p : fpunct) : uses := print_ (P_punctuator p).
Notation "a ;; b" := (andthen a b) (at level 90, right associativity).

(** alias.rs:220-315 [enum Expression], without the variants for arrays, objects, functions,
    classes, templates, arrow functions, [do] expressions and JSX. The variants for
    operators are commented out there (alias.rs:235-314). [arg_list] and [last_arg] are
    the fields [args] and [last_arg] of [CallArguments] (expression.rs:154-161). *)
Inductive expression : Set :=
| E_binding (value : bytes) (raw : option bytes)      (* general.rs:39-42 *)
| E_this                                              (* expression.rs:18-20 *)
| E_null                                              (* literal.rs:9 *)
| E_boolean (value : bool)                            (* literal.rs:28-30 *)
| E_numeric (s : bytes)                               (* literal.rs:62-65; the text of the value *)
| E_string (value : bytes) (raw : option bytes)       (* literal.rs:96-99 *)
| E_regexp (value flags : bytes)                      (* literal.rs:126-129 *)
| E_member (object : expression) (property : access)  (* expression.rs:359-362 *)
| E_super_member (property : access)                  (* expression.rs:1492-1495 *)
| E_call (callee : expression) (args : arg_list) (last : last_arg)   (* expression.rs:261-264 *)
| E_new (callee : expression) (args : arg_list) (last : last_arg)    (* expression.rs:294-298 *)
| E_new_empty (callee : expression)                   (* expression.rs:310-313 *)
| E_import_call (argument : expression)               (* expression.rs:326-329 *)
| E_super_call (args : arg_list) (last : last_arg)    (* expression.rs:344-347 *)
| E_conditional (test consequent alternate : expression)   (* expression.rs:1147-1153 *)
| E_sequence (left right : expression)                (* expression.rs:1393-1397 *)
(** expression.rs:409-413 [enum PropertyAccess]. *)
with access : Set :=
| A_identifier (value : bytes) (raw : option bytes)
| A_computed (expression : expression)
| A_private (value : bytes) (raw : option bytes)
(** expression.rs:119-122 [enum CallArgument]. *)
with argument : Set :=
| Arg_expression (expression : expression)
| Arg_spread (expression : expression)
with arg_list : Set := No_args | Cons_arg (a : argument) (rest : arg_list)
with last_arg : Set := No_last | Last (a : argument).

(** expression.rs:377-389 [get_sequence]. *)
Definition get_sequence (object : expression) (property : access) : sequence :=
  match object with
  | E_binding value _ =>
    if beqb value (s2b "let") then match property with A_computed _ => S_LetSquare | _ => S_Let end else S_None
  | _ => S_None
  end.

Fixpoint fmt_expression (e : expression) : uses :=
  match e with
  | E_binding value raw => print_ (P_identifier value raw)           (* general.rs:54-58 *)
  | E_this => keyword_ Fk_This                                       (* expression.rs:21-26 *)
  | E_null => keyword_ Fk_Null                                       (* literal.rs:10-15 *)
  | E_boolean value => keyword_ (if value then Fk_True else Fk_False)  (* literal.rs:31-40 *)
  | E_numeric s => print_ (P_number s)                               (* literal.rs:66-70 *)
  | E_string value raw => print_ (P_string value raw)                (* literal.rs:100-104 *)
  | E_regexp value flags => print_ (P_regexp value flags)            (* literal.rs:130-134 *)
  (* expression.rs:363-374 *)
  | E_member object property =>
    hold (L_lookahead_wrap_parens (get_sequence object property))
      (hold (L_require_precedence Pr_Member) (fmt_expression object) ;;
       fmt_access property)
  (* expression.rs:1496-1501 *)
  | E_super_member property => keyword_ Fk_Super ;; fmt_access property
  (* expression.rs:265-271 *)
  | E_call callee args last =>
    hold (L_require_precedence Pr_New) (fmt_expression callee) ;;
    hold L_wrap_parens (hold (L_require_precedence Pr_Assignment) (fmt_args args) ;; fmt_last last)
  (* expression.rs:299-307 *)
  | E_new callee args last =>
    hold (L_precedence Pr_Member)
      (keyword_ Fk_New ;;
       hold (L_require_precedence Pr_Member) (fmt_expression callee) ;;
       hold L_wrap_parens (hold (L_require_precedence Pr_Assignment) (fmt_args args) ;; fmt_last last))
  (* expression.rs:314-321 *)
  | E_new_empty callee =>
    hold (L_precedence Pr_New)
      (keyword_ Fk_New ;; hold (L_require_precedence Pr_New) (fmt_expression callee))
  (* expression.rs:330-341 *)
  | E_import_call argument =>
    keyword_ Fk_Import ;;
    hold L_wrap_parens (hold (L_require_precedence Pr_Assignment) (fmt_expression argument))
  (* expression.rs:348-353 *)
  | E_super_call args last =>
    keyword_ Fk_Super ;;
    hold L_wrap_parens (hold (L_require_precedence Pr_Assignment) (fmt_args args) ;; fmt_last last)
  (* expression.rs:1154-1169 *)
  | E_conditional test consequent alternate =>
    hold (L_precedence Pr_Conditional)
      (hold (L_require_precedence Pr_LogicalOr) (fmt_expression test) ;;
       punct_ Fp_Question ;;
       hold (L_require_precedence Pr_Assignment)
         (hold L_allow_in (fmt_expression consequent) ;;
          punct_ Fp_Colon ;;
          fmt_expression alternate))
  (* expression.rs:1398-1413 *)
  | E_sequence lhs rhs =>
    hold (L_precedence Pr_Normal)
      (fmt_expression lhs ;;
       punct_ Fp_Comma ;;
       hold (L_require_precedence Pr_Assignment) (fmt_expression rhs))
  end
with fmt_access (a : access) : uses :=
  match a with
  (* expression.rs:421-426 *)
  | A_identifier value raw => punct_ Fp_Period ;; print_ (P_identifier value raw)
  (* expression.rs:435-443 *)
  | A_computed e => hold L_wrap_square (hold (L_require_precedence Pr_Assignment) (fmt_expression e))
  (* expression.rs:452-458 *)
  | A_private value raw => punct_ Fp_Period ;; punct_ Fp_Hash ;; print_ (P_identifier value raw)
  end
with fmt_argument (a : argument) : uses :=
  match a with
  (* expression.rs:137-141 *)
  | Arg_expression e => fmt_expression e
  (* expression.rs:147-152 *)
  | Arg_spread e => punct_ Fp_Ellipsis ;; fmt_expression e
  end
(** The loop of display.rs:408-417 [comma_list], as called in expression.rs:167-174 (which is
    written out with its two locks in the callers above). *)
with fmt_args (l : arg_list) : uses :=
  match l with
  | No_args => Done
  | Cons_arg a rest => fmt_argument a ;; punct_ Fp_Comma ;; fmt_args rest
  end
(** display.rs:733-740, [NodeDisplay] of [Option]. *)
with fmt_last (l : last_arg) : uses :=
  match l with No_last => Done | Last a => fmt_argument a end.

(** ** Operators: nodes whose operands are expressions, but which are not expressions *)
Inductive binary : Set :=
| B_add | B_subtract | B_left_shift | B_right_shift | B_right_shift_signed | B_divide | B_multiply | B_modulus
| B_bit_and | B_bit_or | B_bit_xor | B_power | B_equal | B_strict_equal | B_not_equal | B_strict_not_equal
| B_less_than | B_less_than_equal | B_greater_than | B_greater_than_equal | B_in | B_instanceof | B_and | B_or.
(** expression.rs:713-1126: the precedence of the node, the operator, and the precedence
    required of the right operand. *)
Definition binary_table (b : binary) : precedence * print * precedence :=
  match b with
  | B_add => (Pr_Additive, P_punctuator Fp_Plus, Pr_Multiplicative)                       (* 719-729 *)
  | B_subtract => (Pr_Additive, P_punctuator Fp_Minus, Pr_Multiplicative)                 (* 737-747 *)
  | B_left_shift => (Pr_Shift, P_punctuator Fp_LAngleAngle, Pr_Additive)                  (* 755-763 *)
  | B_right_shift => (Pr_Shift, P_punctuator Fp_RAngleAngle, Pr_Additive)                 (* 771-779 *)
  | B_right_shift_signed => (Pr_Shift, P_punctuator Fp_RAngleAngleAngle, Pr_Additive)     (* 787-795 *)
  | B_divide => (Pr_Multiplicative, P_punctuator Fp_Slash, Pr_Exponential)                (* 802-812 *)
  | B_multiply => (Pr_Multiplicative, P_punctuator Fp_Star, Pr_Exponential)               (* 820-830 *)
  | B_modulus => (Pr_Multiplicative, P_punctuator Fp_Mod, Pr_Exponential)                 (* 838-848 *)
  | B_bit_and => (Pr_BitwiseAnd, P_punctuator Fp_Amp, Pr_Equality)                        (* 856-864 *)
  | B_bit_or => (Pr_BitwiseOr, P_punctuator Fp_Bar, Pr_BitwiseXOr)                        (* 872-882 *)
  | B_bit_xor => (Pr_BitwiseXOr, P_punctuator Fp_Caret, Pr_BitwiseAnd)                    (* 890-900 *)
  | B_power => (Pr_Update, P_punctuator Fp_StarStar, Pr_Exponential)                      (* 908-918 *)
  | B_equal => (Pr_Equality, P_punctuator Fp_EqEq, Pr_Relational)                         (* 927-937 *)
  | B_strict_equal => (Pr_Equality, P_punctuator Fp_EqEqEq, Pr_Relational)                (* 945-955 *)
  | B_not_equal => (Pr_Equality, P_punctuator Fp_Neq, Pr_Relational)                      (* 963-972 *)
  | B_strict_not_equal => (Pr_Equality, P_punctuator Fp_NeqEq, Pr_Relational)             (* 979-989 *)
  | B_less_than => (Pr_Relational, P_punctuator Fp_LAngle, Pr_Shift)                      (* 996-1004 *)
  | B_less_than_equal => (Pr_Relational, P_punctuator Fp_LAngleEq, Pr_Shift)              (* 1012-1020 *)
  | B_greater_than => (Pr_Relational, P_punctuator Fp_RAngle, Pr_Shift)                   (* 1028-1036 *)
  | B_greater_than_equal => (Pr_Relational, P_punctuator Fp_RAngleEq, Pr_Shift)           (* 1044-1052 *)
  | B_in => (Pr_Relational, P_keyword Fk_In, Pr_Shift)                                    (* 1061-1070 *)
  | B_instanceof => (Pr_Relational, P_keyword Fk_Instanceof, Pr_Shift)                    (* 1078-1086 *)
  | B_and => (Pr_LogicalAnd, P_punctuator Fp_AmpAmp, Pr_BitwiseOr)                        (* 1094-1104 *)
  | B_or => (Pr_LogicalOr, P_punctuator Fp_BarBar, Pr_LogicalAnd)                         (* 1112-1122 *)
  end.
Definition fmt_binary (b : binary) (left right : expression) : uses :=
  let '(p, operator, q) := binary_table b in
  let body := fmt_expression left ;; print_ operator ;; hold (L_require_precedence q) (fmt_expression right) in
  hold (L_precedence p) match b with B_in => hold L_in_wrap_parens body | _ => body end.

Inductive unary : Set := U_delete | U_void | U_typeof | U_positive | U_negative | U_bit_negate | U_negate | U_await.
(** expression.rs:573-668. *)
Definition unary_operator_ (u : unary) : print :=
  match u with
  | U_delete => P_keyword Fk_Delete          (* 577-584 *)
  | U_void => P_keyword Fk_Void              (* 589-596 *)
  | U_typeof => P_keyword Fk_Typeof          (* 601-608 *)
  | U_positive => P_punctuator Fp_Plus       (* 613-620 *)
  | U_negative => P_punctuator Fp_Exclam     (* 625-632 *)
  | U_bit_negate => P_punctuator Fp_Tilde    (* 637-644 *)
  | U_negate => P_punctuator Fp_Exclam       (* 649-656 *)
  | U_await => P_keyword Fk_Await            (* 661-668 *)
  end.
Definition fmt_unary (u : unary) (value : expression) : uses :=
  hold (L_precedence Pr_Unary)
    (print_ (unary_operator_ u) ;; hold (L_require_precedence Pr_Unary) (fmt_expression value)).

(** ** Statements *)

(** statement.rs:221-233 [ExpressionStatement]. *)
Definition fmt_expression_statement (e : expression) : uses :=
  hold (L_restrict_lookahead R_ExpressionStatement) (hold (L_require_precedence Pr_Normal) (fmt_expression e)) ;;
  punct_ Fp_Semicolon.

(** root.rs:17-25 [Script], without directives and with expression statements only;
    display.rs:419-425 [node_list]. *)
Definition fmt_script (body : list expression) : uses :=
  hold L_allow_in (fold_right (fun e k => fmt_expression_statement e ;; k) Done body).
