(** Model of the nodes of syntax trees for statements and of what they ask the formatter to
    print: src/ast/statement.rs and [Script] of root.rs. As in Nodes.v, positions, comments
    and blanks recorded in the nodes are left out. Binding and assignment patterns are
    restricted to identifiers, and for assignments to member expressions. *)
From Coq Require Import String List NArith Bool.
From Verif Require Import Base Formatter Nodes.
Import ListNotations.

(** general.rs:10-13 [BindingIdentifier], statement.rs:860-863 [LabelIdentifier]: the fields
    [value] and [raw]. *)
Definition identifier : Set := bytes * option bytes.
Definition fmt_identifier_node (x : identifier) : uses := print_ (P_identifier (fst x) (snd x)).   (* general.rs:23-27, statement.rs:873-877 *)

(** statement.rs:78-81, 163-166 and 193-196 [VariableDeclarator], [LetDeclarator],
    [ConstDeclarator]; the initializer of the last is not optional. *)
Inductive declarator : Set := Declarator (id : identifier) (init : option expression).
Inductive declaring : Set := D_var | D_let | D_const.
Definition declaring_keyword (d : declaring) : fkeyword :=
  match d with D_var => Fk_Var | D_let => Fk_Let | D_const => Fk_Const end.

(** statement.rs:470-475 [enum ForInit]. *)
Inductive for_init : Set :=
| Init_declaration (kind : declaring) (declarators : list declarator) (last : declarator)
| Init_expression (e : expression).
(** statement.rs:618-623 and 681-686 [enum ForInInit], [enum ForOfInit]: only a [var] in a
    for-in statement has an initializer (564-570). *)
Inductive for_left : Set :=
| Left_declaration (kind : declaring) (id : identifier) (init : option expression)
| Left_identifier (id : identifier)                         (* patterns.rs:22 *)
| Left_member (object : expression) (property : access).    (* patterns.rs:23 *)

(** alias.rs:123-153 [enum StatementItem], without functions and classes, together with
    [IfElseStatement], which has no variant there. [clauses] are the [cases] of
    a [SwitchStatement] (798-801), [None] standing for [default]. *)
Inductive statement : Set :=
| St_block (body : statements)                                                 (* 15-19 *)
| St_declaration (kind : declaring) (declarators : list declarator) (last : declarator)   (* 62-67, 146-151, 176-181 *)
| St_empty                                                                     (* 1125-1127 *)
| St_expression (e : expression)                                               (* 205-209 *)
| St_if (test : expression) (consequent : statement)                           (* 334-340 *)
| St_if_else (test : expression) (consequent alternate : statement)            (* 351-359 *)
| St_for (init : option for_init) (test update : option expression) (body : statement)   (* 443-453 *)
| St_for_in (left : for_left) (right : expression) (body : statement)          (* 538-546 *)
| St_for_of (left : for_left) (right : expression) (body : statement)          (* 627-635 *)
| St_for_await (left : for_left) (right : expression) (body : statement)       (* 654-663 *)
| St_while (test : expression) (body : statement)                              (* 690-696 *)
| St_do_while (body : statement) (test : expression)                           (* 707-716 *)
| St_switch (discriminant : expression) (cases : clauses)                      (* 731-739 *)
| St_with (object : expression) (body : statement)                             (* 843-849 *)
| St_labelled (label : identifier) (body : statement)                          (* 881-888 *)
| St_throw (argument : expression)                                             (* 900-903 *)
| St_try_catch (body : statements) (param : option identifier) (handler : statements)   (* 915-919, 1005-1010 *)
| St_try_catch_finally (body : statements) (param : option identifier) (handler finalizer : statements)   (* 958-964 *)
| St_try_finally (body finalizer : statements)                                 (* 988-993 *)
| St_continue (label : option identifier)                                      (* 1035-1039 *)
| St_break (label : option identifier)                                         (* 1052-1056 *)
| St_return (value : option expression)                                        (* 1083-1087 *)
| St_debugger                                                                  (* 1112-1115 *)
with statements : Set := No_statements | Cons_statement (s : statement) (rest : statements)
with clauses : Set := No_clauses | Cons_clause (test : option expression) (consequent : statements) (rest : clauses).

(** display.rs:733-740, [NodeDisplay] of [Option]. *)
Definition fmt_option {A} (f : A -> uses) (o : option A) : uses := match o with Some x => f x | None => Done end.
(** general.rs:128-133 [Initializer]. *)
Definition fmt_initializer (e : expression) : uses :=
  punct_ Fp_Eq ;; hold (L_require_precedence Pr_Assignment) (fmt_expression e).
(** statement.rs:82-87, 167-172, 197-202. *)
Definition fmt_declarator (d : declarator) : uses :=
  match d with Declarator id init => fmt_identifier_node id ;; fmt_option fmt_initializer init end.
(** statement.rs:68-76, 152-160, 182-190, with display.rs:408-417 [comma_list]. *)
Definition fmt_declaration (kind : declaring) (ds : list declarator) (last : declarator) : uses :=
  keyword_ (declaring_keyword kind) ;;
  hold (L_require_precedence Pr_Assignment) (fold_right (fun d k => fmt_declarator d ;; punct_ Fp_Comma ;; k) Done ds) ;;
  fmt_declarator last ;;
  punct_ Fp_Semicolon.
(** statement.rs:476-488. *)
Definition fmt_for_init (i : for_init) : uses :=
  hold (L_restrict_lookahead R_ForInit) (hold L_disallow_in
    match i with
    | Init_declaration kind ds last => fmt_declaration kind ds last
    | Init_expression e => fmt_expression e
    end).
(** statement.rs:571-579, 586-591, 598-603, 610-615; patterns.rs:20-26. *)
Definition fmt_for_left (l : for_left) : uses :=
  match l with
  | Left_declaration kind id init =>
    keyword_ (declaring_keyword kind) ;; fmt_identifier_node id ;; fmt_option fmt_initializer init
  | Left_identifier id => fmt_identifier_node id
  | Left_member object property => fmt_expression (E_member object property)
  end.
(** statement.rs:547-558, 636-646 and 664-675, from the parenthesis to the last one. *)
Definition fmt_for_head (r : restriction) (l : for_left) (k : fkeyword) (right : expression) : uses :=
  hold L_wrap_parens (hold (L_restrict_lookahead r) (fmt_for_left l) ;; keyword_ k ;; fmt_expression right).
(** statement.rs:1040-1047, 1057-1064, 1066-1076. *)
Definition fmt_jump (k : fkeyword) (label : option identifier) : uses :=
  keyword_ k ;; fmt_option fmt_identifier_node label ;; punct_ Fp_Semicolon.
(** statement.rs:1024-1030 [CatchParam]. *)
Definition fmt_catch_param (x : identifier) : uses := hold L_wrap_parens (fmt_identifier_node x).

Fixpoint fmt_statement (s : statement) : uses :=
  match s with
  | St_block body => hold L_wrap_curly (fmt_statements body)                   (* 20-28 *)
  | St_declaration kind ds last => fmt_declaration kind ds last
  | St_empty => punct_ Fp_Semicolon                                            (* 1128-1133 *)
  | St_expression e => fmt_expression_statement e                              (* 221-233 *)
  (* 341-348 *)
  | St_if test consequent =>
    hold L_wrap_orphan_if
      (keyword_ Fk_If ;; hold L_wrap_parens (fmt_expression test) ;; fmt_statement consequent)
  (* 360-368 *)
  | St_if_else test consequent alternate =>
    keyword_ Fk_If ;; hold L_wrap_parens (fmt_expression test) ;;
    hold L_disallow_orphan_if (fmt_statement consequent) ;;
    keyword_ Fk_Else ;; fmt_statement alternate
  (* 454-467 *)
  | St_for init test update body =>
    keyword_ Fk_For ;;
    hold L_wrap_parens
      (fmt_option fmt_for_init init ;; punct_ Fp_Semicolon ;;
       fmt_option fmt_expression test ;; punct_ Fp_Semicolon ;;
       fmt_option fmt_expression update) ;;
    fmt_statement body
  (* 547-561 *)
  | St_for_in lhs rhs body => keyword_ Fk_For ;; fmt_for_head R_ForInit lhs Fk_In rhs ;; fmt_statement body
  (* 636-650 *)
  | St_for_of lhs rhs body => keyword_ Fk_For ;; fmt_for_head R_ForOfInit lhs Fk_Of rhs ;; fmt_statement body
  (* 664-679 *)
  | St_for_await lhs rhs body =>
    keyword_ Fk_For ;; keyword_ Fk_Await ;; fmt_for_head R_ForOfInit lhs Fk_Of rhs ;; fmt_statement body
  (* 697-703 *)
  | St_while test body => keyword_ Fk_While ;; hold L_wrap_parens (fmt_expression test) ;; fmt_statement body
  (* 717-727 *)
  | St_do_while body test =>
    keyword_ Fk_Do ;; fmt_statement body ;; keyword_ Fk_While ;; hold L_wrap_parens (fmt_expression test) ;; punct_ Fp_Semicolon
  (* 740-749 *)
  | St_switch discriminant cases =>
    keyword_ Fk_Switch ;; hold L_wrap_parens (fmt_expression discriminant) ;; hold L_wrap_curly (fmt_clauses cases)
  (* 850-856 *)
  | St_with object body => keyword_ Fk_With ;; hold L_wrap_parens (fmt_expression object) ;; fmt_statement body
  (* 889-896 *)
  | St_labelled label body => fmt_identifier_node label ;; punct_ Fp_Colon ;; fmt_statement body
  (* 904-911 *)
  | St_throw argument => keyword_ Fk_Throw ;; hold (L_require_precedence Pr_Normal) (fmt_expression argument)
  (* 920-926, 1011-1017 *)
  | St_try_catch body param handler =>
    keyword_ Fk_Try ;; hold L_wrap_curly (fmt_statements body) ;;
    keyword_ Fk_Catch ;; fmt_option fmt_catch_param param ;; hold L_wrap_curly (fmt_statements handler)
  (* 965-975 *)
  | St_try_catch_finally body param handler finalizer =>
    keyword_ Fk_Try ;; hold L_wrap_curly (fmt_statements body) ;;
    keyword_ Fk_Catch ;; fmt_option fmt_catch_param param ;; hold L_wrap_curly (fmt_statements handler) ;;
    keyword_ Fk_Finally ;; hold L_wrap_curly (fmt_statements finalizer)
  (* 994-1002 *)
  | St_try_finally body finalizer =>
    keyword_ Fk_Try ;; hold L_wrap_curly (fmt_statements body) ;; keyword_ Fk_Finally ;; hold L_wrap_curly (fmt_statements finalizer)
  | St_continue label => fmt_jump Fk_Continue label
  | St_break label => fmt_jump Fk_Break label
  (* 1088-1095, 1102-1108 *)
  | St_return value =>
    keyword_ Fk_Return ;; fmt_option (fun e => hold (L_require_precedence Pr_Normal) (fmt_expression e)) value ;; punct_ Fp_Semicolon
  | St_debugger => keyword_ Fk_Debugger ;; punct_ Fp_Semicolon                 (* 1116-1122 *)
  end
(** display.rs:419-425 [node_list]. *)
with fmt_statements (l : statements) : uses :=
  match l with No_statements => Done | Cons_statement s rest => fmt_statement s ;; fmt_statements rest end
with fmt_clauses (l : clauses) : uses :=
  match l with
  | No_clauses => Done
  (* 811-821 *)
  | Cons_clause (Some test) consequent rest =>
    (keyword_ Fk_Case ;; hold (L_require_precedence Pr_Normal) (fmt_expression test) ;; punct_ Fp_Colon ;; fmt_statements consequent) ;;
    fmt_clauses rest
  (* 830-839 *)
  | Cons_clause None consequent rest =>
    (keyword_ Fk_Default ;; punct_ Fp_Colon ;; fmt_statements consequent) ;; fmt_clauses rest
  end.

(** root.rs:17-25 [Script], functions.rs:21-27 and 51-57 [Directive]. *)
Definition fmt_whole_script (directives : list bytes) (body : statements) : uses :=
  hold L_allow_in
    (fold_right (fun d k => print_ (P_string d (Some d)) ;; punct_ Fp_Semicolon ;; k) Done directives ;;
     fmt_statements body).
