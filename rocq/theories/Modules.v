(** Model of the nodes of syntax trees for modules and of what they ask the formatter to
    print: src/ast/modules.rs, [Module] of root.rs and the function declarations of functions.rs.
    As in Statements.v, positions, comments and blanks recorded in the nodes are left out. Left
    out as well are classes, decorators of parameters and destructuring, and functions are
    items of a module only: there are none in statements and expressions. *)
From Coq Require Import String List NArith Bool.
From Verif Require Import Base Formatter Nodes Statements.
Import ListNotations.

(** modules.rs:48-51 [ImportSpecifier], 519-522 [LocalExportSpecifier], 607-610
    [SourceExportSpecifier]: a name or two. What stands behind [as] is the local name in the
    first and the exported one in the others. *)
Inductive specifier : Set :=
| Normal_specifier (name : identifier)              (* 53-55, 524-526, 612-614 *)
| Aliased_specifier (name alias : identifier).      (* 71-75, 541-544, 629-632 *)

(** functions.rs:78-83 [FunctionKind]. *)
Inductive function_kind : Set := Fn_normal | Fn_generator | Fn_async | Fn_async_generator.
(** functions.rs:206-209 [FunctionLastParam], 239-241 [FunctionRestParam]. A [FunctionParam]
    (212-216) has the fields of a declarator: a name and perhaps an initializer. *)
Inductive last_param : Set := Last_param (d : declarator) | Rest_param (x : identifier).
(** The fields [params] (functions.rs:114-117) and [body] (252-255) of functions. *)
Inductive function_parts : Set :=
| Function_parts (params : list declarator) (last : option last_param) (directives : list bytes) (body : statements).

(** alias.rs:29-83 [enum ModuleStatementItem], without classes. A [source] is a
    [literal::String]: the fields [value] and [raw]. *)
Definition source_string : Set := bytes * option bytes.
Inductive module_item : Set :=
| Mi_statement (s : statement)                                                                                   (* 30-58 *)
| Mi_import_named (default : identifier) (source : source_string)                                                (* modules.rs:85-90 *)
| Mi_import_named_and_namespace (default namespace : identifier) (source : source_string)                        (* 121-126 *)
| Mi_import_namespace (namespace : identifier) (source : source_string)                                          (* 162-166 *)
| Mi_import_named_and_specifiers (default : identifier) (specifiers : list specifier) (last : option specifier)
    (source : source_string)                                                                                     (* 200-206 *)
| Mi_import_specifiers (specifiers : list specifier) (last : specifier) (source : source_string)                 (* 266-271 *)
| Mi_export_default (e : expression)                                                                             (* 328-332 *)
| Mi_export_declaration (kind : declaring) (declarators : list declarator) (last : declarator)                   (* 422-425, 436-439, 450-453 *)
| Mi_export_local (specifiers : list specifier) (last : option specifier)                                        (* 465-471 *)
| Mi_export_source (specifiers : list specifier) (last : option specifier) (source : source_string)              (* 556-564 *)
| Mi_export_all (source : source_string)                                                                         (* 643-648 *)
| Mi_export_named (default : identifier) (source : source_string)                                                (* 677-682 *)
| Mi_export_named_and_namespace (default namespace : identifier) (source : source_string)                        (* 712-719 *)
| Mi_export_namespace (namespace : identifier) (source : source_string)                                          (* 737-743 *)
| Mi_export_named_and_specifiers (default : identifier) (specifiers : list specifier) (last : option specifier)
    (source : source_string)                                                                                     (* 777-787 *)
| Mi_function (kind : function_kind) (name : identifier) (f : function_parts)                                    (* functions.rs:324-329 *)
| Mi_export_function (kind : function_kind) (name : identifier) (f : function_parts)                             (* modules.rs:408-411 *)
| Mi_export_default_function (kind : function_kind) (name : option identifier) (f : function_parts).             (* functions.rs:279-284 *)

(** modules.rs:56-60 and 76-82, 527-531 and 545-551, 615-619 and 633-639. *)
Definition fmt_specifier (x : specifier) : uses :=
  match x with
  | Normal_specifier name => fmt_identifier_node name
  | Aliased_specifier name alias => fmt_identifier_node name ;; keyword_ Fk_As ;; fmt_identifier_node alias
  end.
(** modules.rs:212-216, 275-279, 475-479, 569-573, 793-797 with display.rs:408-417 [comma_list]. *)
Definition fmt_specifiers (l : list specifier) (last : option specifier) : uses :=
  hold L_wrap_curly
    (hold (L_require_precedence Pr_Assignment) (fold_right (fun x k => fmt_specifier x ;; punct_ Fp_Comma ;; k) Done l) ;;
     fmt_option fmt_specifier last).
(** The end of these nodes: [from], the source and a semicolon; modules.rs:95-98, 135-138,
    173-176, 217-220, 280-283, 575-578, 653-656, 687-690, 727-730, 749-752, 798-801. *)
Definition fmt_from (source : source_string) : uses :=
  keyword_ Fk_From ;; print_ (P_string (fst source) (snd source)) ;; punct_ Fp_Semicolon.
(** modules.rs:132-134, 170-172, 724-726, 746-748. *)
Definition fmt_namespace (x : identifier) : uses := punct_ Fp_Star ;; keyword_ Fk_As ;; fmt_identifier_node x.
(** functions.rs:89-111. *)
Definition fmt_function_kind (k : function_kind) : uses :=
  match k with
  | Fn_normal => keyword_ Fk_Function
  | Fn_generator => keyword_ Fk_Function ;; punct_ Fp_Star
  | Fn_async => keyword_ Fk_Async ;; keyword_ Fk_Function
  | Fn_async_generator => keyword_ Fk_Async ;; keyword_ Fk_Function ;; punct_ Fp_Star
  end.
(** functions.rs:217-226 and 242-249. *)
Definition fmt_last_param (x : last_param) : uses :=
  match x with Last_param d => fmt_declarator d | Rest_param x => punct_ Fp_Ellipsis ;; fmt_identifier_node x end.
(** functions.rs:21-27 and 51-57 [Directive]. *)
Definition fmt_directives (directives : list bytes) : uses :=
  fold_right (fun d k => print_ (P_string d (Some d)) ;; punct_ Fp_Semicolon ;; k) Done directives.
(** functions.rs:118-125 [FunctionParams], 256-265 [FunctionBody]. *)
Definition fmt_function (f : function_parts) : uses :=
  match f with
  | Function_parts params last directives body =>
    hold L_wrap_parens
      (hold (L_require_precedence Pr_Assignment) (fold_right (fun d k => fmt_declarator d ;; punct_ Fp_Comma ;; k) Done params) ;;
       fmt_option fmt_last_param last) ;;
    hold L_wrap_curly (fmt_directives directives ;; fmt_statements body)
  end.

Definition fmt_module_item (i : module_item) : uses :=
  match i with
  | Mi_statement s => fmt_statement s
  (* 91-100 *)
  | Mi_import_named default source => keyword_ Fk_Import ;; fmt_identifier_node default ;; fmt_from source
  (* 127-140 *)
  | Mi_import_named_and_namespace default namespace source =>
    keyword_ Fk_Import ;; fmt_identifier_node default ;; punct_ Fp_Comma ;; fmt_namespace namespace ;; fmt_from source
  (* 167-178 *)
  | Mi_import_namespace namespace source => keyword_ Fk_Import ;; fmt_namespace namespace ;; fmt_from source
  (* 207-222 *)
  | Mi_import_named_and_specifiers default l last source =>
    keyword_ Fk_Import ;; fmt_identifier_node default ;; punct_ Fp_Comma ;; fmt_specifiers l last ;; fmt_from source
  (* 272-285 *)
  | Mi_import_specifiers l last source => keyword_ Fk_Import ;; fmt_specifiers l (Some last) ;; fmt_from source
  (* 333-348 *)
  | Mi_export_default e =>
    keyword_ Fk_Export ;; keyword_ Fk_Default ;;
    hold (L_restrict_lookahead R_ExportDefault) (hold (L_require_precedence Pr_Assignment) (fmt_expression e)) ;; punct_ Fp_Semicolon
  (* 426-432, 440-446, 454-460 *)
  | Mi_export_declaration kind ds last => keyword_ Fk_Export ;; fmt_declaration kind ds last
  (* 472-483 *)
  | Mi_export_local l last => keyword_ Fk_Export ;; fmt_specifiers l last ;; punct_ Fp_Semicolon
  (* 565-580 *)
  | Mi_export_source l last source => keyword_ Fk_Export ;; fmt_specifiers l last ;; fmt_from source
  (* 649-658 *)
  | Mi_export_all source => keyword_ Fk_Export ;; punct_ Fp_Star ;; fmt_from source
  (* 683-692 *)
  | Mi_export_named default source => keyword_ Fk_Export ;; fmt_identifier_node default ;; fmt_from source
  (* 720-733 *)
  | Mi_export_named_and_namespace default namespace source =>
    keyword_ Fk_Export ;; fmt_identifier_node default ;; punct_ Fp_Comma ;; fmt_namespace namespace ;; fmt_from source
  (* 744-755 *)
  | Mi_export_namespace namespace source => keyword_ Fk_Export ;; fmt_namespace namespace ;; fmt_from source
  (* 788-803 *)
  | Mi_export_named_and_specifiers default l last source =>
    keyword_ Fk_Export ;; fmt_identifier_node default ;; punct_ Fp_Comma ;; fmt_specifiers l last ;; fmt_from source
  (* functions.rs:330-337 *)
  | Mi_function kind name f => fmt_function_kind kind ;; fmt_identifier_node name ;; fmt_function f
  (* modules.rs:412-418 *)
  | Mi_export_function kind name f => keyword_ Fk_Export ;; fmt_function_kind kind ;; fmt_identifier_node name ;; fmt_function f
  (* functions.rs:285-294 *)
  | Mi_export_default_function kind name f =>
    keyword_ Fk_Export ;; keyword_ Fk_Default ;; fmt_function_kind kind ;; fmt_option fmt_identifier_node name ;; fmt_function f
  end.

(** root.rs:52-64 [Module]. *)
Definition fmt_module (directives : list bytes) (body : list module_item) : uses :=
  hold L_allow_in (fmt_directives directives ;; fold_right (fun i k => fmt_module_item i ;; k) Done body).
