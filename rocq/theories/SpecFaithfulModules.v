(** Specification of the modules that are displayed faithfully, as SpecFaithful.v does it for scripts. *)
From Coq Require Import String List NArith Bool.
From Verif Require Import Base Formatter Nodes Statements SpecStatements SpecFaithful Modules.
Import ListNotations.

(** No raw texts. *)
Definition faithful_specifier (x : specifier) : Prop :=
  match x with Normal_specifier x => unraw x | Aliased_specifier x y => unraw x /\ unraw y end.
Definition faithful_function (f : function_parts) : Prop :=
  match f with
  | Function_parts params last _ body =>
    Forall faithful_declarator params /\
    optional (fun x => match x with Last_param d => faithful_declarator d | Rest_param x => unraw x end) last /\
    faithful_script body
  end.
Definition faithful_item (i : module_item) : Prop :=
  match i with
  | Mi_statement s => faithful_statement s
  | Mi_import_named x source | Mi_import_namespace x source | Mi_export_named x source | Mi_export_namespace x source =>
    unraw x /\ snd source = None
  | Mi_import_named_and_namespace x y source | Mi_export_named_and_namespace x y source => unraw x /\ unraw y /\ snd source = None
  | Mi_import_named_and_specifiers x l last source | Mi_export_named_and_specifiers x l last source =>
    unraw x /\ Forall faithful_specifier l /\ optional faithful_specifier last /\ snd source = None
  | Mi_import_specifiers l last source => Forall faithful_specifier l /\ faithful_specifier last /\ snd source = None
  | Mi_export_default e => faithful e
  | Mi_export_declaration _ ds last => Forall faithful_declarator ds /\ faithful_declarator last
  | Mi_export_local l last => Forall faithful_specifier l /\ optional faithful_specifier last
  | Mi_export_source l last source => Forall faithful_specifier l /\ optional faithful_specifier last /\ snd source = None
  | Mi_export_all source => snd source = None
  | Mi_function _ x f | Mi_export_function _ x f => unraw x /\ faithful_function f
  | Mi_export_default_function _ x f => optional unraw x /\ faithful_function f
  end.
(** The first item is not a string, which would be a directive. *)
Definition faithful_module (body : list module_item) : Prop :=
  Forall faithful_item body /\
  match body with Mi_statement (St_expression (E_string _ _)) :: _ => False | _ => True end.

(** The module with its braces. *)
Definition braced_function (f : function_parts) : function_parts :=
  match f with Function_parts params last directives body => Function_parts params last directives (braced_list body) end.
Definition braced_item (i : module_item) : module_item :=
  match i with
  | Mi_statement s => Mi_statement (braced false s)
  | Mi_function kind x f => Mi_function kind x (braced_function f)
  | Mi_export_function kind x f => Mi_export_function kind x (braced_function f)
  | Mi_export_default_function kind x f => Mi_export_default_function kind x (braced_function f)
  | _ => i
  end.
