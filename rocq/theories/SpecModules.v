(** Specification of displayed modules: which of them are displayed as modules of the language. *)
From Coq Require Import String List NArith Bool.
From Verif Require Import Base SpecTokens SpecHints Formatter SpecFormatter Nodes SpecNodes Statements SpecStatements Modules.
Import ListNotations.

(** What is imported and exported can have any name, also a word of the language. *)
Definition any_name (x : identifier) : Prop := identifier_name (given (fst x) (snd x)).
Definition specifier_formed (x : specifier) : Prop :=
  match x with Normal_specifier x => any_name x | Aliased_specifier x y => any_name x /\ any_name y end.
Definition source_formed (x : source_string) : Prop := directive (given (fst x) (snd x)).

(** Neither [async] functions nor, by [declared], destructured parameters. *)
Definition last_param_formed (x : last_param) : Prop :=
  match x with Last_param d => declared D_var d | Rest_param x => named x end.
Definition function_formed (kind : function_kind) (f : function_parts) : Prop :=
  (kind = Fn_normal \/ kind = Fn_generator) /\
  match f with
  | Function_parts params last directives body =>
    Forall (declared D_var) params /\ optional last_param_formed last /\ formed_script directives body
  end.

(** An exported declaration is the last item or has an empty statement behind it; there is
    no [export x from], [export * as x from], [export x, ... from] and [export function]; what ends in a thrown expression is at the end. *)
Fixpoint formed_items (l : list module_item) : Prop :=
  match l with
  | [] => True
  | i :: rest =>
    match i with
    | Mi_statement s => formed s /\ (ends_throwing false s = true -> rest = [])
    | Mi_import_named default source => named default /\ source_formed source
    | Mi_import_named_and_namespace default namespace source => named default /\ named namespace /\ source_formed source
    | Mi_import_namespace namespace source => named namespace /\ source_formed source
    | Mi_import_named_and_specifiers default l last source =>
      named default /\ Forall specifier_formed l /\ optional specifier_formed last /\ source_formed source
    | Mi_import_specifiers l last source => Forall specifier_formed l /\ specifier_formed last /\ source_formed source
    | Mi_export_default e => well_formed e
    | Mi_export_declaration kind ds last =>
      Forall (declared kind) ds /\ declared kind last /\ (rest = [] \/ exists rest', rest = Mi_statement St_empty :: rest')
    | Mi_export_local l last => Forall specifier_formed l /\ optional specifier_formed last
    | Mi_export_source l last source => Forall specifier_formed l /\ optional specifier_formed last /\ source_formed source
    | Mi_export_all source => source_formed source
    | Mi_export_named _ _ | Mi_export_named_and_namespace _ _ _ | Mi_export_namespace _ _
    | Mi_export_named_and_specifiers _ _ _ _ | Mi_export_function _ _ _ => False
    | Mi_function kind name f => named name /\ function_formed kind f
    | Mi_export_default_function kind name f => optional named name /\ function_formed kind f
    end /\ formed_items rest
  end.
Definition formed_module (directives : list bytes) (body : list module_item) : Prop :=
  Forall directive directives /\ formed_items body.
