(** Model of binding patterns, src/ast/patterns.rs:246-443, and of declarations with them.
    Simplified as in Nodes.v: the expressions are those of Nodes.v, and positions, comments and
    blanks recorded in the nodes are left out. *)
From Coq Require Import String List NArith Bool.
From Verif Require Import Base Formatter Nodes Statements.
Import ListNotations.

(** general.rs:101-110 [PropertyName], [ComputedPropertyName]. *)
Inductive property_name : Set :=
| Pn_identifier (value : bytes) (raw : option bytes)
| Pn_string (value : bytes) (raw : option bytes)
| Pn_number (s : bytes)
| Pn_computed (e : expression).
(** general.rs:85-89, 111-121; literal.rs:66-70, 100-104. *)
Definition fmt_property_name (n : property_name) : uses :=
  match n with
  | Pn_identifier value raw => print_ (P_identifier value raw)
  | Pn_string value raw => print_ (P_string value raw)
  | Pn_number s => print_ (P_number s)
  | Pn_computed e => hold L_wrap_square (hold (L_require_precedence Pr_Assignment) (fmt_expression e))
  end.

(** patterns.rs:247-251 [BindingPattern]. [Option<general::Initializer>] is an optional expression. *)
Inductive pattern : Set :=
| Pt_name (id : identifier)
| Pt_object (properties : pattern_properties) (last : last_property)       (* 255-258 *)
| Pt_array (items : pattern_elements) (last : last_element)                (* 372-375 *)
(** 305-308 [Vec<(ObjectBindingPatternProperty, KeywordData)>] *)
with pattern_properties : Set := No_properties | Cons_property (p : pattern_property) (rest : pattern_properties)
(** 331-334 [ObjectBindingPatternIdentifierProperty], 354-358 [ObjectBindingPatternPatternProperty] *)
with pattern_property : Set :=
| Pp_name (id : identifier) (init : option expression)
| Pp_pattern (name : property_name) (p : pattern) (init : option expression)
(** 309-313 [Option<ObjectBindingPatternLastProperty>], 316-322 *)
with last_property : Set := No_last_property | Last_property (p : pattern_property) | Rest_property (id : identifier)
(** The items, which are optional. Simplified: the pair of an element and the data of its
    comma is optional in the code ([Vec<Option<(..)>>]), which [comma_list] does not take; as
    in [ArrayAssignmentPattern], the element alone is optional here. *)
with pattern_elements : Set := No_elements | Cons_hole (rest : pattern_elements) | Cons_element (e : pattern_element) (rest : pattern_elements)
(** 433-436 [ArrayBindingPatternElement] *)
with pattern_element : Set := Pattern_element (p : pattern) (init : option expression)
(** 415-418 [Option<ArrayBindingPatternLastElement>], 421-424 *)
with last_element : Set := No_last_element | Last_element (e : pattern_element) | Rest_element (p : pattern).

(** The functions [fmt] of these nodes: patterns.rs:259-266, 323-328, 335-342, 359-368, 376-383,
    425-430, 437-444; display.rs:408-417 [comma_list]. *)
Fixpoint fmt_pattern (p : pattern) : uses :=
  match p with
  | Pt_name id => fmt_identifier_node id
  | Pt_object ps last =>
    hold L_wrap_curly (hold (L_require_precedence Pr_Assignment) (fmt_properties ps) ;; fmt_last_property last)
  | Pt_array es last =>
    hold L_wrap_square (hold (L_require_precedence Pr_Assignment) (fmt_elements es) ;; fmt_last_element last)
  end
with fmt_properties (ps : pattern_properties) : uses :=
  match ps with No_properties => Done | Cons_property p rest => fmt_property p ;; punct_ Fp_Comma ;; fmt_properties rest end
with fmt_property (p : pattern_property) : uses :=
  match p with
  | Pp_name id init => fmt_identifier_node id ;; fmt_option fmt_initializer init
  | Pp_pattern name p init => fmt_property_name name ;; punct_ Fp_Colon ;; fmt_pattern p ;; fmt_option fmt_initializer init
  end
with fmt_last_property (l : last_property) : uses :=
  match l with
  | No_last_property => Done
  | Last_property p => fmt_property p
  | Rest_property id => punct_ Fp_Ellipsis ;; fmt_identifier_node id
  end
with fmt_elements (es : pattern_elements) : uses :=
  match es with
  | No_elements => Done
  | Cons_hole rest => punct_ Fp_Comma ;; fmt_elements rest
  | Cons_element e rest => fmt_element e ;; punct_ Fp_Comma ;; fmt_elements rest
  end
with fmt_element (e : pattern_element) : uses :=
  match e with Pattern_element p init => fmt_pattern p ;; fmt_option fmt_initializer init end
with fmt_last_element (l : last_element) : uses :=
  match l with
  | No_last_element => Done
  | Last_element e => fmt_element e
  | Rest_element p => punct_ Fp_Ellipsis ;; fmt_pattern p
  end.

(** statement.rs:62-87, 146-172, 176-202: a declaration of one pattern with an initializer. *)
Definition fmt_binding (d : declaring * pattern * expression) : uses :=
  let '(kind, p, e) := d in
  keyword_ (declaring_keyword kind) ;;
  hold (L_require_precedence Pr_Assignment) Done ;;
  (fmt_pattern p ;; fmt_initializer e) ;;
  punct_ Fp_Semicolon.
(** root.rs:14-29 [Script], with such declarations and without directives. *)
Definition fmt_bindings (l : list (declaring * pattern * expression)) : uses :=
  hold L_allow_in (fold_right (fun d k => fmt_binding d ;; k) Done l).
