(** Model of the JSX nodes, src/ast/jsx.rs. Simplified: the expressions in them are those of
    Nodes.v; nodes have no positions. [P_verbatim] stands for [jsx_identifier] and [jsx_text]
    (Formatter.v). *)
From Coq Require Import String List NArith Bool.
From Verif Require Import Base Formatter Nodes.
Import ListNotations.

(** jsx.rs:166-175 [Identifier]: the value and the raw text. *)
Definition identifier : Set := bytes * option bytes.
Definition fmt_jsx_identifier (i : identifier) : uses := print_ (P_verbatim (fst i) (snd i)).

(** jsx.rs:194-209 [MemberExpression], [MemberObject]. *)
Inductive jobject : Set := O_identifier (i : identifier) | O_member (o : jobject) (i : identifier).
Fixpoint fmt_object (o : jobject) : uses :=
  match o with
  | O_identifier i => fmt_jsx_identifier i
  | O_member o i => fmt_object o ;; punct_ Fp_Period ;; fmt_jsx_identifier i   (* 199-203 *)
  end.
(** jsx.rs:187-191 [ElementName]; 212-222 [NamespacedName]. *)
Inductive element_name : Set :=
| N_identifier (i : identifier)
| N_member (o : jobject) (i : identifier)
| N_namespaced (namespace name : identifier).
Definition fmt_element_name (n : element_name) : uses :=
  match n with
  | N_identifier i => fmt_jsx_identifier i
  | N_member o i => fmt_object (O_member o i)
  | N_namespaced i j => fmt_jsx_identifier i ;; punct_ Fp_Colon ;; fmt_jsx_identifier j
  end.
(** jsx.rs:320-323 [AttributeName]. *)
Inductive attribute_name : Set := AN_identifier (i : identifier) | AN_namespaced (namespace name : identifier).
Definition fmt_attribute_name (n : attribute_name) : uses :=
  match n with
  | AN_identifier i => fmt_jsx_identifier i
  | AN_namespaced i j => fmt_jsx_identifier i ;; punct_ Fp_Colon ;; fmt_jsx_identifier j
  end.

(** jsx.rs:9-14 [Element]. *)
Inductive element : Set :=
| Element (opening : element_name) (a : attributes) (c : children) (closing : option element_name)
(** [Vec<Attribute>], jsx.rs:225-228. *)
with attributes : Set :=
| No_attributes
| Spread_attribute (e : expression) (rest : attributes)                            (* 326-328 *)
| Pair_attribute (n : attribute_name) (v : attribute_value) (rest : attributes)    (* 342-345 *)
(** [Option<AttributeValue>], jsx.rs:358-362. *)
with attribute_value : Set :=
| V_none
| V_string (value : bytes) (raw : option bytes)     (* 376-380 *)
| V_expression (e : expression)                     (* 365-368 *)
| V_element (e : element)
(** [Vec<Child>], jsx.rs:397-403. *)
with children : Set :=
| No_children
| C_empty (rest : children)                                           (* 530 *)
| C_text (value : bytes) (raw : option bytes) (rest : children)       (* 538-543 *)
| C_element (e : element) (rest : children)
| C_expression (e : expression) (rest : children)                     (* 500-502 *)
| C_spread (e : expression) (rest : children).                        (* 515-517 *)

(** jsx.rs:329-339, 518-528: the bodies are the same. *)
Definition fmt_spread (e : expression) : uses :=
  hold L_wrap_curly (punct_ Fp_Ellipsis ;; hold (L_require_precedence Pr_Assignment) (fmt_expression e)).
(** jsx.rs:15-47 [fmt] of [Element]; display.rs:419-425 [node_list]. *)
Fixpoint fmt_element (e : element) : uses :=
  match e with
  | Element opening a c closing =>
    punct_ Fp_AngleL ;; fmt_element_name opening ;; fmt_attributes a ;;
    match c with
    | No_children =>                                                    (* 34-43 *)
      match closing with
      | Some close => punct_ Fp_AngleR ;; punct_ Fp_AngleSlash ;; fmt_element_name close ;; punct_ Fp_AngleR
      | None => punct_ Fp_SlashAngle
      end
    | _ =>                                                              (* 22-33 *)
      punct_ Fp_AngleR ;; fmt_children c ;; punct_ Fp_AngleSlash ;;
      fmt_element_name match closing with Some close => close | None => opening end ;; punct_ Fp_AngleR
    end
  end
with fmt_attributes (a : attributes) : uses :=
  match a with
  | No_attributes => Done
  | Spread_attribute e rest => fmt_spread e ;; fmt_attributes rest
  (* 346-355 *)
  | Pair_attribute n v rest =>
    (fmt_attribute_name n ;; match v with V_none => Done | _ => punct_ Fp_Eq ;; fmt_attribute_value v end) ;; fmt_attributes rest
  end
with fmt_attribute_value (v : attribute_value) : uses :=
  match v with
  | V_none => Done
  | V_string value raw => print_ (P_jsx_string value raw)               (* 381-385 *)
  | V_expression e => hold L_wrap_curly (fmt_expression e)              (* 369-373 *)
  | V_element e => fmt_element e
  end
with fmt_children (c : children) : uses :=
  match c with
  | No_children => Done
  | C_empty rest => hold L_wrap_curly Done ;; fmt_children rest         (* 531-536 *)
  | C_text value raw rest => print_ (P_verbatim value None) ;; fmt_children rest   (* 544-548 *)
  | C_element e rest => fmt_element e ;; fmt_children rest
  | C_expression e rest =>                                              (* 503-512 *)
    hold L_wrap_curly (hold (L_require_precedence Pr_Assignment) (fmt_expression e)) ;; fmt_children rest
  | C_spread e rest => fmt_spread e ;; fmt_children rest
  end.
