(** Specification of JSX texts: the texts for a tree, after the JSX extension of ECMAScript,
    with blanks between attributes only. *)
From Coq Require Import String List NArith Bool.
From Verif Require Import Base Tokens SpecTokens SpecHints SpecTrivia SpecStream Formatter SpecFormatter Nodes SpecNodes SpecFaithful SpecPhrases Jsx.
Import ListNotations.

(** The text consists of the tokens of an assignment expression for [e]. *)
Definition assignment_text (e : expression) (t : bytes) : Prop :=
  exists l, phrase Assignment_ e l /\
    forall checks, exists ps, map word_token ps = map (fun t => (false, t)) l ++ [(false, TEOF)] /\ printed checks [] ps t.

(** A name with letters, digits, [$], [_] and, not in front, dashes. *)
Definition jsx_name (i : identifier) (t : bytes) : Prop :=
  t = given (fst i) (snd i) /\
  exists c w, t = c :: w /\ ident_char c /\ ~ digit c /\ Forall (fun c => ident_char c \/ c = 45%N) w.
Inductive object_text : jobject -> bytes -> Prop :=
| ot_name i t : jsx_name i t -> object_text (O_identifier i) t
| ot_member o i t u : object_text o t -> jsx_name i u -> object_text (O_member o i) (t ++ s2b "." ++ u).
Inductive name_text : element_name -> bytes -> Prop :=
| nm_name i t : jsx_name i t -> name_text (N_identifier i) t
| nm_member o i t : object_text (O_member o i) t -> name_text (N_member o i) t
| nm_namespaced i j t u : jsx_name i t -> jsx_name j u -> name_text (N_namespaced i j) (t ++ s2b ":" ++ u).
Inductive attribute_name_text : attribute_name -> bytes -> Prop :=
| an_name i t : jsx_name i t -> attribute_name_text (AN_identifier i) t
| an_namespaced i j t u : jsx_name i t -> jsx_name j u -> attribute_name_text (AN_namespaced i j) (t ++ s2b ":" ++ u).

(** Bytes that end a text between elements. *)
Definition delimiter (c : N) : Prop := In c (s2b "{}<>").

Inductive element_text : element -> bytes -> Prop :=
(** [<name attributes/>] *)
| el_empty n t a u : name_text n t -> attributes_text true a u ->
    element_text (Element n a No_children None) (s2b "<" ++ t ++ u ++ s2b "/>")
(** [<name attributes>children</name>], with the same name *)
| el_pair n t a u c v closing : name_text n t -> attributes_text true a u -> children_text false c v ->
    (forall m, closing = Some m -> name_text m t) ->
    element_text (Element n a c closing) (s2b "<" ++ t ++ u ++ s2b ">" ++ v ++ s2b "</" ++ t ++ s2b ">")
(** [attributes_text b]: if [b], a name stands right before, which another one would continue. *)
with attributes_text : bool -> attributes -> bytes -> Prop :=
| at_nil b : attributes_text b No_attributes []
| at_blank b a t : attributes_text false a t -> attributes_text b a (s2b " " ++ t)
| at_spread b e t a u : assignment_text e t -> attributes_text false a u ->
    attributes_text b (Spread_attribute e a) (s2b "{..." ++ t ++ s2b "}" ++ u)
| at_name n t a u : attribute_name_text n t -> attributes_text true a u -> attributes_text false (Pair_attribute n V_none a) (t ++ u)
| at_pair n t v u a w : attribute_name_text n t -> value_text v u -> attributes_text false a w ->
    attributes_text false (Pair_attribute n v a) (t ++ s2b "=" ++ u ++ w)
with value_text : attribute_value -> bytes -> Prop :=
| vt_string value raw : ~ In 39%N (given value raw) -> value_text (V_string value raw) (s2b "'" ++ given value raw ++ s2b "'")
| vt_expression e t : assignment_text e t -> value_text (V_expression e) (s2b "{" ++ t ++ s2b "}")
| vt_element e t : element_text e t -> value_text (V_element e) t
(** [children_text b]: if [b], a text stands right before. *)
with children_text : bool -> children -> bytes -> Prop :=
| ct_nil b : children_text b No_children []
| ct_empty b c t : children_text false c t -> children_text b (C_empty c) (s2b "{}" ++ t)
| ct_text value raw c t : given value raw <> [] -> Forall (fun c => ~ delimiter c) (given value raw) -> children_text true c t ->
    children_text false (C_text value raw c) (given value raw ++ t)
| ct_element b e t c u : element_text e t -> children_text false c u -> children_text b (C_element e c) (t ++ u)
| ct_expression b e t c u : assignment_text e t -> children_text false c u ->
    children_text b (C_expression e c) (s2b "{" ++ t ++ s2b "}" ++ u)
| ct_spread b e t c u : assignment_text e t -> children_text false c u ->
    children_text b (C_spread e c) (s2b "{..." ++ t ++ s2b "}" ++ u).

(** ** Trees that have such a text and are displayed as it *)
Definition formed_name (i : identifier) : Prop := jsx_name i (given (fst i) (snd i)).
Fixpoint formed_object (o : jobject) : Prop :=
  match o with O_identifier i => formed_name i | O_member o i => formed_object o /\ formed_name i end.
Definition formed_element_name (n : element_name) : Prop :=
  match n with
  | N_identifier i => formed_name i
  | N_member o i => formed_object o /\ formed_name i
  | N_namespaced i j => formed_name i /\ formed_name j
  end.
Definition formed_attribute_name (n : attribute_name) : Prop :=
  match n with AN_identifier i => formed_name i | AN_namespaced i j => formed_name i /\ formed_name j end.
Definition formed_expression (e : expression) : Prop := well_formed e /\ faithful e.
Definition sequence (e : expression) : bool := match e with E_sequence _ _ => true | _ => false end.
(** Names, expressions, strings and texts are such, no attribute with a name stands right
    behind a name, the value of an attribute is not a sequence, no two texts stand side by side
    and their raw texts are not different, and a closing tag is as the opening one. *)
Fixpoint formed_element (e : element) : Prop :=
  match e with
  | Element n a c closing =>
    formed_element_name n /\ formed_attributes true a /\ formed_children false c /\
    match closing with Some m => m = n | None => True end
  end
with formed_attributes (b : bool) (a : attributes) : Prop :=
  match a with
  | No_attributes => True
  | Spread_attribute e a => formed_expression e /\ formed_attributes false a
  | Pair_attribute n v a =>
    b = false /\ formed_attribute_name n /\ formed_value v /\ formed_attributes match v with V_none => true | _ => false end a
  end
with formed_value (v : attribute_value) : Prop :=
  match v with
  | V_none => True
  | V_string value raw => ~ In 39%N (given value raw)
  | V_expression e => formed_expression e /\ sequence e = false
  | V_element e => formed_element e
  end
with formed_children (b : bool) (c : children) : Prop :=
  match c with
  | No_children => True
  | C_empty c => formed_children false c
  | C_text value raw c =>
    b = false /\ value <> [] /\ Forall (fun c => ~ delimiter c) value /\ given value raw = value /\ formed_children true c
  | C_element e c => formed_element e /\ formed_children false c
  | C_expression e c | C_spread e c => formed_expression e /\ formed_children false c
  end.
