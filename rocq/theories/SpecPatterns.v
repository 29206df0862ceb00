(** Specification of binding patterns: the grammar of ECMAScript, with the tree that each
    phrase stands for. *)
From Coq Require Import String List NArith Bool.
From Verif Require Import Base Tokens SpecTokens SpecHints Formatter SpecFormatter Nodes SpecNodes Statements SpecStatements SpecFaithful SpecPhrases Patterns.
Import ListNotations.

Definition in_squares (l : list token) : list token := mk SquareOpen :: l ++ [mk SquareClose].
Inductive names : property_name -> list token -> Prop :=
| nm_identifier w : names (Pn_identifier w None) [TIdent w]
| nm_string s : names (Pn_string s None) [TString s]
| nm_number s n : names (Pn_number s) [TNumeric n]            (* C42 says which number *)
| nm_computed e l : phrase Assignment_ e l -> names (Pn_computed e) (in_squares l).
Inductive initializes : option expression -> list token -> Prop :=
| in_none : initializes None []
| in_some e l : phrase Assignment_ e l -> initializes (Some e) (mk Eq_ :: l).
Inductive binds : pattern -> list token -> Prop :=
| bd_name w : binds (Pt_name (w, None)) [TIdent w]
| bd_object ps last l : binds_properties ps last l -> binds (Pt_object ps last) (in_braces l)
| bd_array es last l : binds_elements es last l -> binds (Pt_array es last) (in_squares l)
with binds_properties : pattern_properties -> last_property -> list token -> Prop :=
| bp_none : binds_properties No_properties No_last_property []
| bp_last p l : binds_property p l -> binds_properties No_properties (Last_property p) l
| bp_rest w : binds_properties No_properties (Rest_property (w, None)) [mk Ellipsis; TIdent w]
| bp_more p l ps last x : binds_property p l -> binds_properties ps last x -> binds_properties (Cons_property p ps) last (l ++ mk Comma :: x)
with binds_property : pattern_property -> list token -> Prop :=
| bq_name w init l : initializes init l -> binds_property (Pp_name (w, None) init) (TIdent w :: l)
| bq_pattern n ln p lp init l : names n ln -> binds p lp -> initializes init l -> binds_property (Pp_pattern n p init) (ln ++ mk Colon :: lp ++ l)
with binds_elements : pattern_elements -> last_element -> list token -> Prop :=
| be_none : binds_elements No_elements No_last_element []
| be_last e l : binds_element e l -> binds_elements No_elements (Last_element e) l
| be_rest p l : binds p l -> binds_elements No_elements (Rest_element p) (mk Ellipsis :: l)
| be_hole es last x : binds_elements es last x -> binds_elements (Cons_hole es) last (mk Comma :: x)
| be_more e l es last x : binds_element e l -> binds_elements es last x -> binds_elements (Cons_element e es) last (l ++ mk Comma :: x)
with binds_element : pattern_element -> list token -> Prop :=
| bm_element p lp init l : binds p lp -> initializes init l -> binds_element (Pattern_element p init) (lp ++ l).
Inductive binding : declaring * pattern * expression -> list token -> Prop :=
| bi_declaration d p l e x : binds p l -> phrase Assignment_ e x -> binding (d, p, e) (declares_with d :: l ++ mk Eq_ :: x ++ [mk Semicolon]).

(** ** Patterns that have such tokens: names, strings, numbers and expressions are such, and
    there are no raw texts *)
Definition bound_name (x : identifier) : Prop := named x /\ snd x = None.
Definition initial (e : expression) : Prop := well_formed e /\ faithful e.
Definition formed_property_name (n : property_name) : Prop :=
  match n with
  | Pn_identifier value raw => identifier_name value /\ raw = None
  | Pn_string value raw => raw = None /\ utf8 value /\ exists nl, string_text 39 false value nl
  | Pn_number s => number_text s
  | Pn_computed e => initial e
  end.
Fixpoint formed_pattern (p : pattern) : Prop :=
  match p with
  | Pt_name id => bound_name id
  | Pt_object ps last => formed_properties ps /\ formed_last_property last
  | Pt_array es last => formed_elements es /\ formed_last_element last
  end
with formed_properties (ps : pattern_properties) : Prop :=
  match ps with No_properties => True | Cons_property p rest => formed_property p /\ formed_properties rest end
with formed_property (p : pattern_property) : Prop :=
  match p with
  | Pp_name id init => bound_name id /\ optional initial init
  | Pp_pattern name p init => formed_property_name name /\ formed_pattern p /\ optional initial init
  end
with formed_last_property (l : last_property) : Prop :=
  match l with No_last_property => True | Last_property p => formed_property p | Rest_property id => bound_name id end
with formed_elements (es : pattern_elements) : Prop :=
  match es with No_elements => True | Cons_hole rest => formed_elements rest | Cons_element e rest => formed_element e /\ formed_elements rest end
with formed_element (e : pattern_element) : Prop :=
  match e with Pattern_element p init => formed_pattern p /\ optional initial init end
with formed_last_element (l : last_element) : Prop :=
  match l with No_last_element => True | Last_element e => formed_element e | Rest_element p => formed_pattern p end.
Definition formed_binding (d : declaring * pattern * expression) : Prop :=
  let '(_, p, e) := d in formed_pattern p /\ initial e.

(** The parser does not accept rests in object patterns. *)
Fixpoint restless (p : pattern) : Prop :=
  match p with
  | Pt_name _ => True
  | Pt_object ps last => restless_properties ps /\ match last with No_last_property => True | Last_property p => restless_property p | Rest_property _ => False end
  | Pt_array es last => restless_elements es /\ match last with No_last_element => True | Last_element e => restless_element e | Rest_element p => restless p end
  end
with restless_properties (ps : pattern_properties) : Prop :=
  match ps with No_properties => True | Cons_property p rest => restless_property p /\ restless_properties rest end
with restless_property (p : pattern_property) : Prop :=
  match p with Pp_name _ _ => True | Pp_pattern _ p _ => restless p end
with restless_elements (es : pattern_elements) : Prop :=
  match es with No_elements => True | Cons_hole rest => restless_elements rest | Cons_element e rest => restless_element e /\ restless_elements rest end
with restless_element (e : pattern_element) : Prop :=
  match e with Pattern_element p _ => restless p end.
Definition restless_binding (d : declaring * pattern * expression) : Prop := restless (snd (fst d)).
