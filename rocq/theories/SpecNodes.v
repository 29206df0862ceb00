(** Specification of displayed expressions: which trees of expressions are displayed as
    expressions of the language. *)
From Coq Require Import String List NArith Bool.
From Verif Require Import Base SpecTokens SpecHints Formatter SpecFormatter Nodes.
Import ListNotations.

(** A name, and a name that can be a variable wherever it stands. *)
Definition identifier_name (w : bytes) : Prop :=
  exists c w', w = c :: w' /\ ident_char c /\ ~ digit c /\ Forall ident_char w'.
Definition variable (w : bytes) : Prop := identifier_name w /\ plain w = true /\ w <> s2b "async".

(** An integer; a period behind it would be taken for a part of it. *)
Definition integer (e : expression) : Prop := exists s, e = E_numeric s /\ ~ In 46%N s.

Definition spread (a : argument) : bool := match a with Arg_spread _ => true | Arg_expression _ => false end.
(** No two of the arguments, where [b] tells whether one that is spread precedes, are spread in a row. *)
Fixpoint no_spreads_in_a_row (b : bool) (l : arg_list) (last : last_arg) : Prop :=
  match l, last with
  | Cons_arg a l', _ => (b && spread a = false) /\ no_spreads_in_a_row (spread a) l' last
  | No_args, Last a => b && spread a = false
  | No_args, No_last => True
  end.

(** Well-formed trees: names are names, and variables are not words of the language; numbers
    are positive and finite; strings contain no quote, backslash or line end except in
    escapes; no property of an integer is accessed with a period, no arguments are spread in
    a row (which the parser does not accept, C39); there are no regular expressions, private names and import calls. *)
Fixpoint well_formed (e : expression) : Prop :=
  match e with
  | E_binding value raw => variable (given value raw) /\ value <> s2b "let"
  | E_this | E_null | E_boolean _ => True
  | E_numeric s => number_text s
  | E_string value raw => utf8 (given value raw) /\ exists nl, string_text 39 false (given value raw) nl
  | E_regexp _ _ | E_import_call _ => False
  | E_member object property =>
    well_formed object /\ well_formed_access property /\
    match property with A_identifier _ _ => ~ integer object | _ => True end
  | E_super_member property => well_formed_access property
  | E_call callee args last | E_new callee args last =>
    well_formed callee /\ well_formed_args args /\ well_formed_last last /\ no_spreads_in_a_row false args last
  | E_super_call args last => well_formed_args args /\ well_formed_last last /\ no_spreads_in_a_row false args last
  | E_new_empty callee => well_formed callee
  | E_conditional test consequent alternate => well_formed test /\ well_formed consequent /\ well_formed alternate
  | E_sequence lhs rhs => well_formed lhs /\ well_formed rhs
  end
with well_formed_access (a : access) : Prop :=
  match a with
  | A_identifier value raw => identifier_name (given value raw)
  | A_computed e => well_formed e
  | A_private _ _ => False
  end
with well_formed_argument (a : argument) : Prop :=
  match a with Arg_expression e | Arg_spread e => well_formed e end
with well_formed_args (l : arg_list) : Prop :=
  match l with No_args => True | Cons_arg a rest => well_formed_argument a /\ well_formed_args rest end
with well_formed_last (l : last_arg) : Prop :=
  match l with No_last => True | Last a => well_formed_argument a end.
