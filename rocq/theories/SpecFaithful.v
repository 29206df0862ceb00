(** Specification of the trees that are displayed faithfully: those whose display shows what
    they are. C50 and C52 have trees that are not. *)
From Coq Require Import String List NArith Bool.
From Verif Require Import Base Formatter Nodes Statements SpecStatements.
Import ListNotations.

(** ** Expressions *)

(** A call, or properties of properties of one: put behind [new], its arguments are taken for
    those of [new]. *)
Fixpoint calls (e : expression) : bool :=
  match e with E_call _ _ _ | E_super_call _ _ => true | E_member o _ => calls o | _ => false end.
(** No raw texts; callees of [new] are no calls; what is called is no [new] without
    arguments; the last argument is no sequence. *)
Fixpoint faithful (e : expression) : Prop :=
  match e with
  | E_binding _ raw | E_string _ raw => raw = None
  | E_this | E_null | E_boolean _ | E_numeric _ | E_regexp _ _ => True
  | E_member object property => faithful object /\ faithful_access property
  | E_super_member property => faithful_access property
  | E_call callee args last =>
    (faithful callee /\ forall c, callee <> E_new_empty c) /\ faithful_args args /\ faithful_last last
  | E_new callee args last => (faithful callee /\ calls callee = false) /\ faithful_args args /\ faithful_last last
  | E_new_empty callee => faithful callee /\ calls callee = false
  | E_import_call argument => faithful argument
  | E_super_call args last => faithful_args args /\ faithful_last last
  | E_conditional test consequent alternate => faithful test /\ faithful consequent /\ faithful alternate
  | E_sequence lhs rhs => faithful lhs /\ faithful rhs
  end
with faithful_access (a : access) : Prop :=
  match a with A_identifier _ raw | A_private _ raw => raw = None | A_computed e => faithful e end
with faithful_argument (a : argument) : Prop :=
  match a with Arg_expression e | Arg_spread e => faithful e end
with faithful_args (l : arg_list) : Prop :=
  match l with No_args => True | Cons_arg a rest => faithful_argument a /\ faithful_args rest end
with faithful_last (l : last_arg) : Prop :=
  match l with
  | No_last => True
  | Last a => faithful_argument a /\ match a with Arg_expression e | Arg_spread e => sequence_ e = false end
  end.

(** ** Statements *)
Definition unraw (x : identifier) : Prop := snd x = None.
Definition faithful_declarator (d : declarator) : Prop :=
  match d with Declarator id init => unraw id /\ optional faithful init end.
Definition faithful_left (l : for_left) : Prop :=
  match l with
  | Left_declaration _ id init => unraw id /\ optional faithful init
  | Left_identifier id => unraw id
  | Left_member object property => faithful (E_member object property)
  end.
(** The expressions in the statements are, and there are no raw texts. *)
Fixpoint faithful_statement (s : statement) : Prop :=
  match s with
  | St_block body => faithful_statements body
  | St_declaration _ ds last => Forall faithful_declarator ds /\ faithful_declarator last
  | St_empty | St_debugger => True
  | St_expression e | St_throw e => faithful e
  | St_if test s | St_while test s | St_with test s => faithful test /\ faithful_statement s
  | St_if_else test c a => faithful test /\ faithful_statement c /\ faithful_statement a
  | St_for init test update body =>
    optional (fun i => match i with
      | Init_expression e => faithful e
      | Init_declaration _ ds last => Forall faithful_declarator ds /\ faithful_declarator last end) init /\
    optional faithful test /\ optional faithful update /\ faithful_statement body
  | St_for_in lhs rhs body | St_for_of lhs rhs body | St_for_await lhs rhs body =>
    faithful_left lhs /\ faithful rhs /\ faithful_statement body
  | St_do_while body test => faithful_statement body /\ faithful test
  | St_switch e cases => faithful e /\ faithful_clauses cases
  | St_labelled label body => unraw label /\ faithful_statement body
  | St_try_catch body param handler => faithful_statements body /\ optional unraw param /\ faithful_statements handler
  | St_try_catch_finally body param handler finalizer =>
    faithful_statements body /\ optional unraw param /\ faithful_statements handler /\ faithful_statements finalizer
  | St_try_finally body finalizer => faithful_statements body /\ faithful_statements finalizer
  | St_continue label | St_break label => optional unraw label
  | St_return value => optional faithful value
  end
with faithful_statements (l : statements) : Prop :=
  match l with No_statements => True | Cons_statement s rest => faithful_statement s /\ faithful_statements rest end
with faithful_clauses (l : clauses) : Prop :=
  match l with
  | No_clauses => True
  | Cons_clause test c rest => optional faithful test /\ faithful_statements c /\ faithful_clauses rest
  end.
(** The first statement is not a string, which would be a directive. *)
Definition faithful_script (body : statements) : Prop :=
  faithful_statements body /\
  match body with Cons_statement (St_expression (E_string _ _)) _ => False | _ => True end.

(** The tree with its braces: an [if] without [else] that an [else] follows is put in a block.
    [orphan]: an [else] follows. *)
Fixpoint braced (orphan : bool) (s : statement) : statement :=
  match s with
  | St_block body => St_block (braced_list body)
  | St_if test c =>
    let s := St_if test (braced false c) in
    if orphan then St_block (Cons_statement s No_statements) else s
  | St_if_else test c a => St_if_else test (braced true c) (braced orphan a)
  | St_for init test update body => St_for init test update (braced orphan body)
  | St_for_in lhs rhs body => St_for_in lhs rhs (braced orphan body)
  | St_for_of lhs rhs body => St_for_of lhs rhs (braced orphan body)
  | St_for_await lhs rhs body => St_for_await lhs rhs (braced orphan body)
  | St_while test body => St_while test (braced orphan body)
  | St_do_while body test => St_do_while (braced orphan body) test
  | St_switch e cases => St_switch e (braced_clauses cases)
  | St_with object body => St_with object (braced orphan body)
  | St_labelled label body => St_labelled label (braced orphan body)
  | St_try_catch body param handler => St_try_catch (braced_list body) param (braced_list handler)
  | St_try_catch_finally body param handler finalizer =>
    St_try_catch_finally (braced_list body) param (braced_list handler) (braced_list finalizer)
  | St_try_finally body finalizer => St_try_finally (braced_list body) (braced_list finalizer)
  | _ => s
  end
with braced_list (l : statements) : statements :=
  match l with No_statements => No_statements | Cons_statement s rest => Cons_statement (braced false s) (braced_list rest) end
with braced_clauses (l : clauses) : clauses :=
  match l with
  | No_clauses => No_clauses
  | Cons_clause test c rest => Cons_clause test (braced_list c) (braced_clauses rest)
  end.
