(** Specification of displayed statements: which trees of statements are displayed as
    statements of the language. *)
From Coq Require Import String List NArith Bool.
From Verif Require Import Base SpecTokens SpecHints Formatter SpecFormatter Nodes SpecNodes Statements.
Import ListNotations.

Definition optional {A} (P : A -> Prop) (o : option A) : Prop := match o with Some x => P x | None => True end.
Definition named (x : identifier) : Prop := variable (given (fst x) (snd x)).
Definition declared (kind : declaring) (d : declarator) : Prop :=
  match d with Declarator id init => named id /\ optional well_formed init /\ (kind = D_const -> init <> None) end.

Definition sequence_ (e : expression) : bool := match e with E_sequence _ _ => true | _ => false end.
(** What stands between [for (] and [in] or [of]: no initializer, and [of] is not declared with [let]. *)
Definition for_left_formed (l : for_left) : Prop :=
  match l with
  | Left_declaration kind id init => named id /\ init = None /\ (kind = D_let -> given (fst id) (snd id) <> s2b "of")
  | Left_identifier id => named id
  | Left_member object property => well_formed (E_member object property)
  end.

(** A declaration with [let] or [const] cannot be the body of another statement. *)
Definition lexical (s : statement) : bool := match s with St_declaration (D_let | D_const) _ _ => true | _ => false end.

(** Thrown expressions are displayed without a semicolon. Whether the statement ends in one;
    [orphan]: an [if] without [else] at its end is put in braces. *)
Fixpoint ends_throwing (orphan : bool) (s : statement) : bool :=
  match s with
  | St_throw _ => true
  | St_if _ s => negb orphan && ends_throwing orphan s
  | St_if_else _ _ s | St_for _ _ _ s | St_for_in _ _ s | St_for_of _ _ s | St_for_await _ _ s
  | St_while _ s | St_with _ s | St_labelled _ s => ends_throwing orphan s
  | _ => false
  end.

(** Well-formed statements: names are variables; constants are initialized; a [for] with
    semicolons declares no variables; what is looped over with [in] or [of] is no sequence and there is no [for await]; a [catch] has a
    parameter; [default] is the first clause; what ends in a thrown expression is at the end of a block or script. *)
Fixpoint formed (s : statement) : Prop :=
  match s with
  | St_block body => formed_list true body
  | St_declaration kind ds last => Forall (declared kind) ds /\ declared kind last
  | St_empty | St_debugger => True
  | St_expression e | St_throw e => well_formed e
  | St_if test consequent => well_formed test /\ formed consequent /\ lexical consequent = false
  | St_if_else test consequent alternate =>
    well_formed test /\ (formed consequent /\ lexical consequent = false) /\ (formed alternate /\ lexical alternate = false) /\
    ends_throwing true consequent = false
  | St_for init test update body =>
    optional (fun i => match i with Init_expression e => well_formed e | Init_declaration _ _ _ => False end) init /\
    optional well_formed test /\ optional well_formed update /\ formed body /\ lexical body = false
  | St_for_in lhs rhs body | St_for_of lhs rhs body =>
    for_left_formed lhs /\ (well_formed rhs /\ sequence_ rhs = false) /\ formed body /\ lexical body = false
  | St_for_await _ _ _ => False
  | St_while test body => well_formed test /\ formed body /\ lexical body = false
  | St_do_while body test => well_formed test /\ (formed body /\ lexical body = false) /\ ends_throwing false body = false
  | St_switch discriminant cases => well_formed discriminant /\ formed_clauses true cases
  | St_with object body => well_formed object /\ formed body /\ lexical body = false
  | St_labelled label body => named label /\ formed body /\ lexical body = false
  | St_try_catch body param handler =>
    formed_list true body /\ param <> None /\ optional named param /\ formed_list true handler
  | St_try_catch_finally body param handler finalizer =>
    formed_list true body /\ param <> None /\ optional named param /\ formed_list true handler /\ formed_list true finalizer
  | St_try_finally body finalizer => formed_list true body /\ formed_list true finalizer
  | St_continue label | St_break label => optional named label
  | St_return value => optional well_formed value
  end
(** [final]: the end of a block or script follows. *)
with formed_list (final : bool) (l : statements) : Prop :=
  match l with
  | No_statements => True
  | Cons_statement s rest =>
    formed s /\
    (ends_throwing false s = true -> final = true /\ rest = No_statements) /\
    formed_list final rest
  end
(** [first]: no clause precedes. *)
with formed_clauses (first : bool) (l : clauses) : Prop :=
  match l with
  | No_clauses => True
  | Cons_clause test consequent rest =>
    optional well_formed test /\ (test = None -> first = true) /\
    formed_list (match rest with No_clauses => true | _ => false end) consequent /\
    formed_clauses false rest
  end.

(** A directive is a string. *)
Definition directive (d : bytes) : Prop := utf8 d /\ exists nl, string_text 39 false d nl.
Definition formed_script (directives : list bytes) (body : statements) : Prop :=
  Forall directive directives /\ formed_list true body.
