(** Specification of the texts of syntax trees: the grammar of ECMAScript for the nodes of
    Nodes.v and Statements.v, with the tree that each phrase stands for. *)
From Coq Require Import String List Bool Arith.
From Verif Require Import Base Tokens Formatter Nodes Statements.
Import ListNotations.

Definition wd (w : string) : token := TIdent (s2b w).
Definition mk (p : punctuator) : token := TPunctuator p.

(** ** Expressions *)

(** PrimaryExpression, MemberExpression, NewExpression, CallExpression,
    LeftHandSideExpression, AssignmentExpression and Expression. There are no operators in
    the trees, so nothing is between the fifth and ConditionalExpression. *)
Inductive nonterminal : Set := Primary_ | Member_ | New_ | Call_ | Left_hand | Assignment_ | Expression_.
Inductive phrase : nonterminal -> expression -> list token -> Prop :=
| ph_this : phrase Primary_ E_this [wd "this"]
| ph_null : phrase Primary_ E_null [wd "null"]
| ph_true : phrase Primary_ (E_boolean true) [wd "true"]
| ph_false : phrase Primary_ (E_boolean false) [wd "false"]
| ph_name w : phrase Primary_ (E_binding w None) [TIdent w]
| ph_number s n : phrase Primary_ (E_numeric s) [TNumeric n]     (* C42 says which number *)
| ph_string s : phrase Primary_ (E_string s None) [TString s]
| ph_parenthesized e l : phrase Expression_ e l -> phrase Primary_ e (mk ParenOpen :: l ++ [mk ParenClose])
| ph_member e l : phrase Primary_ e l -> phrase Member_ e l
| ph_property o l a x : phrase Member_ o l -> property a x -> phrase Member_ (E_member o a) (l ++ x)
| ph_super_property a x : property a x -> phrase Member_ (E_super_member a) (wd "super" :: x)
| ph_new c l args last x : phrase Member_ c l -> passed args last x -> phrase Member_ (E_new c args last) (wd "new" :: l ++ mk ParenOpen :: x ++ [mk ParenClose])
| ph_new_member e l : phrase Member_ e l -> phrase New_ e l
| ph_new_empty c l : phrase New_ c l -> phrase New_ (E_new_empty c) (wd "new" :: l)
| ph_call c l args last x : phrase Member_ c l -> passed args last x -> phrase Call_ (E_call c args last) (l ++ mk ParenOpen :: x ++ [mk ParenClose])
| ph_super_call args last x : passed args last x -> phrase Call_ (E_super_call args last) (wd "super" :: mk ParenOpen :: x ++ [mk ParenClose])
| ph_call_call c l args last x : phrase Call_ c l -> passed args last x -> phrase Call_ (E_call c args last) (l ++ mk ParenOpen :: x ++ [mk ParenClose])
| ph_call_property o l a x : phrase Call_ o l -> property a x -> phrase Call_ (E_member o a) (l ++ x)
| ph_left_new e l : phrase New_ e l -> phrase Left_hand e l
| ph_left_call e l : phrase Call_ e l -> phrase Left_hand e l
| ph_assignment e l : phrase Left_hand e l -> phrase Assignment_ e l
| ph_conditional t lt c lc a la : phrase Left_hand t lt -> phrase Assignment_ c lc -> phrase Assignment_ a la ->
    phrase Assignment_ (E_conditional t c a) (lt ++ mk Question :: lc ++ mk Colon :: la)
| ph_expression e l : phrase Assignment_ e l -> phrase Expression_ e l
| ph_sequence a la b lb : phrase Expression_ a la -> phrase Assignment_ b lb -> phrase Expression_ (E_sequence a b) (la ++ mk Comma :: lb)
with property : access -> list token -> Prop :=
| pr_name w : property (A_identifier w None) [mk Period; TIdent w]
| pr_computed e l : phrase Expression_ e l -> property (A_computed e) (mk SquareOpen :: l ++ [mk SquareClose])
(** What is between the parentheses; a comma may be at the end. *)
with passed : arg_list -> last_arg -> list token -> Prop :=
| pa_none : passed No_args No_last []
| pa_last a l : passes a l -> passed No_args (Last a) l
| pa_comma a l rest last x : passes a l -> passed rest last x -> passed (Cons_arg a rest) last (l ++ mk Comma :: x)
with passes : argument -> list token -> Prop :=
| ps_expression e l : phrase Assignment_ e l -> passes (Arg_expression e) l
| ps_spread e l : phrase Assignment_ e l -> passes (Arg_spread e) (mk Ellipsis :: l).

(** ** Statements *)
Definition parenthesized (l : list token) : list token := mk ParenOpen :: l ++ [mk ParenClose].
Definition in_braces (l : list token) : list token := mk CurlyOpen :: l ++ [mk CurlyClose].
Definition declares_with (d : declaring) : token := match d with D_var => wd "var" | D_let => wd "let" | D_const => wd "const" end.
Inductive declares : declarator -> list token -> Prop :=
| de_name w : declares (Declarator (w, None) None) [TIdent w]
| de_initialized w e l : phrase Assignment_ e l -> declares (Declarator (w, None) (Some e)) (TIdent w :: mk Eq_ :: l).
Inductive declares_list : list declarator -> declarator -> list token -> Prop :=
| dl_one d l : declares d l -> declares_list [] d l
| dl_more d l ds last x : declares d l -> declares_list ds last x -> declares_list (d :: ds) last (l ++ mk Comma :: x).
Inductive maybe {A} (P : A -> list token -> Prop) : option A -> list token -> Prop :=
| mb_some a l : P a l -> maybe P (Some a) l
| mb_none : maybe P None [].
Inductive loops_over : for_left -> list token -> Prop :=
| lo_declaration d w : loops_over (Left_declaration d (w, None) None) [declares_with d; TIdent w]
| lo_name w : loops_over (Left_identifier (w, None)) [TIdent w]
| lo_member o a l : phrase Left_hand (E_member o a) l -> loops_over (Left_member o a) l.
Definition starts (i : for_init) (l : list token) : Prop :=
  match i with Init_expression e => phrase Expression_ e l | Init_declaration _ _ _ => False end.
Definition label_ (x : identifier) (l : list token) : Prop := snd x = None /\ l = [TIdent (fst x)].
Definition parameter (x : identifier) (l : list token) : Prop := snd x = None /\ l = parenthesized [TIdent (fst x)].

(** An [else] behind the statement would be taken for that of an [if] in it. *)
Fixpoint takes_else (s : statement) : bool :=
  match s with
  | St_if _ _ => true
  | St_if_else _ _ s | St_for _ _ _ s | St_for_in _ _ s | St_for_of _ _ s | St_for_await _ _ s
  | St_while _ s | St_with _ s | St_labelled _ s => takes_else s
  | _ => false
  end.
(** The semicolon behind a thrown expression is left out; C51 says that it need not be there. *)
Inductive stands : statement -> list token -> Prop :=
| sd_block body l : stand body l -> stands (St_block body) (in_braces l)
| sd_declaration d ds last l : declares_list ds last l -> stands (St_declaration d ds last) (declares_with d :: l ++ [mk Semicolon])
| sd_empty : stands St_empty [mk Semicolon]
| sd_expression e l : phrase Expression_ e l -> stands (St_expression e) (l ++ [mk Semicolon])
| sd_if e l s x : phrase Expression_ e l -> stands s x -> stands (St_if e s) (wd "if" :: parenthesized l ++ x)
| sd_if_else e l s x s' x' : phrase Expression_ e l -> stands s x -> takes_else s = false -> stands s' x' ->
    stands (St_if_else e s s') (wd "if" :: parenthesized l ++ x ++ wd "else" :: x')
| sd_for i li t lt u lu s x : maybe starts i li -> maybe (phrase Expression_) t lt -> maybe (phrase Expression_) u lu -> stands s x ->
    stands (St_for i t u s) (wd "for" :: parenthesized (li ++ mk Semicolon :: lt ++ mk Semicolon :: lu) ++ x)
| sd_for_in o lo e l s x : loops_over o lo -> phrase Expression_ e l -> stands s x ->
    stands (St_for_in o e s) (wd "for" :: parenthesized (lo ++ wd "in" :: l) ++ x)
| sd_for_of o lo e l s x : loops_over o lo -> phrase Assignment_ e l -> stands s x ->
    stands (St_for_of o e s) (wd "for" :: parenthesized (lo ++ wd "of" :: l) ++ x)
| sd_while e l s x : phrase Expression_ e l -> stands s x -> stands (St_while e s) (wd "while" :: parenthesized l ++ x)
| sd_do e l s x : phrase Expression_ e l -> stands s x -> stands (St_do_while s e) (wd "do" :: x ++ wd "while" :: parenthesized l ++ [mk Semicolon])
| sd_switch e l c x : phrase Expression_ e l -> cases c x -> stands (St_switch e c) (wd "switch" :: parenthesized l ++ in_braces x)
| sd_with e l s x : phrase Expression_ e l -> stands s x -> stands (St_with e s) (wd "with" :: parenthesized l ++ x)
| sd_labelled w s x : stands s x -> stands (St_labelled (w, None) s) (TIdent w :: mk Colon :: x)
| sd_throw e l : phrase Expression_ e l -> stands (St_throw e) (wd "throw" :: l)
| sd_catch b lb p lp h lh : stand b lb -> maybe parameter p lp -> stand h lh ->
    stands (St_try_catch b p h) (wd "try" :: in_braces lb ++ wd "catch" :: lp ++ in_braces lh)
| sd_catch_finally b lb p lp h lh f lf : stand b lb -> maybe parameter p lp -> stand h lh -> stand f lf ->
    stands (St_try_catch_finally b p h f) (wd "try" :: in_braces lb ++ wd "catch" :: lp ++ in_braces lh ++ wd "finally" :: in_braces lf)
| sd_finally b lb f lf : stand b lb -> stand f lf -> stands (St_try_finally b f) (wd "try" :: in_braces lb ++ wd "finally" :: in_braces lf)
| sd_continue x l : maybe label_ x l -> stands (St_continue x) (wd "continue" :: l ++ [mk Semicolon])
| sd_break x l : maybe label_ x l -> stands (St_break x) (wd "break" :: l ++ [mk Semicolon])
| sd_return e l : maybe (phrase Expression_) e l -> stands (St_return e) (wd "return" :: l ++ [mk Semicolon])
| sd_debugger : stands St_debugger [wd "debugger"; mk Semicolon]
with stand : statements -> list token -> Prop :=
| sd_none : stand No_statements []
| sd_more s x rest y : stands s x -> stand rest y -> stand (Cons_statement s rest) (x ++ y)
with cases : clauses -> list token -> Prop :=
| cs_none : cases No_clauses []
| cs_case e l c x rest y : phrase Expression_ e l -> stand c x -> cases rest y ->
    cases (Cons_clause (Some e) c rest) (wd "case" :: l ++ mk Colon :: x ++ y)
| cs_default c x rest y : stand c x -> cases rest y -> cases (Cons_clause None c rest) (wd "default" :: mk Colon :: x ++ y).

Inductive script : list bytes -> statements -> list token -> Prop :=
| sc_directive d ds body l : script ds body l -> script (d :: ds) body (TString d :: mk Semicolon :: l)
| sc_body body l : stand body l -> script [] body l.

(** ** Operators *)

(** What the operator is written as, and the nonterminal of ECMAScript that produces it. *)
Definition written_as (b : binary) : token :=
  match b with
  | B_add => mk Plus | B_subtract => mk Minus | B_left_shift => mk LAngleAngle
  | B_right_shift => mk RAngleAngle | B_right_shift_signed => mk RAngleAngleAngle
  | B_divide => mk Slash | B_multiply => mk Star | B_modulus => mk Percent
  | B_bit_and => mk Amp | B_bit_or => mk Bar | B_bit_xor => mk Caret | B_power => mk StarStar
  | B_equal => mk EqEq | B_strict_equal => mk EqEqEq | B_not_equal => mk ExclamEq | B_strict_not_equal => mk ExclamEqEq
  | B_less_than => mk LAngle | B_less_than_equal => mk LAngleEq | B_greater_than => mk RAngle | B_greater_than_equal => mk RAngleEq
  | B_in => wd "in" | B_instanceof => wd "instanceof" | B_and => mk AmpAmp | B_or => mk BarBar
  end.
Definition level (b : binary) : precedence :=
  match b with
  | B_or => Pr_LogicalOr | B_and => Pr_LogicalAnd
  | B_bit_or => Pr_BitwiseOr | B_bit_xor => Pr_BitwiseXOr | B_bit_and => Pr_BitwiseAnd
  | B_equal | B_strict_equal | B_not_equal | B_strict_not_equal => Pr_Equality
  | B_less_than | B_less_than_equal | B_greater_than | B_greater_than_equal | B_in | B_instanceof => Pr_Relational
  | B_left_shift | B_right_shift | B_right_shift_signed => Pr_Shift
  | B_add | B_subtract => Pr_Additive
  | B_multiply | B_divide | B_modulus => Pr_Multiplicative
  | B_power => Pr_Exponential
  end.
Definition prefixed_with (u : unary) : token :=
  match u with
  | U_delete => wd "delete" | U_void => wd "void" | U_typeof => wd "typeof" | U_await => wd "await"
  | U_positive => mk Plus | U_negative => mk Minus | U_bit_negate => mk Tilde | U_negate => mk Exclam
  end.
(** Where an expression of precedence [need] is required, one of precedence [has] is put in parentheses. *)
Definition enclosed (has need : precedence) (l : list token) : list token := if rank has <? rank need then parenthesized l else l.
(** The operand is neither a conditional expression nor a sequence. *)
Definition tight (e : expression) : bool := match e with E_conditional _ _ _ | E_sequence _ _ => false | _ => true end.
