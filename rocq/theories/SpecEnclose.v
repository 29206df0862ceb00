(** Specification of putting a program between braces. *)
From Coq Require Import String List Bool.
From Verif Require Import Base Tokens ParserCore SpecGrammar SpecLanguage.
Import ListNotations.
Local Open Scope string_scope.
Local Open Scope list_scope.

(** [script a nl]: the tokens [a], up to the EOF token, are statements and declarations;
    [nl] tells whether a line break precedes the EOF token. *)
Definition script (a : tokens) (nl : bool) : Prop := derives no_parameters NStatementList (a ++ [(nl, TEOF)]) [(nl, TEOF)].

Definition mark (p : punctuator) : lookahead := (false, TPunctuator p).
Definition word (w : string) : lookahead := (false, TIdent (s2b w)).
(** [{ a }] *)
Definition in_block (a : tokens) (nl : bool) : tokens := mark CurlyOpen :: a ++ [(nl, TPunctuator CurlyClose)].
(** [{ { { a } } }] *)
Fixpoint in_blocks (n : nat) (a : tokens) (nl : bool) : tokens :=
  match n with 0 => a | S n => in_block (in_blocks n a nl) nl end.
(** [function name ( ) { a }] *)
Definition in_function (name : lookahead) (a : tokens) (nl : bool) : tokens :=
  word "function" :: name :: mark ParenOpen :: mark ParenClose :: in_block a nl.
