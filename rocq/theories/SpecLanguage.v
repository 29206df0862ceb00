(** The language as a whole. *)
From Coq Require Import String List Bool.
From Verif Require Import Base Tokens ParserCore SpecParser SpecGrammar.
Import ListNotations.
Local Open Scope string_scope.
Local Open Scope list_scope.

(** At the start of a module no parameter of the grammar is set. *)
Definition no_parameters : grammar_flags := GFlags false false false false false false false false.

(** [program l]: the tokens [l], which end with the EOF token, are a module. *)
Definition program (l : tokens) : Prop := derives no_parameters NModule l [].

(** [begins l]: some continuation of the tokens [l] is a module, possibly followed by
    something else. *)
Definition begins (l : tokens) : Prop := exists more rest, derives no_parameters NModule (l ++ more) rest.

(** ** Restricted productions *)

(** The statements whose operand must start on the line of their keyword. *)
Definition restricted_words : list string := ["return"; "break"; "continue"; "throw"].

(** What may follow a restricted keyword within its production: nothing, a semicolon, or
    something that starts on the same line. *)
Definition no_operand_over_line (w : tokens) : Prop :=
  w = [] \/ (exists nl, w = [(nl, TPunctuator Semicolon)]) \/ exists t w', w = (false, t) :: w'.
