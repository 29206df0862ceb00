(** Completeness for the members of object literals. *)
From Coq Require Import String List Arith NArith Bool Lia.
From Verif Require Import Base Tokens ByteFacts ParserCore ParserBody AbstractParser ParserExec ParserTerminates
  SpecGrammar GrammarFirst GrammarRules Precedence CompleteBase.
Import ListNotations.
Local Open Scope string_scope.
Local Opaque parse.

Lemma c_property : complete_at NProperty.
Proof. comp. Qed.
