(** Completeness for class elements, statements and primary expressions. *)
From Coq Require Import String List Arith NArith Bool Lia.
From Verif Require Import Base Tokens ByteFacts ParserCore ParserBody AbstractParser ParserExec ParserTerminates
  SpecGrammar GrammarFirst GrammarRules Precedence CompleteBase.
Import ListNotations.
Local Open Scope string_scope.
Local Opaque parse.

Lemma c_statement : complete_at NStatement.
Proof. comp. Qed.
Lemma c_class_item : complete_at NClassItem.
Proof. comp. Qed.
Lemma c_primary : complete_at NPrimary.
Proof. comp. Qed.
