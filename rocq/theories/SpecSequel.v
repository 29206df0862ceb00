(** Specification of putting one program behind another. *)
From Coq Require Import String List Bool.
From Verif Require Import Base Tokens ParserCore SpecGrammar SpecLanguage.
Import ListNotations.
Local Open Scope string_scope.
Local Open Scope list_scope.

(** The word [w] is not among the tokens. *)
Definition without (w : string) (i : tokens) : Prop := forall nl, ~ In (nl, TIdent (s2b w)) i.
(** The program does not start with one of these words (they can be labels). *)
Definition fresh_start (i : tokens) : Prop :=
  forall w, In w ["else"; "catch"; "finally"] -> snd (next i) <> TIdent (s2b w).
