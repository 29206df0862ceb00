(** Specification of putting a source into a function declaration. *)
From Coq Require Import String List NArith.
From Verif Require Import Base.
Import ListNotations.
Local Open Scope string_scope.
Local Open Scope list_scope.

Definition declared (code : bytes) : bytes := s2b "function f(){" ++ code ++ s2b "}" ++ [10%N].
