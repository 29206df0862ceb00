(** Specification of nested parentheses. *)
From Coq Require Import String List NArith.
From Verif Require Import Base.
Import ListNotations.

(** The name x in [d] pairs of parentheses: a valid program. *)
Fixpoint parenthesized (d : nat) : bytes :=
  match d with O => s2b "x" | S d' => s2b "(" ++ parenthesized d' ++ s2b ")" end.
