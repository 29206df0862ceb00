(** Specification of putting several sources into one. *)
From Coq Require Import String List.
From Verif Require Import Base SpecTokens SpecWrapping.
Import ListNotations.

(** The sources one after another, each between braces. *)
Definition bundle (codes : list bytes) : bytes := concat (map braces codes).
