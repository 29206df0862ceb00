(** Specification of putting text around a source. *)
From Coq Require Import String List NArith.
From Verif Require Import Base SpecTokens.
Import ListNotations.
Local Open Scope string_scope.
Local Open Scope list_scope.

(** A source in UTF-8 that ends with a line feed and in which there are no slashes (and so no
    comments, divisions and regular expressions) and no backquotes (and so no templates). *)
Definition simple_source (code : bytes) : Prop :=
  utf8 code /\ (exists v, code = v ++ [10%N]) /\ absent (s2b "/") code /\ absent (s2b "`") code.

(** The source between braces, [n] times, each time with a line feed at the end. *)
Definition braces (code : bytes) : bytes := s2b "{" ++ code ++ s2b "}" ++ [10%N].
Fixpoint many_braces (n : nat) (code : bytes) : bytes :=
  match n with 0 => code | S n => braces (many_braces n code) end.
(** The source as the body of a function that is called, and of an arrow function. *)
Definition called (code : bytes) : bytes := s2b "(function(){" ++ code ++ s2b "})()" ++ [10%N].
Definition arrow (code : bytes) : bytes := s2b "()=>{" ++ code ++ s2b "}" ++ [10%N].
