(** How deeply the parser calls itself (properties.jsonl, C45), followed by a case that meets
    the hypotheses. *)
From Coq Require Import String List Arith NArith Bool Lia.
From Verif Require Import Base Tokens Tokenizer ParserCore ParserBody SpecTokens SpecStream SpecDepth.
From Verif Require Import PropertiesTokenizer Depth DepthSource.
Import ListNotations.

(** ** C45 There is no limit on nesting: parse functions call each other to a depth that
    grows with the source

    [OutOfFuel] is the outcome of a run that needs calls nested deeper than [n]. In Rust each
    of them is a frame of the thread's stack, which is finite. *)
Theorem C45_depth : forall E r n d, 2 * d + 1 < r ->
  (n <= 9 * d -> parse_root E r n (parenthesized d) = OutOfFuel) /\
  (40 * d + 100 <= n -> parse_root E r n (parenthesized d) = Accepted).
Proof. exact nest_depth. Qed.
(** The same depth is reached before the end of a source is found missing. *)
Theorem C45_unclosed : forall E r n d, d < r -> n <= 9 * d ->
  parse_root E r n (repeat 40%N d) = OutOfFuel.
Proof. exact opens_exhaust. Qed.
Print Assumptions C45_depth.
Print Assumptions C45_unclosed.

Example C45_case :
  parenthesized 3 = s2b "(((x)))" /\
  parse_root debug_build 10 27 (parenthesized 3) = OutOfFuel /\
  parse_root debug_build 10 220 (parenthesized 3) = Accepted /\
  (exists x, parse_root debug_build 10 220 (repeat 40%N 3) = Rejected x).
Proof. repeat (split; [vm_compute; reflexivity|]). eexists. vm_compute. reflexivity. Qed.
