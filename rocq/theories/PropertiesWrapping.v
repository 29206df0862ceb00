(** Text around sources (properties.jsonl, C63). Each theorem is followed by a case that meets
    its hypotheses. *)
From Coq Require Import String List Arith NArith Bool Lia.
From Verif Require Import Base Tokens Tokenizer ParserCore ParserBody SpecTokens SpecStream SpecParser SpecWrapping.
From Verif Require Import ByteFacts PropertiesTokenizer Wrapping.
Import ListNotations.
Local Open Scope string_scope.
Local Open Scope list_scope.

(** ** C63 The text of a source can be put between braces *)

(** What is accepted is accepted between braces, any number of times. *)
Theorem C63_braces : forall E r n code, simple_source code -> absent (s2b "import") code -> absent (s2b "export") code ->
  parse_root E r n code = Accepted ->
  forall k r' n', 0 < k -> length (many_braces k code) < r' -> 20 * length (many_braces k code) + 80 <= n' ->
  parse_root E r' n' (many_braces k code) = Accepted.
Proof. intros E r n code S I X A k r' n' K R N. apply (many_braces_accepted E r n code S I X A k r' n' R N). lia. Qed.
(** Where neither [in] nor [await] occurs it is accepted as the body of a function called at
    once and of an arrow function. *)
Theorem C63_called : forall E r n code, simple_source code -> absent (s2b "import") code -> absent (s2b "export") code ->
  absent (s2b "in") code -> absent (s2b "await") code -> parse_root E r n code = Accepted ->
  forall r' n', length (called code) < r' -> 20 * length (called code) + 80 <= n' -> parse_root E r' n' (called code) = Accepted.
Proof. intros E r n code S I X V W A r' n' R N. exact (called_accepted E r n code S I X A r' n' V W R N). Qed.
Theorem C63_arrow : forall E r n code, simple_source code -> absent (s2b "import") code -> absent (s2b "export") code ->
  absent (s2b "in") code -> absent (s2b "await") code -> parse_root E r n code = Accepted ->
  forall r' n', length (arrow code) < r' -> 20 * length (arrow code) + 80 <= n' -> parse_root E r' n' (arrow code) = Accepted.
Proof. intros E r n code S I X V W A r' n' R N. exact (arrow_accepted E r n code S I X A r' n' V W R N). Qed.
Print Assumptions C63_braces.
Print Assumptions C63_called.
Print Assumptions C63_arrow.

(** A test for the absence of a text. *)
Fixpoint starts (p s : bytes) : bool :=
  match p, s with [], _ => true | b :: p, c :: s => (b =? c)%N && starts p s | _ :: _, [] => false end.
Fixpoint occurs (p s : bytes) : bool := starts p s || match s with [] => false | _ :: s => occurs p s end.
Lemma starts_app p s : starts p (p ++ s) = true.
Proof. induction p; cbn; [reflexivity|rewrite N.eqb_refl; assumption]. Qed.
Lemma not_occurs p s : occurs p s = false -> absent p s.
Proof.
  intros H x y ->. induction x as [|c x IH]; cbn [app] in H.
  - destruct (p ++ y) as [|b q] eqn:Q; cbn [occurs] in H; rewrite <- Q, starts_app in H; discriminate H.
  - apply IH. cbn [occurs] in H. apply orb_false_iff in H. apply H.
Qed.
(** [a = f ( "}" ) LINE BREAK return LINE BREAK] *)
Definition C63_source : bytes := s2b "a = f(""}"")" ++ [10%N] ++ s2b "return" ++ [10%N].
Example C63_case : simple_source C63_source /\ absent (s2b "import") C63_source /\ absent (s2b "export") C63_source /\
  absent (s2b "in") C63_source /\ absent (s2b "await") C63_source /\ parse_root debug_build 50 500 C63_source = Accepted /\
  many_braces 2 C63_source = s2b "{{" ++ C63_source ++ s2b "}" ++ [10%N] ++ s2b "}" ++ [10%N].
Proof.
  split; [split; [|split; [|split]]|]; [apply utf8_ascii; repeat constructor|eexists (s2b "a = f(""}"")" ++ [10%N] ++ s2b "return"); reflexivity|apply not_occurs; reflexivity|apply not_occurs; reflexivity|].
  repeat (split; [apply not_occurs; reflexivity|]). split; vm_compute; reflexivity.
Qed.

(** Imports cannot be put between braces. A comment that is not ended by a line feed takes the
    closing brace. What is accepted between braces need not be accepted without them. With the
    word [in], [let x=a LINE BREAK in:b] is accepted, but not as the body of the function. *)
Theorem C63_refuted :
  (let code := s2b "import ""a""" ++ [10%N] in simple_source code /\
     parse_root debug_build 100 1000 code = Accepted /\ parse_root debug_build 100 1000 (braces code) = Rejected UnexpectedToken) /\
  (let code := s2b "a//b" in
     parse_root debug_build 100 1000 code = Accepted /\ parse_root debug_build 100 1000 (braces code) = Rejected UnexpectedToken) /\
  (let code := s2b "}" ++ [10%N] ++ s2b "{" ++ [10%N] in simple_source code /\
     parse_root debug_build 100 1000 (braces code) = Accepted /\ parse_root debug_build 100 1000 code = Rejected UnexpectedToken) /\
  (let code := s2b "let x=a" ++ [10%N] ++ s2b "in:b" ++ [10%N] in simple_source code /\
     parse_root debug_build 100 1000 code = Accepted /\ parse_root debug_build 100 1000 (called code) = Rejected UnexpectedToken) /\
  (let code := s2b "for(;a in b;);" ++ [10%N] in simple_source code /\
     parse_root debug_build 100 1000 code = Rejected UnexpectedToken /\ parse_root debug_build 100 1000 (called code) = Accepted).
Proof.
  assert (S : forall v, Forall (fun b => (b < 128)%N) v -> occurs (s2b "/") (v ++ [10%N]) = false -> occurs (s2b "`") (v ++ [10%N]) = false -> simple_source (v ++ [10%N])).
  { intros v F A B. split; [|split; [exists v; reflexivity|split; apply not_occurs; assumption]]. apply utf8_ascii. apply Forall_app. split; [exact F|repeat constructor]. }
  cbv zeta. split; [|split; [|split; [|split]]]; (split; [try (vm_compute; reflexivity)|]).
  - apply S; [repeat constructor|reflexivity..].
  - split; vm_compute; reflexivity.
  - vm_compute; reflexivity.
  - apply (S (s2b "}" ++ [10%N] ++ s2b "{")); [repeat constructor|reflexivity..].
  - split; vm_compute; reflexivity.
  - apply (S (s2b "let x=a" ++ [10%N] ++ s2b "in:b")); [repeat constructor|reflexivity..].
  - split; vm_compute; reflexivity.
  - apply S; [repeat constructor|reflexivity..].
  - split; vm_compute; reflexivity.
Qed.
Print Assumptions C63_refuted.
