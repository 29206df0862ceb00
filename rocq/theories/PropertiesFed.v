(** The properties about programs (C39, C56, C57, C61 and C62) in terms of what the parser
    accepts, whatever trivia is between the tokens. A case that meets the hypotheses is at the end. *)
From Coq Require Import String List Arith NArith Bool Lia.
From Verif Require Import SpecDeviations.
From Verif Require Import Base Tokens ParserCore ParserBody SpecParser SpecGrammar SpecLanguage SpecBrackets SpecSemicolons SpecSequel SpecEnclose SpecContext SpecFed Fed.
From Verif Require Import PropertiesSemicolons PropertiesEnclose PropertiesContext.
Import ListNotations.
Local Open Scope string_scope.
Local Open Scope list_scope.

(** ** C30 What is accepted is the programs *)
Theorem C30_parser : forall a nl, real_tokens a -> (parser_accepts a nl <-> program (a ++ [(nl, TEOF)])).
Proof. exact accepts_programs. Qed.

(** ** C39 What is accepted *)
Theorem C39_parser : forall a nl, real_tokens a -> parser_accepts a nl ->
  (forall v, Forall (fun pre => parser_accepts (pre ++ a) nl) (superfluous v)) /\
  (forall b b1 b2 w, one_of no_parameters (declaration_keyword ++ statement_keyword) (TIdent w) = false ->
    parser_accepts ((b, TIdent w) :: (b1, TPunctuator Colon) :: (b2, TPunctuator Semicolon) :: a) nl).
Proof. intros a nl R A. split; intros; [apply accepted_superfluous|apply accepted_label]; assumption. Qed.

(** ** C56 Semicolons can be written *)
Theorem C56_parser : forall a nl, real_tokens a -> parser_accepts a nl ->
  exists a', semicolons_added (a ++ [(nl, TEOF)]) (a' ++ [(nl, TEOF)]) /\ explicit_program (a' ++ [(nl, TEOF)]) /\ parser_accepts a' nl.
Proof. exact accepted_semicolons. Qed.
Theorem C56_parser_one_line : forall a nl, explicit_program (a ++ [(nl, TEOF)]) -> calm (a ++ [(nl, TEOF)]) = true ->
  parser_accepts (one_line a) false.
Proof. exact accepted_one_line. Qed.

(** ** C57 Programs can be put one behind the other *)
Theorem C57_parser : forall a nl b nl', explicit_program (a ++ [(nl, TEOF)]) -> without "throw" a ->
  fresh_start (b ++ [(nl', TEOF)]) -> real_tokens b -> parser_accepts b nl' -> parser_accepts (a ++ b) nl'.
Proof. exact accepted_sequence. Qed.

(** ** C61 Programs can be put between braces *)
Theorem C61_parser : forall a nl, real_tokens a -> without "import" a -> without "export" a -> parser_accepts a nl ->
  (forall k, parser_accepts (in_blocks k a nl) nl) /\
  (forall b name nl', bindable no_parameters name = true -> parser_accepts (in_function (b, TIdent name) a nl) nl').
Proof. exact accepted_blocks. Qed.
Theorem C61_parser_exact : forall k a nl, real_tokens a -> without "import" a -> without "export" a -> balanced (map snd a) ->
  (parser_accepts a nl <-> parser_accepts (in_blocks (S k) a nl) nl).
Proof. exact accepted_unwrapped. Qed.

(** ** C62 Code without in and await is accepted in functions of all kinds *)
Theorem C62_parser : forall a nl nl' b b' name method, real_tokens a -> without "import" a -> without "export" a ->
  without "in" a -> without "await" a -> parser_accepts a nl ->
  bindable no_parameters name = true -> word_in ["static"; "get"; "set"; "async"] method = false ->
  parser_accepts (in_generator (b, TIdent name) a nl) nl' /\ parser_accepts (in_call a nl) nl' /\ parser_accepts (in_arrow a nl) nl' /\
  parser_accepts (in_method (b, TIdent name) (b', TIdent method) a nl) nl' /\ parser_accepts (in_async a nl) nl'.
Proof.
  intros a nl nl' b b' name method R I X V W A B M. apply accepted_script in A; try assumption.
  destruct (C62_functions b b' name method a nl nl' B M V W A) as (P1 & P2 & P3 & P4 & P5). repeat split; apply program_accepted; assumption.
Qed.
Print Assumptions C30_parser.
Print Assumptions C39_parser.
Print Assumptions C56_parser.
Print Assumptions C56_parser_one_line.
Print Assumptions C57_parser.
Print Assumptions C61_parser.
Print Assumptions C61_parser_exact.
Print Assumptions C62_parser.

(** The example of C61, [a = { } / b LINE BREAK return], is accepted, and one source of its
    tokens, with a line terminator and a blank in it, is run. *)
Example fed_case : real_tokens C61_example /\ parser_accepts C61_example false /\
  let log := here (removelast C61_example) ++ here [(false, TLineTerminator); (false, TWhitespace); (false, TIdent (s2b "return"))] in
  significant false (log ++ [end_of_input]) = C61_example ++ [(false, TEOF)] /\ parse_root_with feed 20 300 log = Accepted.
Proof.
  assert (R : real_tokens C61_example) by repeat constructor. split; [exact R|]. split.
  - apply C30_parser; [exact R|apply C61_case].
  - split; vm_compute; reflexivity.
Qed.
(** Programs with all semicolons written, on one line and in sequence: the examples of C56 and C57. *)
Example fed_case_explicit : exists a, C56_example = a ++ [(true, TEOF)] /\ real_tokens a /\ explicit_program (a ++ [(true, TEOF)]) /\ calm (a ++ [(true, TEOF)]) = true /\
  parser_accepts a true /\ fresh_start (a ++ [(true, TEOF)]) /\ explicit_program (C57_first ++ [(false, TEOF)]) /\ without "throw" C57_first.
Proof.
  exists (removelast C56_example). destruct C57_case as (A & B & C & D). destruct C56_case as (_ & _ & X & Y).
  assert (R : real_tokens (removelast C56_example)) by repeat constructor.
  split; [reflexivity|]. split; [exact R|]. split; [exact X|]. split; [exact Y|]. split; [|auto]. apply C30_parser; [exact R|exact D].
Qed.
