(** Programs between braces (properties.jsonl, C61). Each theorem is followed by a case that
    meets its hypotheses. *)
From Coq Require Import String List Arith NArith Bool Lia.
From Verif Require Import Base Tokens Tokenizer ParserCore ParserBody SpecTokens SpecStream SpecParser SpecGrammar SpecBrackets SpecLanguage SpecSequel SpecEnclose.
From Verif Require Import PropertiesTokenizer Coverage ParserGrammar PropertiesGrammar PropertiesSemicolons Semicolons OneLine Sequel Enclose Unwrap GrammarFacts.
Import ListNotations.
Local Open Scope string_scope.
Local Open Scope list_scope.

(** ** C61 Programs can be put between braces *)

(** A program without imports and exports consists of statements and declarations. *)
Theorem C61_scripts : forall a nl, without "import" a -> without "export" a ->
  (program (a ++ [(nl, TEOF)]) <-> script a nl).
Proof. intros a nl A B. split; [exact (program_script a nl A B)|exact (script_program a nl)]. Qed.
(** Exactly the same tokens are statements and declarations before a closing brace. *)
Theorem C61_braces : forall a nl k, script a nl <->
  derives no_parameters NStatementList (a ++ (nl, TPunctuator CurlyClose) :: k) ((nl, TPunctuator CurlyClose) :: k).
Proof. exact script_enclosed. Qed.
(** So they form programs again as any number of blocks and as the body of a function. *)
Theorem C61_blocks : forall n a nl, script a nl -> script (in_blocks n a nl) nl /\ program (in_blocks n a nl ++ [(nl, TEOF)]).
Proof. intros n a nl S. pose proof (blocks_script n a nl S). auto using script_program. Qed.
Theorem C61_functions : forall b name a nl nl', bindable no_parameters name = true -> script a nl ->
  script (in_function (b, TIdent name) a nl) nl' /\ program (in_function (b, TIdent name) a nl ++ [(nl', TEOF)]).
Proof. intros b name a nl nl' B S. pose proof (function_script b name a nl nl' B S). auto using script_program. Qed.
(** Conversely, if the brackets between the braces of blocks match each other, what is there
    consists of statements and declarations. *)
Theorem C61_exact : forall n a nl, balanced (map snd a) -> (script a nl <-> program (in_blocks (S n) a nl ++ [(nl, TEOF)])).
Proof. intros n a nl B. split; [intros S; apply (C61_blocks (Datatypes.S n) a nl S)|exact (all_unwrapped n a nl B)]. Qed.
(** For sources. *)
Theorem C61_accepted_source : forall E rf n code, utf8 code -> parse_root E rf n code = Accepted ->
  exists hs log t a nl, run E (into_tokenizer code) hs log t /\ tiles code 0 log (length code) /\
    significant false log = a ++ [(nl, TEOF)] /\
    (without "import" a -> without "export" a -> forall k, program (in_blocks k a nl ++ [(nl, TEOF)])).
Proof.
  intros E rf n code U A. destruct (C28_accepted_source_is_a_program E rf n code U A) as (hs & log & t & R & Ti & Pr & _).
  destruct (module_eof _ _ _ Pr) as (a & nl & Q & _). exists hs, log, t, a, nl. split; [exact R|]. split; [exact Ti|]. split; [exact Q|].
  intros I X k. rewrite Q in Pr. apply C61_blocks. apply program_script; assumption.
Qed.
Print Assumptions C61_scripts.
Print Assumptions C61_braces.
Print Assumptions C61_blocks.
Print Assumptions C61_functions.
Print Assumptions C61_exact.
Print Assumptions C61_accepted_source.

(** [a = { } / b LINE BREAK return LINE BREAK], without semicolons *)
Definition C61_example : tokens :=
  [word "a"; mark Eq_; mark CurlyOpen; mark CurlyClose; mark Slash; word "b"; (true, TIdent (s2b "return"))].
Example C61_case : without "import" C61_example /\ without "export" C61_example /\ program (C61_example ++ [(false, TEOF)]) /\
  bindable no_parameters (s2b "f") = true /\
  map snd (in_blocks 2 C61_example false) =
    map snd ([mark CurlyOpen; mark CurlyOpen] ++ C61_example ++ [mark CurlyClose; mark CurlyClose]) /\
  balanced (map snd C61_example).
Proof.
  split; [|split; [|split; [|split; [reflexivity|split; [reflexivity|apply scan_balanced; reflexivity]]]]].
  - intros nl K. cbn in K. repeat (destruct K as [K|K]; [discriminate K|]). exact K.
  - intros nl K. cbn in K. repeat (destruct K as [K|K]; [discriminate K|]). exact K.
  - fed_ (here (removelast C61_example) ++ here [(false, TLineTerminator); (false, TIdent (s2b "return"))]).
Qed.

(** Imports and exports cannot be put in a block, and what is between braces in a program need
    not be a program: [{ } { }]. *)
Theorem C61_refuted :
  (program [word "import"; (false, TString (s2b "a")); (false, TEOF)] /\
   ~ program (in_block [word "import"; (false, TString (s2b "a"))] false ++ [(false, TEOF)])) /\
  (program (in_block [mark CurlyClose; mark CurlyOpen] false ++ [(false, TEOF)]) /\
   ~ program [mark CurlyClose; mark CurlyOpen; (false, TEOF)]).
Proof.
  split; split.
  - fed_ (here [word "import"; (false, TString (s2b "a"))]).
  - unfed_ (here (in_block [word "import"; (false, TString (s2b "a"))] false)).
  - fed_ (here (in_block [mark CurlyClose; mark CurlyOpen] false)).
  - unfed_ (here [mark CurlyClose; mark CurlyOpen]).
Qed.
Print Assumptions C61_refuted.
