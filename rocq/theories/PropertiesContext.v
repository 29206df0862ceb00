(** The surroundings of code (properties.jsonl, C62). Each theorem is followed by a case that
    meets its hypotheses. *)
From Coq Require Import String List Arith NArith Bool Lia.
From Verif Require Import Base Tokens Tokenizer ParserCore ParserBody SpecTokens SpecStream SpecParser SpecGrammar SpecBrackets SpecLanguage SpecSequel SpecEnclose SpecContext.
From Verif Require Import PropertiesTokenizer Coverage ParserGrammar PropertiesGrammar PropertiesSemicolons Semicolons OneLine Sequel Enclose PropertiesEnclose Context GrammarFacts.
Import ListNotations.
Local Open Scope string_scope.
Local Open Scope list_scope.

(** ** C62 Code without in and await means the same in functions of all kinds *)

(** Phrases of any kind: which operators and words the surroundings allow does not matter. *)
Theorem C62_phrases : forall g g' n i r, within g g' -> without "in" i -> without "await" i ->
  derives g n i r -> derives g' n i r.
Proof. intros g g' n i r W A B D. exact (proj1 carried g n i r D g' W (conj A B)). Qed.
(** Statements are a block, wherever the block stands, exactly if they are a program. *)
Theorem C62_blocks : forall g a nl k, is_strict g = false -> allow_default g = false -> without "in" a -> without "await" a ->
  (script a nl <-> derives g NBlock (in_block a nl ++ k) k).
Proof. intros g a nl k G F A B. split; [exact (block_anywhere g a nl k G (conj A B))|exact (anywhere_script g a nl k G F (conj A B))]. Qed.
(** So a program can be made the body of a generator, of a function called at once, of an
    arrow function, of a method and of an exported async function. *)
Theorem C62_functions : forall b b' name method a nl nl', bindable no_parameters name = true ->
  word_in ["static"; "get"; "set"; "async"] method = false -> without "in" a -> without "await" a -> script a nl ->
  program (in_generator (b, TIdent name) a nl ++ [(nl', TEOF)]) /\
  program (in_call a nl ++ [(nl', TEOF)]) /\
  program (in_arrow a nl ++ [(nl', TEOF)]) /\
  program (in_method (b, TIdent name) (b', TIdent method) a nl ++ [(nl', TEOF)]) /\
  program (in_async a nl ++ [(nl', TEOF)]).
Proof.
  intros b b' x y a nl nl' X Y A B S. assert (U : quiet a) by (split; assumption).
  split; [|split; [|split; [|split; [|exact (async_program a nl nl' U S)]]]]; apply script_program; auto using generator_script, call_script, arrow_script, method_script.
Qed.
(** For sources. *)
Theorem C62_accepted_source : forall E rf n code, utf8 code -> parse_root E rf n code = Accepted ->
  exists hs log t a nl, run E (into_tokenizer code) hs log t /\ tiles code 0 log (length code) /\
    significant false log = a ++ [(nl, TEOF)] /\
    (without "import" a -> without "export" a -> without "in" a -> without "await" a ->
      program (in_call a nl ++ [(nl, TEOF)]) /\ program (in_arrow a nl ++ [(nl, TEOF)]) /\ program (in_async a nl ++ [(nl, TEOF)])).
Proof.
  intros E rf n code U A. destruct (C28_accepted_source_is_a_program E rf n code U A) as (hs & log & t & R & Ti & Pr & _).
  destruct (module_eof _ _ _ Pr) as (a & nl & Q & _). exists hs, log, t, a, nl. split; [exact R|]. split; [exact Ti|]. split; [exact Q|].
  intros I X V W. rewrite Q in Pr. destruct (C62_functions false false (s2b "f") (s2b "m") a nl nl eq_refl eq_refl V W) as (_ & K1 & K2 & _ & K3); [|auto].
  apply program_script; assumption.
Qed.
Print Assumptions C62_phrases.
Print Assumptions C62_blocks.
Print Assumptions C62_functions.
Print Assumptions C62_accepted_source.

(** The example of C61: [a = { } / b LINE BREAK return] *)
Example C62_case : without "in" C61_example /\ without "await" C61_example /\ script C61_example false /\
  map snd (in_call C61_example false) =
    map snd ([mark ParenOpen; word "function"; mark ParenOpen; mark ParenClose; mark CurlyOpen] ++ C61_example ++
      [mark CurlyClose; mark ParenClose; mark ParenOpen; mark ParenClose]).
Proof.
  split; [|split; [|split; [|reflexivity]]].
  - intros nl K. cbn in K. repeat (destruct K as [K|K]; [discriminate K|]). exact K.
  - intros nl K. cbn in K. repeat (destruct K as [K|K]; [discriminate K|]). exact K.
  - destruct C61_case as (A & B & D & _). exact (program_script _ _ A B D).
Qed.

(** With these words the surroundings matter: [for ( ; a in b ; ) ;] is no program, but a
    body of a function in parentheses; [let x = a LINE BREAK in : b] is a program, but no such
    body; [await a] is no program, but the body of an async function. And [function ( ) { }]
    is no program, but can stand in an exported default function. *)
Definition C62_for : tokens := [word "for"; mark ParenOpen; mark Semicolon; word "a"; word "in"; word "b"; mark Semicolon; mark ParenClose; mark Semicolon].
Definition C62_label : tokens := [word "let"; word "x"; mark Eq_; word "a"; (true, TIdent (s2b "in")); mark Colon; word "b"].
Definition C62_await : tokens := [word "await"; word "a"].
Definition C62_nameless : tokens := [word "function"; mark ParenOpen; mark ParenClose; mark CurlyOpen; mark CurlyClose].
Theorem C62_refuted :
  (~ program (C62_for ++ [(false, TEOF)]) /\ program (in_call C62_for false ++ [(false, TEOF)])) /\
  (program (C62_label ++ [(false, TEOF)]) /\ ~ program (in_call C62_label false ++ [(false, TEOF)])) /\
  (~ program (C62_await ++ [(false, TEOF)]) /\ program (in_async C62_await false ++ [(false, TEOF)])) /\
  (~ program (C62_nameless ++ [(false, TEOF)]) /\ program (in_async C62_nameless false ++ [(false, TEOF)])).
Proof.
  split; [split|split; [split|split; split]].
  - unfed_ (here C62_for).
  - fed_ (here (in_call C62_for false)).
  - fed_ (here (firstn 4 C62_label) ++ here ((false, TLineTerminator) :: map (fun t => (false, snd t)) (skipn 4 C62_label))).
  - unfed_ (here (firstn 9 (in_call C62_label false)) ++ here ((false, TLineTerminator) :: map (fun t => (false, snd t)) (skipn 9 (in_call C62_label false)))).
  - unfed_ (here C62_await).
  - fed_ (here (in_async C62_await false)).
  - unfed_ (here C62_nameless).
  - fed_ (here (in_async C62_nameless false)).
Qed.
Print Assumptions C62_refuted.
