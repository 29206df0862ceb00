(** Known deviations from ECMAScript (properties.jsonl, C39), each followed by a case. *)
From Coq Require Import Ascii String List Arith NArith Bool Lia.
From Verif Require Import Base Tokens Tokenizer ParserCore ParserBody SpecTokens SpecStream SpecParser SpecTrivia SpecGrammar SpecLanguage SpecHints.
From Verif Require Import SpecWindows SpecDeviations LexTotal SourceLanguage Coverage Deviations PropertiesTokenizer PropertiesLanguage.
Import ListNotations.
Local Open Scope string_scope.

(** ** C39 What is rejected *)
Theorem C39_unsupported : forall T (next : T -> hint -> tres (token * token_range * T)) rf n t,
  parse_root_with next rf n t = Accepted ->
  exists log t', calls next t log t' /\ Forall (fun s => ~ has s (significant false log)) unsupported.
Proof. exact c39_unsupported. Qed.
Print Assumptions C39_unsupported.
Theorem C39_rejected_sources : forall E r n ps code s, utf8 code -> printed (overflow_checks E) [] ps code ->
  Forall (fun p => slash_free (snd (word_token p))) ps -> length code < r -> 20 * length code + 80 <= n ->
  In s unsupported -> has s (map word_token ps) -> parse_root E r n code <> Accepted.
Proof. exact c39_rejected. Qed.
Print Assumptions C39_rejected_sources.

(** One source of each shape. *)
Definition C39_word (s : string) : string * token :=
  match List.find (fun p => String.eqb s (fst p))
    [pn "(" ParenOpen; pn ")" ParenClose; pn "{" CurlyOpen; pn "}" CurlyClose; pn "[" SquareOpen; pn "]" SquareClose; pn ";" Semicolon;
     pn "," Comma; pn ":" Colon; pn "." Period; pn "..." Ellipsis; pn "=" Eq_; pn "*" Star] with
  | Some p => p
  | None => id_ s
  end.
Fixpoint C39_split (word : string) (s : string) : list string :=
  match s with
  | EmptyString => [word]
  | String c s' => if Ascii.eqb c " "%char then word :: C39_split "" s' else C39_split (word ++ String c "") s'
  end.
Definition C39_words (s : string) : list (string * token) := map C39_word (C39_split "" s).
Definition C39_sources : list string :=
  [ "f ( ... a , ... b ) ;"; "function f ( ) { return new . target ; }"; "x = import . meta ;"; "x = import ( y ) ;";
    "x = class A { } ;"; "let x = class { m ( ) { } } ;"; "x = class extends A { } ;"; "x = class B extends A { } ;";
    "f ( class { } ) ;"; "x = [ class { } ] ;"; "function f ( ) { return class { } ; }";
    "async function f ( ) { }"; "x = async function ( ) { } ;"; "f ( async function ( ) { } ) ;";
    "export function f ( ) { }"; "export var a ; b ;"; "if ( a ) throw b ; else c ;";
    "switch ( a ) { case b : default : }"; "switch ( a ) { case b : default : case c : }";
    "( { a = b } = c ) ;"; "x = { a = b } = c ;"; "let { ... a } = b ;"; "async function f ( ) { for await ( a of b ) ; }";
    "try { } catch { }"; "class A { b = c }"; "class A { async * b ( ) { } }"; "x = { async * b ( ) { } } ;" ].
Definition C39_case (sc : shape * string) : bool :=
  has_in (fst sc) [] (map word_token (pieces_of (C39_words (snd sc)))) &&
  match parse_root debug_build 100 4000 (source_of (C39_words (snd sc))) with Rejected UnexpectedToken => true | _ => false end.
Lemma C39_each_case : forallb C39_case (combine unsupported C39_sources) = true.
Proof. vm_compute. reflexivity. Qed.
Example C39_cases : length C39_sources = length unsupported /\ Forall (fun sc =>
    has (fst sc) (map word_token (pieces_of (C39_words (snd sc)))) /\
    parse_root debug_build 100 4000 (source_of (C39_words (snd sc))) = Rejected UnexpectedToken) (combine unsupported C39_sources).
Proof.
  split; [reflexivity|]. apply Forall_forall. intros sc I. pose proof C39_each_case as H. rewrite forallb_forall in H. specialize (H sc I).
  unfold C39_case in H. apply andb_true_iff in H. destruct H as [H1 H2]. split; [exact (has_in_true _ [] _ H1)|].
  revert H2. generalize (parse_root debug_build 100 4000 (source_of (C39_words (snd sc)))). intros o H; destruct o as [|e| |]; try discriminate H; destruct e; try discriminate H; reflexivity.
Qed.
Example C39_case_source : let ws := C39_words "if ( a ) throw b ; else c ;" in
  utf8 (source_of ws) /\ printed (overflow_checks debug_build) [] (pieces_of ws) (source_of ws) /\
  Forall (fun p => slash_free (snd (word_token p))) (pieces_of ws).
Proof.
  set (ws := C39_words _). vm_compute in ws. subst ws. cbv zeta. split; [some_utf8|]. split.
  - apply written_printed. unfold pieces_of. cbn [map app fst snd]. is_written.
  - repeat (constructor; [split; [intros [K|K]; discriminate K|intros (b & f & K); discriminate K]|]). constructor.
Qed.

(** ** C39 What is accepted *)
Theorem C39_superfluous : forall v l, program l -> Forall (fun pre => program (pre ++ l)%list) (superfluous v).
Proof. exact superfluous_accepted. Qed.
Print Assumptions C39_superfluous.
Theorem C39_accepted_sources : forall E r n ps code v pre l, utf8 code -> printed (overflow_checks E) [] ps code ->
  In pre (superfluous v) -> map word_token ps = (pre ++ l)%list -> program l ->
  length code < r -> 20 * length code + 80 <= n -> parse_root E r n code = Accepted.
Proof. exact c39_accepted. Qed.
Print Assumptions C39_accepted_sources.
Example C39_case_accepted : let ws := C39_words "throw a b ; c ;" in
  utf8 (source_of ws) /\ printed (overflow_checks debug_build) [] (pieces_of ws) (source_of ws) /\
  exists l, map word_token (pieces_of ws) = ([w_ "throw"; w_ "a"; w_ "b"; p_ Semicolon] ++ l)%list /\ program l.
Proof.
  set (ws := C39_words _). vm_compute in ws. subst ws. cbv zeta. split; [some_utf8|]. split.
  - apply written_printed. unfold pieces_of. cbn [map app fst snd]. is_written.
  - exists (map word_token (pieces_of [id_ "c"; pn ";" Semicolon])). split; [reflexivity|]. is_program [id_ "c"; pn ";" Semicolon].
Qed.
(** A label may have any name that starts no statement or declaration. *)
Theorem C39_labels : forall nl nl1 nl2 w l, one_of no_parameters (declaration_keyword ++ statement_keyword)%list (TIdent w) = false ->
  program l -> program ((nl, TIdent w) :: (nl1, TPunctuator Colon) :: (nl2, TPunctuator Semicolon) :: l).
Proof. exact any_label. Qed.
Print Assumptions C39_labels.
(** So do these reserved words. *)
Definition C39_label_words : list string :=
  ["case"; "catch"; "default"; "delete"; "else"; "enum"; "export"; "extends"; "false"; "finally"; "import"; "in"; "instanceof"; "new"; "null";
   "super"; "this"; "true"; "typeof"; "void"; "yield"].
Example C39_case_labels : Forall (fun w => word_in reserved_words (s2b w) = true /\
    one_of no_parameters (declaration_keyword ++ statement_keyword)%list (TIdent (s2b w)) = false /\
    parse_root debug_build 100 4000 (s2b (w ++ ":;")) = Accepted) C39_label_words.
Proof. repeat (constructor; [vm_compute; repeat split|]). constructor. Qed.
