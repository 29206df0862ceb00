(** Sources with comments, divisions, regular expressions and templates between braces
    (properties.jsonl, C65). The theorems are followed by a case that meets their
    hypotheses. *)
From Coq Require Import String List Arith NArith Bool Lia.
From Verif Require Import Base Tokens Tokenizer ParserCore ParserBody SpecTokens SpecStream SpecParser SpecGrammar SpecLanguage SpecTrivia SpecHints
  SpecSequel SpecWrapping SpecSurround.
From Verif Require Import ByteFacts PropertiesTokenizer GrammarFacts ParserGrammar SourceLanguage Coverage PropertiesLanguage Surround.
Import ListNotations.
Local Open Scope string_scope.
Local Open Scope list_scope.

(** ** C65 Sources with comments, divisions, regular expressions and templates *)

(** A source that ends with a line feed and consists of the tokens of a program (as in C30)
    is accepted between braces, any number of times, *)
Theorem C65_braces : forall E ps code, utf8 code -> (exists v, code = v ++ [10%N]) ->
  printed (overflow_checks E) [] ps code -> program (map word_token ps) ->
  without "import" (map word_token ps) -> without "export" (map word_token ps) ->
  forall k r n, length (many_braces k code) < r -> 20 * length (many_braces k code) + 80 <= n ->
  parse_root E r n (many_braces k code) = Accepted.
Proof.
  intros E ps code U L P Pr I X k r n R N. destruct (script_source E ps code U L P Pr I X) as (a & nl & S & _).
  destruct (many_braces_source E k code a nl S) as (a' & nl' & S'). exact (source_accepted E _ _ _ r n S' R N).
Qed.
(** as the body of a function, *)
Theorem C65_function : forall E ps code, utf8 code -> (exists v, code = v ++ [10%N]) ->
  printed (overflow_checks E) [] ps code -> program (map word_token ps) ->
  without "import" (map word_token ps) -> without "export" (map word_token ps) ->
  forall r n, length (declared code) < r -> 20 * length (declared code) + 80 <= n -> parse_root E r n (declared code) = Accepted.
Proof.
  intros E ps code U L P Pr I X r n R N. destruct (script_source E ps code U L P Pr I X) as (a & nl & S & _).
  exact (source_accepted E _ _ _ r n (declared_source E code a nl S) R N).
Qed.
(** and of an arrow function if the words [in] and [await] are not among its tokens. *)
Theorem C65_arrow : forall E ps code, utf8 code -> (exists v, code = v ++ [10%N]) ->
  printed (overflow_checks E) [] ps code -> program (map word_token ps) ->
  without "import" (map word_token ps) -> without "export" (map word_token ps) ->
  without "in" (map word_token ps) -> without "await" (map word_token ps) ->
  forall r n, length (arrow code) < r -> 20 * length (arrow code) + 80 <= n -> parse_root E r n (arrow code) = Accepted.
Proof.
  intros E ps code U L P Pr I X V W r n R N. destruct (script_source E ps code U L P Pr I X) as (a & nl & S & Q).
  refine (source_accepted E _ _ _ r n (arrow_source E code a nl _ S) R N).
  rewrite Q in V, W. split; intros b K; [apply (V b)|apply (W b)]; apply in_or_app; left; exact K.
Qed.
Print Assumptions C65_braces.
Print Assumptions C65_function.
Print Assumptions C65_arrow.

(** [ x = `a${ b / c }d` ; f ( /e/ , y ) // } LINE FEED] *)
Definition C65_words : list (string * token) :=
  [ id_ "x"; pn "=" Eq_; ("`a${", TTemplate TF_Head (s2b "a") (s2b "a")); id_ "b"; pn "/" Slash; id_ "c";
    ("}d`", TTemplate TF_Tail (s2b "d") (s2b "d")); pn ";" Semicolon; id_ "f"; pn "(" ParenOpen; re "e" ""; pn "," Comma; id_ "y"; pn ")" ParenClose ].
Definition C65_end : bytes := s2b " // }" ++ [10%N].
Definition C65_pieces : list piece :=
  map (fun p => Piece [32%N] (false, snd p) (s2b (fst p))) C65_words ++ [Piece C65_end (true, TEOF) []].
Definition C65_source : bytes := flat_map (fun p => 32%N :: s2b (fst p)) C65_words ++ C65_end.
Lemma fed_program (ps : list piece) log r n w nl : significant false (log ++ [end_of_input]) = map word_token ps ->
  map word_token ps = w ++ [(nl, TEOF)] -> ~ In TEOF (map snd w) ->
  length log < r -> 20 * length log + 80 <= n -> parse_root_with feed r n log = Accepted -> program (map word_token ps).
Proof.
  intros S Ew Nw Lr Ln A. destruct (ParserGrammar.feed_exact log r n Lr Ln) as [[X _] _]. destruct (X A) as (rest & D). unfold ParserGrammar.delivered in D. rewrite S in D.
  rewrite Ew in D |- *. assert (rest = []) as -> by (eapply module_end; eassumption). exact D.
Qed.
Example C65_case : utf8 C65_source /\ (exists v, C65_source = v ++ [10%N]) /\
  printed (overflow_checks debug_build) [] C65_pieces C65_source /\ program (map word_token C65_pieces) /\
  without "import" (map word_token C65_pieces) /\ without "export" (map word_token C65_pieces) /\
  without "in" (map word_token C65_pieces) /\ without "await" (map word_token C65_pieces).
Proof.
  split; [some_utf8|]. split; [eexists (removelast C65_source); reflexivity|]. split; [|split].
  - apply written_printed. unfold C65_pieces, C65_words. cbn [map app fst snd].
    repeat (match goal with |- written ?c ?past (Piece ?g (?nl, ?t) ?w :: _ :: ?ps) ?code => idtac end;
      match goal with |- written ?c ?past (Piece ?g (?nl, ?t) ?w :: ?ps) ?code =>
            let r := eval vm_compute in (skipn (length g + length w) code) in apply (wr_cons c past g nl t w ps r) end;
          [apply blank_trivia|discriminate|exact Logic.I|each_hint|left; exists 32%N; eexists; split; [reflexivity|unfold blank; auto]|]).
    change (written (overflow_checks debug_build) (map snd C65_words) [Piece C65_end (true, TEOF) []] C65_end).
    apply wr_end. apply tv_blank; [unfold blank; auto|]. apply (tv_line_comment (s2b " }") [10%N] true []).
    + split; [right; exists [10%N]; split; [left; reflexivity|exists []; reflexivity]|]. intros a b Q N (t & I & r & B).
      destruct a as [|c1 [|c2 [|c3 a]]]; cbn in Q; try discriminate Q.
      * subst b. cbn in I. repeat (destruct I as [<-|I]; [discriminate B|]). destruct I.
      * injection Q as <- <-. cbn in I. repeat (destruct I as [<-|I]; [discriminate B|]). destruct I.
      * injection Q as <- <- <-. contradiction.
    + apply (tv_line [10%N] [] false); [left; reflexivity|constructor].
  - apply (fed_program C65_pieces (fed_of C65_words ++ [(TLineTerminator, snd end_of_input)]) 100 4000 (map (fun p => (false, snd p)) C65_words) true);
      [reflexivity|reflexivity|vm_compute; intuition discriminate|apply Nat.ltb_lt; reflexivity|apply Nat.leb_le; vm_compute; reflexivity|vm_compute; reflexivity].
  - split; [|split; [|split]]; intros nl K; cbn in K; repeat (destruct K as [K|K]; [discriminate K|]); exact K.
Qed.

(** The line feed is needed: the comment would take the closing brace. *)
Theorem C65_refuted : let code := removelast C65_source in
  parse_root debug_build 100 2000 code = Accepted /\ parse_root debug_build 100 2000 (braces code) = Rejected UnexpectedToken /\
  parse_root debug_build 100 2000 (braces C65_source) = Accepted.
Proof. split; [|split]; vm_compute; reflexivity. Qed.
Print Assumptions C65_refuted.
