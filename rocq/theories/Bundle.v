(** Sources one after another. *)
From Coq Require Import String List Arith NArith Bool Lia.
From Verif Require Import Base Tokens SpecTokens SpecStream Tokenizer ByteFacts TokenProps
  ParserCore ParserBody SpecParser SpecTrivia TriviaFacts SpecHints SpecGrammar SpecLanguage GrammarRules GrammarFacts ParserGrammar Coverage
  SpecSequel SpecEnclose SpecContext SpecWrapping SpecBundle Enclose Wrapping.
Import ListNotations.
Local Open Scope N_scope.

Definition opened (b : bool) (a : tokens) (nl : bool) : tokens := (b, TPunctuator CurlyOpen) :: a ++ [(nl, TPunctuator CurlyClose)].
Lemma block_first b a nl k r : script a nl -> derives no_parameters NStatementList k r -> derives no_parameters NStatementList (opened b a nl ++ k) r.
Proof.
  intros S D. eapply by_production; [left; reflexivity|]. eapply d_nonterminal with (m := k); [|eapply d_nonterminal; [exact D|constructor]].
  eapply by_production; [right; left; reflexivity|]. apply d_condition; [reflexivity|]. eapply d_nonterminal; [|constructor].
  eapply by_production; [left; reflexivity|]. eapply d_nonterminal; [|constructor].
  unfold opened. cbn [app]. rewrite <- app_assoc. cbn [app]. eapply by_production; [left; reflexivity|].
  apply d_token; [reflexivity|]. eapply d_nonterminal; [exact (proj1 (script_enclosed a nl k) S)|]. apply d_token; [reflexivity|]. constructor.
Qed.

Section Bundle.
Variables (E : env).
Definition bundled (code : bytes) : Prop :=
  simple_source code /\ absent (s2b "import") code /\ absent (s2b "export") code /\ exists r n, parse_root E r n code = Accepted.
Lemma bundle_utf8 codes : Forall bundled codes -> utf8 (bundle codes).
Proof.
  induction 1 as [|code codes (S & _) _ IH]; [constructor|]. unfold bundle in *. cbn [map concat]. apply utf8_app; [|exact IH].
  apply utf8_app; [apply ascii_utf8; reflexivity|]. apply utf8_app; [apply S|apply ascii_utf8; reflexivity].
Qed.
Lemma bundle_printed codes : Forall bundled codes -> forall g b past, bare g b -> Forall no_template past ->
  exists ps ts nl, map word_token ps = ts ++ [(nl, TEOF)] /\ script ts nl /\ printed (overflow_checks E) past ps (g ++ bundle codes).
Proof.
  induction 1 as [|code codes (S & I & X & r & n & A) _ IH]; intros g b past G NP.
  - exists [Piece g (b, TEOF) []], [], b. split; [reflexivity|]. split; [apply end_derived|]. unfold bundle. cbn [map concat]. rewrite app_nil_r. apply pr_end, bare_trivia, G.
  - destruct (around E r n code S I X A) as (a & nl & Sa & _ & H).
    destruct (H (s2b "}" ++ [10] ++ bundle codes) (past ++ [TPunctuator CurlyOpen])) as (ps & gl & B & M & NP' & P);
      [eexists _, _; split; reflexivity|apply Forall_app; split; [exact NP|repeat constructor]|].
    destruct (IH [10] true ((past ++ [TPunctuator CurlyOpen]) ++ map snd a ++ [TPunctuator CurlyClose])) as (ps' & ts & nl' & M' & S' & P').
    + apply (bare_line [10] [] false); [left; reflexivity|constructor].
    + rewrite app_assoc. apply Forall_app. split; [exact NP'|repeat constructor].
    + exists (Piece g (b, TPunctuator CurlyOpen) (s2b "{") :: ps ++ Piece gl (nl, TPunctuator CurlyClose) (s2b "}") :: ps'), (opened b a nl ++ ts), nl'.
      split; [|split].
      * cbn [map word_token]. rewrite map_app, M. cbn [map word_token]. rewrite M'. unfold opened. cbn [app]. rewrite <- !app_assoc. reflexivity.
      * unfold script. rewrite <- app_assoc. apply block_first; [exact Sa|exact S'].
      * assert (Q : g ++ bundle (code :: codes) = g ++ s2b "{" ++ code ++ s2b "}" ++ [10] ++ bundle codes).
        { unfold bundle, braces. cbn [map concat]. rewrite <- !app_assoc. reflexivity. }
        rewrite Q. apply pr_cons; [apply bare_trivia, G|discriminate|exact Logic.I|intros; apply brace_lexeme|].
        apply P. apply closing_printed; [exact B|exact NP'|]. rewrite <- app_assoc. exact P'.
Qed.
Theorem bundle_accepted codes r' n' : Forall bundled codes -> (length (bundle codes) < r')%nat -> (20 * length (bundle codes) + 80 <= n')%nat ->
  parse_root E r' n' (bundle codes) = Accepted.
Proof.
  intros F R N. destruct (bundle_printed codes F [] false []) as (ps & ts & nl & M & S & P); [constructor..|].
  apply (c30_accepted E r' n' ps); auto using bundle_utf8. rewrite M. apply script_program, S.
Qed.
End Bundle.
