(** What the parser accepts, in terms of the tokens it is given. *)
From Coq Require Import String List Arith NArith Bool Lia.
From Verif Require Import SpecDeviations Deviations.
From Verif Require Import Base Tokens ParserCore ParserBody SpecParser SpecGrammar SpecLanguage SpecSemicolons SpecEnclose SpecFed.
From Verif Require Import SpecSequel SpecContext SpecBrackets Coverage ParserGrammar GrammarFacts Semicolons OneLine Sequel Enclose Context Unwrap.
Import ListNotations.
Local Open Scope list_scope.

Definition break_ (nl : bool) : list (token * token_range) := if nl then [(TLineTerminator, snd end_of_input)] else [].
Fixpoint laid_out (a : tokens) : list (token * token_range) :=
  match a with [] => [] | (nl, t) :: a => break_ nl ++ (t, snd end_of_input) :: laid_out a end.
Lemma laid_out_significant a nl : real_tokens a -> significant false ((laid_out a ++ break_ nl) ++ [end_of_input]) = a ++ [(nl, TEOF)].
Proof.
  induction 1 as [|[b t] a H _ IH]; cbn [laid_out app].
  - destruct nl; reflexivity.
  - rewrite <- !app_assoc. cbn [app]. rewrite <- !app_assoc in IH. cbn [snd] in H.
    destruct b; cbn [break_ app significant]; destruct t; try contradiction H; apply f_equal, IH.
Qed.
Lemma program_accepted a nl : program (a ++ [(nl, TEOF)]) -> parser_accepts a nl.
Proof. intros P log r n S L M. apply (feed_exact log r n L M). exists []. unfold delivered. rewrite S. exact P. Qed.
Lemma accepted_program a nl : real_tokens a -> parser_accepts a nl -> program (a ++ [(nl, TEOF)]).
Proof.
  intros R A. pose proof (laid_out_significant a nl R) as S. set (log := laid_out a ++ break_ nl) in *.
  assert (L : length log < Datatypes.S (length log)) by lia. pose proof (A log _ _ S L (le_n _)) as Y.
  destruct (proj1 (proj1 (feed_exact log _ _ L (le_n _))) Y) as (rest & D). unfold delivered in D. rewrite S in D.
  assert (N : ~ In TEOF (map snd a)).
  { intros I. apply in_map_iff in I. destruct I as (x & Ex & Ix). unfold real_tokens in R. rewrite Forall_forall in R. specialize (R x Ix). rewrite Ex in R. exact R. }
  pose proof (module_end _ _ _ _ D N) as ->. exact D.
Qed.
Theorem accepts_programs a nl : real_tokens a -> (parser_accepts a nl <-> program (a ++ [(nl, TEOF)])).
Proof. intros R. split; [apply accepted_program, R|apply program_accepted]. Qed.

Lemma real_app a b : real_tokens a -> real_tokens b -> real_tokens (a ++ b).
Proof. intros A B. apply Forall_app. auto. Qed.
Lemma real_blocks n a nl : real_tokens a -> real_tokens (in_blocks n a nl).
Proof.
  intros R. induction n as [|n IH]; [exact R|]. cbn [in_blocks]. constructor; [exact Logic.I|]. apply real_app; [exact IH|]. repeat constructor.
Qed.

(** ** C56, C57 *)
Lemma accepted_semicolons a nl : real_tokens a -> parser_accepts a nl ->
  exists a', semicolons_added (a ++ [(nl, TEOF)]) (a' ++ [(nl, TEOF)]) /\ explicit_program (a' ++ [(nl, TEOF)]) /\ parser_accepts a' nl.
Proof.
  intros R A. apply accepted_program in A; [|exact R]. destruct (semicolons_can_be_written _ A) as (l' & C & X).
  pose proof (explicit_program_program _ X) as Pl. destruct (module_eof _ _ _ Pl) as (a' & nl' & E & Ne). subst l'.
  assert (nl' = nl) as ->.
  { destruct (completed_in _ _ _ _ C nl []) as [_ K]. specialize (K (in_or_app _ _ _ (or_intror (in_eq _ _)))).
    apply in_app_or in K. destruct K as [K|[K|[]]]; [|congruence]. exfalso. apply Ne. apply (in_map snd) in K. exact K. }
  exists a'. split; [exact C|]. split; [exact X|apply program_accepted, Pl].
Qed.
Lemma accepted_one_line a nl : explicit_program (a ++ [(nl, TEOF)]) -> SpecSemicolons.calm (a ++ [(nl, TEOF)]) = true -> parser_accepts (one_line a) false.
Proof.
  intros X C. apply program_accepted. pose proof (explicit_program_program _ (fits_on_one_line _ X C)) as Pr.
  unfold one_line in *. rewrite map_app in Pr. exact Pr.
Qed.
Lemma accepted_sequence a nl b nl' : explicit_program (a ++ [(nl, TEOF)]) -> without "throw" a -> fresh_start (b ++ [(nl', TEOF)]) ->
  real_tokens b -> parser_accepts b nl' -> parser_accepts (a ++ b) nl'.
Proof.
  intros X W F R A. apply program_accepted. rewrite <- app_assoc. eapply programs_in_sequence; [exact X|exact W|exact F|]. apply accepted_program; assumption.
Qed.

(** ** C61, C62 *)
Lemma accepted_script a nl : real_tokens a -> without "import" a -> without "export" a -> (parser_accepts a nl <-> script a nl).
Proof. intros R I X. rewrite (accepts_programs a nl R). split; [exact (program_script a nl I X)|exact (script_program a nl)]. Qed.
Lemma accepted_blocks a nl : real_tokens a -> without "import" a -> without "export" a -> parser_accepts a nl ->
  (forall k, parser_accepts (in_blocks k a nl) nl) /\
  (forall b name nl', bindable no_parameters name = true -> parser_accepts (in_function (b, TIdent name) a nl) nl').
Proof.
  intros R I X A. apply accepted_script in A; try assumption. split; intros; apply program_accepted, script_program; [apply blocks_script, A|apply function_script; assumption].
Qed.
Lemma accepted_unwrapped k a nl : real_tokens a -> without "import" a -> without "export" a -> balanced (map snd a) ->
  (parser_accepts a nl <-> parser_accepts (in_blocks (S k) a nl) nl).
Proof.
  intros R I X B. split; [intros A; apply accepted_blocks; assumption|]. intros A. apply accepted_script; try assumption.
  apply (all_unwrapped k a nl B). apply accepted_program; [apply (real_blocks (S k)), R|exact A].
Qed.

(** ** C39 *)
Lemma accepted_superfluous v a nl : real_tokens a -> parser_accepts a nl -> Forall (fun pre => parser_accepts (pre ++ a) nl) (superfluous v).
Proof.
  intros R A. eapply Forall_impl; [|exact (superfluous_accepted v _ (accepted_program a nl R A))].
  intros pre H. cbv beta in H. apply program_accepted. rewrite <- app_assoc. exact H.
Qed.
Lemma accepted_label b b1 b2 w a nl : one_of no_parameters (declaration_keyword ++ statement_keyword) (TIdent w) = false ->
  real_tokens a -> parser_accepts a nl -> parser_accepts ((b, TIdent w) :: (b1, TPunctuator Colon) :: (b2, TPunctuator Semicolon) :: a) nl.
Proof. intros O R A. apply program_accepted. apply (any_label b b1 b2 w _ O). apply accepted_program; assumption. Qed.
