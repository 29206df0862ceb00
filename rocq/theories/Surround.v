(** Sources with comments, divisions, regular expressions and templates between braces. *)
From Coq Require Import String List Arith NArith Bool Lia.
From Verif Require Import Base Tokens SpecBrackets SpecTokens SpecStream Tokenizer ByteFacts LexFacts TokenProps
  ParserCore ParserBody SpecParser SpecTrivia LexSuffix TriviaFacts SpecHints SpecGrammar SpecLanguage GrammarRules GrammarFacts ParserGrammar Coverage
  SpecSequel SpecEnclose SpecContext SpecWrapping SpecSurround Enclose Context Wrapping.
Import ListNotations.
Local Open Scope N_scope.

(** ** Trivia in front of more text *)
Lemma line_break_ahead s z : at_line_terminator s -> at_line_terminator (s ++ z).
Proof. intros (t & I & r & ->). exists t. split; [exact I|]. exists (r ++ z). symmetry. apply app_assoc. Qed.
Lemma line_break_cut s z : brace_ahead z -> at_line_terminator (s ++ z) -> at_line_terminator s.
Proof.
  intros Z (t & I & B). exists t. split; [exact I|]. apply (brace_cut t s z); [|exact Z|exact B].
  cbn in I. repeat (destruct I as [<-|I]; [repeat constructor; discriminate|]). destruct I.
Qed.
Lemma line_comment_more v r z : line_comment_text v r -> lines (s2b "//" ++ v ++ r) -> brace_ahead z -> line_comment_text v (r ++ z).
Proof.
  intros (A & B) L Z. split.
  - right. destruct A as [-> | A]; [|apply line_break_ahead, A]. exfalso. rewrite app_nil_r in L.
    destruct L as [L|(x & L)]; [discriminate L|]. destruct v as [|b v _] using rev_ind; [change (s2b "//" ++ []) with ([47] ++ [47]) in L; apply app_inj_tail in L; destruct L as (_ & L); discriminate L|].
    rewrite app_assoc in L. apply app_inj_tail in L. destruct L as (_ & ->). apply (B v [10]); [reflexivity|discriminate|]. exists [10]. split; [left; reflexivity|exists []; reflexivity].
  - intros a b E N K. rewrite app_assoc in K. apply line_break_cut in K; [|exact Z]. exact (B a b E N K).
Qed.
Lemma trivia_more g nl r z : trivia g nl r -> lines (g ++ r) -> brace_ahead z -> trivia g nl (r ++ z).
Proof.
  intros H L Z. induction H as [r|b g nl r Hb _ IH|t g nl r Ht _ IH|v g nl r Hv _ IH|v g nl r Hv Hc _ IH|v g nl r Hv Hc _ IH].
  - constructor.
  - apply tv_blank; [exact Hb|]. apply IH. exact (lines_rest [b] _ L).
  - rewrite <- app_assoc in L. eapply tv_line; [exact Ht|]. apply IH. exact (lines_rest t _ L).
  - rewrite <- !app_assoc in L. apply tv_line_comment; [rewrite app_assoc; apply line_comment_more; assumption|]. apply IH. exact (lines_rest v _ (lines_rest (s2b "//") _ L)).
  - rewrite <- !app_assoc in L. apply tv_block_comment; auto. apply IH. exact (lines_rest _ _ (lines_rest v _ (lines_rest (s2b "/*") _ L))).
  - rewrite <- !app_assoc in L. eapply tv_block_break; auto. apply IH. exact (lines_rest _ _ (lines_rest v _ (lines_rest (s2b "/*") _ L))).
Qed.

(** ** Other tokens before *)
(** Tokens up to an opening brace that do not change which readings are right. *)
Definition opening (pre : list token) : Prop :=
  Forall (eq false) (open_braces pre) /\ mentions_yield pre = false /\ mentions_if (rev pre) = false /\
  (exists past, rev pre = TPunctuator CurlyOpen :: past) /\ open_brackets (rev pre) = [Curly].
Lemma braces_behind l : forall s k, Forall (eq false) k -> exists k', Forall (eq false) k' /\ fold_left brace_step l (s ++ k) = fold_left brace_step l s ++ k'.
Proof.
  induction l as [|t l IH]; intros s k F; [exists k; auto|]. cbn [fold_left].
  assert (D : forall s0 : list bool, exists s1 k1, Forall (eq false) k1 /\ tl (s0 ++ k) = s1 ++ k1 /\ s1 = tl s0).
  { intros [|x s0]; [exists [], (tl k)|exists s0, k]; (split; [|split; reflexivity]); [destruct F; cbn; auto|exact F]. }
  assert (G : exists k1, Forall (eq false) k1 /\ brace_step (s ++ k) t = brace_step s t ++ k1).
  { destruct (D s) as (s1 & k1 & F1 & E1 & ->). destruct t as [p| | | | | | | |f c v|]; try (exists k; split; [exact F|reflexivity]).
    - destruct p; try (exists k; split; [exact F|reflexivity]). exists k1. split; [exact F1|exact E1].
    - destruct f; try (exists k; split; [exact F|reflexivity]). exists k1. split; [exact F1|exact E1]. }
  destruct G as (k1 & F1 & ->). apply IH, F1.
Qed.
Lemma substitution_behind pre past : opening pre -> in_substitution (pre ++ past) = in_substitution past.
Proof.
  intros (F & _). unfold in_substitution, open_braces in *. rewrite fold_left_app.
  destruct (braces_behind past [] _ F) as (k & Fk & Q). cbn [app] in Q. rewrite Q. destruct (fold_left brace_step past []); [|reflexivity]. destruct Fk as [|? ? <-]; reflexivity.
Qed.
Lemma operand_behind l past : after_operand l = true -> after_operand (l ++ TPunctuator CurlyOpen :: past) = true.
Proof.
  intros H.
  assert (W : forall m, wants_operand m = true -> wants_operand (m ++ TPunctuator CurlyOpen :: past) = true) by (intros [|x m] K; [discriminate K|exact K]).
  destruct l as [|t l]; [discriminate H|]. destruct t as [q| | | | | | | |f c v|]; cbn [after_operand app] in *; try discriminate H; auto.
  - destruct q; try discriminate H. destruct l as [|u l]; [reflexivity|]. destruct u; try reflexivity. cbn [app]. apply W, H.
  - destruct f; try discriminate H; auto.
Qed.
Lemma brackets_behind l : exists k, (k = [Curly] \/ k = []) /\ fold_right bracket_step [Curly] l = fold_right bracket_step [] l ++ k.
Proof.
  induction l as [|t l (k & K & Q)]; [exists [Curly]; auto|]. cbn [fold_right]. rewrite Q. set (s := fold_right bracket_step [] l). clearbody s.
  assert (D : exists k', (k' = [Curly] \/ k' = []) /\ tl (s ++ k) = tl s ++ k').
  { destruct s; [exists []|exists k]; (split; [auto|]); [destruct K as [-> | ->]; reflexivity|reflexivity]. }
  assert (S : forall d, set_dots d (s ++ k) = set_dots d s ++ k).
  { intros d. destruct s as [|[] s]; try reflexivity. destruct K as [-> | ->]; reflexivity. }
  destruct t as [p| | | | | | | |f c v|]; try (exists k; split; [exact K|reflexivity]).
  - destruct p; try (exists k; split; [exact K|reflexivity]); try exact D; exists k; (split; [exact K|apply S]).
  - destruct f; try (exists k; split; [exact K|reflexivity]); exact D.
Qed.
Lemma before_behind l past : mentions_if past = false -> open_brackets (TPunctuator CurlyOpen :: past) = [Curly] ->
  before_operand l = true -> before_operand (l ++ TPunctuator CurlyOpen :: past) = true.
Proof.
  intros I O H. destruct l as [|t l]; [reflexivity|]. destruct t as [q|name| | | | | | | |]; cbn [before_operand app] in *; try discriminate H.
  - destruct q; try discriminate H; try reflexivity.
    + unfold mentions_if in *. rewrite negb_true_iff in *. rewrite existsb_app. cbn [existsb orb]. rewrite H, I. reflexivity.
    + unfold comma_settles, open_brackets in *. rewrite fold_right_app. change (fold_right bracket_step [] (TPunctuator CurlyOpen :: past)) with (open_brackets (TPunctuator CurlyOpen :: past)).
      unfold open_brackets. rewrite O. destruct (brackets_behind l) as (k & K & ->). destruct (fold_right bracket_step [] l); [destruct K as [-> | ->]; reflexivity|exact H].
  - rewrite andb_true_iff in *. destruct H as (H1 & H2). split; [exact H1|]. destruct l; [reflexivity|exact H2].
Qed.
Lemma suits_behind pre past t h : opening pre -> suits (pre ++ past) t h -> suits past t h.
Proof.
  intros O (B & S). pose proof O as (_ & Y & M & (p & P) & Br). split.
  - intros C. rewrite (B C). apply substitution_behind, O.
  - intros N. assert (N' : mentions_yield (pre ++ past) = false) by (unfold mentions_yield in *; rewrite existsb_app, Y, N; reflexivity).
    destruct (S N') as (S1 & S2). rewrite rev_app_distr, P in S1, S2. rewrite P in M, Br. cbn [mentions_if existsb orb] in M. split.
    + intros D A. apply S1; [exact D|]. apply operand_behind. exact A.
    + intros D A. apply S2; [exact D|]. apply before_behind; assumption.
Qed.

(** ** The pieces of a source *)
Lemma printed_lines checks past ps code z pre : printed checks past ps code -> lines code -> brace_ahead z -> opening pre ->
  exists ps' g nl, ps = ps' ++ [Piece g (nl, TEOF) []] /\ trivia g nl z /\
    forall pz, printed checks (pre ++ past ++ map snd (map word_token ps')) pz (g ++ z) -> printed checks (pre ++ past) (ps' ++ pz) (code ++ z).
Proof.
  intros H L Z O. induction H as [past g nl Tg|past g nl t w ps code Tg W Sg Hl _ IH].
  - exists [], g, nl. split; [reflexivity|]. split; [exact (trivia_more g nl [] z Tg ltac:(rewrite app_nil_r; exact L) Z)|].
    intros pz Pz. cbn [map app] in *. rewrite app_nil_r in Pz. exact Pz.
  - pose proof (lines_rest _ _ (lines_rest _ _ L)) as L'. destruct (IH L') as (ps' & g' & nl' & -> & T' & K).
    exists (Piece g (nl, t) w :: ps'), g', nl'. split; [reflexivity|]. split; [exact T'|]. intros pz Pz. cbn [map word_token snd app] in *.
    rewrite <- !app_assoc. apply pr_cons; [rewrite app_assoc; apply trivia_more; assumption|exact W|exact Sg| |].
    + intros h Sh. apply lexeme_more; auto; [apply Hl; eapply suits_behind; eassumption|destruct t; try reflexivity; destruct Sg].
    + rewrite <- app_assoc. apply K. rewrite <- !app_assoc. exact Pz.
Qed.
Lemma printed_close checks past g nl z pz : trivia g nl (s2b "}" ++ z) -> in_substitution past = false ->
  printed checks (past ++ [TPunctuator CurlyClose]) pz z ->
  printed checks past (Piece g (nl, TPunctuator CurlyClose) (s2b "}") :: pz) (g ++ s2b "}" ++ z).
Proof.
  intros B NS P. apply pr_cons; [exact B|discriminate|exact I| |exact P].
  intros h (Sb & _). apply lx_curly_close. rewrite (Sb (or_introl eq_refl)). exact NS.
Qed.
Scheme balanced_two := Induction for balanced Sort Prop with template_rest_two := Induction for template_rest Sort Prop.
Lemma balanced_braces l : balanced l -> forall s, fold_left brace_step l s = s.
Proof.
  intros H. induction H using balanced_two with (P0 := fun l _ => forall x s, fold_left brace_step l (x :: s) = s); intros; cbn [fold_left].
  - reflexivity.
  - replace (brace_step s t) with s; [auto|]. destruct t as [q| | | | | | | |f c v|]; try reflexivity.
    + destruct q; try reflexivity; exfalso; apply p; eexists _, _; (split; [right; right; left; reflexivity|auto]).
    + cbn in p. subst f. reflexivity.
  - rewrite fold_left_app, IHbalanced1. cbn [fold_left]. cbn in i. destruct i as [[= <- <-]|[[= <- <-]|[[= <- <-]|[]]]]; apply IHbalanced2.
  - rewrite fold_left_app. change (brace_step s (TTemplate TF_Head a b)) with (true :: s). rewrite IHbalanced. apply IHbalanced0.
  - rewrite fold_left_app, IHbalanced. reflexivity.
  - rewrite fold_left_app, IHbalanced. cbn [fold_left brace_step]. apply IHbalanced0.
Qed.

(** ** Sources of given tokens *)
Section Sources.
Variable E : env.
Notation checks := (overflow_checks E).
Definition source_of_script (code : bytes) (a : tokens) (nl : bool) : Prop :=
  utf8 code /\ (exists v, code = v ++ [10]) /\ script a nl /\
  exists ps g, printed checks [] (ps ++ [Piece g (nl, TEOF) []]) code /\ map word_token ps = a.

Lemma script_source ps code : utf8 code -> (exists v, code = v ++ [10]) -> printed checks [] ps code -> program (map word_token ps) ->
  without "import" (map word_token ps) -> without "export" (map word_token ps) ->
  exists a nl, source_of_script code a nl /\ map word_token ps = a ++ [(nl, TEOF)].
Proof.
  intros U L P Pr I X.
  destruct (printed_lines checks [] ps code (s2b "}") [TPunctuator CurlyOpen] P) as (ps' & g & nl & -> & _); [right; exact L|eexists _, _; split; reflexivity| |].
  { split; [repeat constructor|]. split; [reflexivity|]. split; [reflexivity|]. split; [eexists; reflexivity|reflexivity]. }
  rewrite map_app in *. cbn [map word_token] in *. exists (map word_token ps'), nl. split; [|reflexivity].
  split; [exact U|]. split; [exact L|]. split; [|exists ps', g; auto].
  apply program_script; [intros b K; apply (I b), in_or_app; left; exact K|intros b K; apply (X b), in_or_app; left; exact K|exact Pr].
Qed.

(** The pieces of the source behind those of [pre], with a closing brace behind them. *)
Lemma surrounded code a nl pre z : source_of_script code a nl -> opening pre ->
  exists ps, map word_token ps = a ++ [(nl, TPunctuator CurlyClose)] /\
    forall pz, printed checks (pre ++ map snd a ++ [TPunctuator CurlyClose]) pz z -> printed checks pre (ps ++ pz) (code ++ s2b "}" ++ z).
Proof.
  intros (U & L & S & ps & g & P & M) O.
  destruct (printed_lines checks [] _ code (s2b "}" ++ z) pre P (or_intror L)) as (ps' & g' & nl' & Q & T & K); [eexists _, _; split; reflexivity|exact O|].
  apply app_inj_tail in Q. destruct Q as (<- & Q). injection Q as <- <-. rewrite M in K. cbn [app] in K. rewrite app_nil_r in K.
  exists (ps ++ [Piece g (nl, TPunctuator CurlyClose) (s2b "}")]). split; [rewrite map_app, M; reflexivity|]. intros pz Pz. rewrite <- app_assoc. apply K. cbn [app].
  apply printed_close; [exact T| |rewrite <- app_assoc; exact Pz].
  rewrite (substitution_behind _ _ O). unfold in_substitution, open_braces.
  assert (B : balanced (map snd (a ++ [(nl, TEOF)]))) by (apply (module_balanced no_parameters), script_program, S).
  assert (F := balanced_braces _ B []). rewrite map_app, fold_left_app in F. cbn [map snd fold_left brace_step] in F. exact (f_equal (hd false) F).
Qed.
Lemma line_end past : printed checks past [Piece [10] (true, TEOF) []] [10].
Proof. apply line_printed. Qed.
Lemma wrapped_utf8 code s : utf8 code -> forallb (fun b => b <? 128) s = true -> utf8 (s ++ code ++ s2b "}" ++ [10]).
Proof. intros U A. apply utf8_app; [apply ascii_utf8, A|]. apply utf8_app; [exact U|apply ascii_utf8; reflexivity]. Qed.

Theorem braces_source code a nl : source_of_script code a nl -> source_of_script (braces code) (in_block a nl) true.
Proof.
  intros H. pose proof H as (U & L & S & _).
  destruct (surrounded code a nl [TPunctuator CurlyOpen] [10] H) as (ps & M & P).
  { split; [repeat constructor|]. split; [reflexivity|]. split; [reflexivity|]. split; [eexists; reflexivity|reflexivity]. }
  split; [apply wrapped_utf8; [exact U|reflexivity]|]. split; [exists (s2b "{" ++ code ++ s2b "}"); unfold braces; rewrite <- !app_assoc; reflexivity|].
  split; [apply block_script, S|]. exists (Piece [] (false, TPunctuator CurlyOpen) (s2b "{") :: ps), [10]. split; [|cbn [map word_token]; rewrite M; reflexivity].
  apply (pr_cons _ [] [] false); [constructor|discriminate|exact I|intros; apply brace_lexeme|]. apply P, line_end.
Qed.
Lemma name_lexeme h r : lexeme checks h (s2b "f") (TIdent (s2b "f")) (s2b "(" ++ r).
Proof.
  apply lx_ident; [left; vm_compute; split; discriminate|unfold digit; vm_compute; intros (_ & H); apply H; reflexivity|constructor|].
  change (s2b "(" ++ r) with (40 :: r). rewrite head_is_cons. unfold ident_char, lower, upper, digit. lia.
Qed.
Lemma keyword_lexeme h r : lexeme checks h (s2b "function") (TIdent (s2b "function")) (s2b " " ++ r).
Proof.
  apply lx_ident; [left; vm_compute; split; discriminate|unfold digit; vm_compute; intros (_ & H); apply H; reflexivity| |].
  - repeat (apply Forall_cons; [left; vm_compute; split; discriminate|]). constructor.
  - change (s2b " " ++ r) with (32 :: r). rewrite head_is_cons. unfold ident_char, lower, upper, digit. lia.
Qed.
Theorem declared_source code a nl : source_of_script code a nl -> source_of_script (declared code) (in_function (word "f") a nl) true.
Proof.
  intros H. pose proof H as (U & L & S & _).
  destruct (surrounded code a nl [TIdent (s2b "function"); TIdent (s2b "f"); TPunctuator ParenOpen; TPunctuator ParenClose; TPunctuator CurlyOpen] [10] H) as (ps & M & P).
  { split; [repeat constructor|]. split; [reflexivity|]. split; [reflexivity|]. split; [eexists; reflexivity|reflexivity]. }
  split; [apply wrapped_utf8; [exact U|reflexivity]|]. split; [exists (s2b "function f(){" ++ code ++ s2b "}"); unfold declared; rewrite <- !app_assoc; reflexivity|].
  split; [apply (function_script false); [reflexivity|exact S]|].
  exists (Piece [] (false, TIdent (s2b "function")) (s2b "function") :: Piece [32] (false, TIdent (s2b "f")) (s2b "f") :: Piece [] (false, TPunctuator ParenOpen) (s2b "(") ::
    Piece [] (false, TPunctuator ParenClose) (s2b ")") :: Piece [] (false, TPunctuator CurlyOpen) (s2b "{") :: ps), [10].
  split; [|cbn [map word_token]; rewrite M; reflexivity].
  apply (pr_cons _ [] [] false _ (s2b "function") _ (s2b " " ++ s2b "f" ++ s2b "(" ++ s2b ")" ++ s2b "{" ++ code ++ s2b "}" ++ [10])); [constructor|discriminate|exact I|intros; apply keyword_lexeme|].
  apply (pr_cons _ _ [32] false _ (s2b "f") _ (s2b "(" ++ s2b ")" ++ s2b "{" ++ code ++ s2b "}" ++ [10])); [apply tv_blank; [unfold blank; lia|constructor]|discriminate|exact I|intros; apply name_lexeme|].
  apply (pr_cons _ _ [] false _ (s2b "(") _ (s2b ")" ++ s2b "{" ++ code ++ s2b "}" ++ [10])); [constructor|discriminate|exact I|intros; apply open_lexeme|].
  apply (pr_cons _ _ [] false _ (s2b ")") _ (s2b "{" ++ code ++ s2b "}" ++ [10])); [constructor|discriminate|exact I|intros; apply close_lexeme|].
  apply (pr_cons _ _ [] false _ (s2b "{") _ (code ++ s2b "}" ++ [10])); [constructor|discriminate|exact I|intros; apply brace_lexeme|].
  apply P, line_end.
Qed.
Theorem arrow_source code a nl : quiet a -> source_of_script code a nl -> source_of_script (arrow code) (in_arrow a nl) true.
Proof.
  intros Q H. pose proof H as (U & L & S & _).
  destruct (surrounded code a nl [TPunctuator ParenOpen; TPunctuator ParenClose; TPunctuator Arrow; TPunctuator CurlyOpen] [10] H) as (ps & M & P).
  { split; [repeat constructor|]. split; [reflexivity|]. split; [reflexivity|]. split; [eexists; reflexivity|reflexivity]. }
  split; [apply wrapped_utf8; [exact U|reflexivity]|]. split; [exists (s2b "()=>{" ++ code ++ s2b "}"); unfold arrow; rewrite <- !app_assoc; reflexivity|].
  split; [apply arrow_script; assumption|].
  exists (Piece [] (false, TPunctuator ParenOpen) (s2b "(") :: Piece [] (false, TPunctuator ParenClose) (s2b ")") :: Piece [] (false, TPunctuator Arrow) (s2b "=>") ::
    Piece [] (false, TPunctuator CurlyOpen) (s2b "{") :: ps), [10].
  split; [|cbn [map word_token]; rewrite M; reflexivity].
  apply (pr_cons _ [] [] false _ (s2b "(") _ (s2b ")" ++ s2b "=>" ++ s2b "{" ++ code ++ s2b "}" ++ [10])); [constructor|discriminate|exact I|intros; apply open_lexeme|].
  apply (pr_cons _ _ [] false _ (s2b ")") _ (s2b "=>" ++ s2b "{" ++ code ++ s2b "}" ++ [10])); [constructor|discriminate|exact I|intros; apply close_lexeme|].
  apply (pr_cons _ _ [] false _ (s2b "=>") _ (s2b "{" ++ code ++ s2b "}" ++ [10])); [constructor|discriminate|exact I|intros; apply arrow_lexeme|].
  apply (pr_cons _ _ [] false _ (s2b "{") _ (code ++ s2b "}" ++ [10])); [constructor|discriminate|exact I|intros; apply brace_lexeme|].
  apply P, line_end.
Qed.
Theorem many_braces_source k code a nl : source_of_script code a nl -> exists a' nl', source_of_script (many_braces k code) a' nl'.
Proof. intros H. induction k as [|k (a' & nl' & IH)]; [eauto|]. eexists _, _. apply braces_source, IH. Qed.
Theorem source_accepted code a nl r n : source_of_script code a nl -> (length code < r)%nat -> (20 * length code + 80 <= n)%nat -> parse_root E r n code = Accepted.
Proof.
  intros (U & _ & S & ps & g & P & M) R N. apply (c30_accepted E r n _ code U P); auto. rewrite map_app, M. apply script_program, S.
Qed.
End Sources.
