(** Sources whose tokens, read under the right hints, are a program. *)
From Coq Require Import String List Arith NArith Bool Lia.
From Verif Require Import Base Tokens SpecTokens SpecStream Tokenizer ByteFacts NumberFacts LexFacts LexTotal NextFacts TokenProps TokenProps2
  ParserCore ParserBody SpecParser AbstractParser ParserExec Replay ParserProps ParserProps2 HintParser SpecTrivia LexSuffix TriviaFacts Respacing
  SpecGrammar SpecLanguage GrammarRules GrammarFacts DerivationInv ParserGrammar SpecHints BraceHints RightHints.
Import ListNotations.

Lemma tail_of {A} (x : A) w y l : w ++ [y] = x :: l -> (w = [] /\ x = y /\ l = []) \/ exists w', w = x :: w' /\ w' ++ [y] = l.
Proof.
  destruct w as [|z w]; cbn; intros H.
  - injection H as <- <-. auto.
  - injection H as <- <-. right. exists w. auto.
Qed.

(** ** The value of a number does not matter *)
Definition same_la (a b : lookahead) : Prop := fst a = fst b /\ same_token (snd a) (snd b).
Notation same := (Forall2 same_la).

Lemma same_token_refl t : same_token t t.
Proof. destruct t; cbn; auto. Qed.
Lemma same_token_matches g t a b : same_token a b -> matches g t a = matches g t b.
Proof. destruct a, b; cbn; try discriminate; intros H; try (injection H; intros; subst); destruct t; reflexivity. Qed.
Lemma same_one g ts a b : same_token a b -> one_of g ts a = one_of g ts b.
Proof. intros H. unfold one_of. induction ts as [|t ts IH]; [reflexivity|]. cbn. rewrite (same_token_matches g t a b H), IH. reflexivity. Qed.
Lemma same_next i j : same i j -> same_la (next i) (next j).
Proof. destruct 1; cbn; [split; [reflexivity|cbn; auto]|assumption]. Qed.
Lemma same_tl i j : same i j -> same (tl i) (tl j).
Proof. destruct 1; cbn; auto. Qed.
Lemma same_insertable b i j : same i j -> insertable b i = insertable b j.
Proof.
  intros H. destruct (same_next i j H) as [H1 H2]. unfold insertable. rewrite H1. destruct (next i) as [x t], (next j) as [y u]. cbn [snd] in *.
  destruct t, u; cbn in H2; try discriminate; try (injection H2; intros; subst); reflexivity.
Qed.

Definition plain_condition (c : condition) : Prop := forall g i j, same i j -> c g i = c g j.
Ltac plain_ S :=
  let N1 := fresh in let N2 := fresh in let M1 := fresh in let M2 := fresh in
  destruct (same_next _ _ S) as [N1 N2]; destruct (same_next _ _ (same_tl _ _ S)) as [M1 M2];
  unfold line_break, no_line_break, no, no_pair, pair, both, only_if; rewrite ?N1, ?M1;
  repeat match type of N2 with same_token ?a _ => match goal with |- context [one_of ?g ?ts a] => rewrite (same_one g ts _ _ N2) end end;
  repeat match type of M2 with same_token ?a _ => match goal with |- context [one_of ?g ?ts a] => rewrite (same_one g ts _ _ M2) end end;
  reflexivity.
Definition plain_sym (s : sym) : Prop := match s with When c => plain_condition c | _ => True end.
Lemma plain_prods n : Forall (Forall plain_sym) (prods n).
Proof.
  all_prods n; cbn [prods]; unfold star;
    repeat match goal with
    | |- Forall _ _ => constructor
    | |- plain_sym (When ?c) =>
      let S := fresh "S" in intros g i j S; try unfold c;
      unfold no_item, no_function_start, no_for_let, for_let, async_function, both; plain_ S
    | |- plain_sym _ => exact Logic.I
    end.
Qed.

Lemma same_derives :
  (forall g n i r, derives g n i r -> forall i', same i i' -> exists r', same r r' /\ derives g n i' r') /\
  (forall g alpha i r, derives_seq g alpha i r -> Forall plain_sym alpha -> forall i', same i i' ->
     exists r', same r r' /\ derives_seq g alpha i' r').
Proof.
  apply derives_both.
  - intros g n alpha i r I _ IH i' S. pose proof (plain_prods n) as P. rewrite Forall_forall in P.
    destruct (IH (P _ I) i' S) as (r' & S' & D). exists r'. split; [exact S'|]. econstructor; eassumption.
  - intros g i _ i' S. exists i'. split; [exact S|constructor].
  - intros g ts nl t i alpha r O _ IH F i' S. inversion F; subst. inversion S as [|? [nl' t'] ? i2 [E1 E2] S2]; subst. cbn in E1, E2. subst nl'.
    destruct (IH ltac:(assumption) i2 S2) as (r' & S' & D). exists r'. split; [exact S'|].
    constructor; [|exact D]. rewrite <- (same_one g ts _ _ E2). exact O.
  - intros g n ch i m alpha r _ IH1 _ IH2 F i' S. inversion F; subst. destruct (IH1 i' S) as (m' & Sm & D1).
    destruct (IH2 ltac:(assumption) m' Sm) as (r' & S' & D2). exists r'. split; [exact S'|]. econstructor; eassumption.
  - intros g b nl i alpha r _ IH F i' S. inversion F; subst. inversion S as [|? [nl' t'] ? i2 [E1 E2] S2]; subst. cbn in E1, E2. subst nl'.
    assert (t' = TPunctuator Semicolon) as -> by (destruct t'; cbn in E2; congruence).
    destruct (IH ltac:(assumption) i2 S2) as (r' & S' & D). exists r'. split; [exact S'|]. constructor. exact D.
  - intros g b i alpha r N Ins _ IH F i' S. inversion F; subst. destruct (IH ltac:(assumption) i' S) as (r' & S' & D).
    exists r'. split; [exact S'|]. destruct (same_next _ _ S) as [_ E2]. apply d_inserted; [|rewrite <- (same_insertable b _ _ S); exact Ins|exact D].
    intros K. rewrite K in E2. apply N. destruct (snd (next i)); cbn in E2; congruence.
  - intros g c i alpha r C _ IH F i' S. inversion F as [|? ? P F']; subst. destruct (IH F' i' S) as (r' & S' & D).
    exists r'. split; [exact S'|]. constructor; [|exact D]. rewrite <- (P g i i' S). exact C.
Qed.

Lemma same_program l l' : program l -> same l l' -> program l'.
Proof.
  intros P S. destruct (proj1 same_derives _ _ _ _ P l' S) as (r' & S' & D). inversion S'; subst. exact D.
Qed.
Lemma same_sym l l' : same l l' -> same l' l.
Proof.
  induction 1 as [|a b l l' [H1 H2] _ IH]; constructor; [|exact IH]. split; [auto|].
  destruct (snd a), (snd b); cbn in *; try discriminate; auto.
Qed.

(** ** Words in front of a blank *)
Lemma written_printed checks past ps code : written checks past ps code -> printed checks past ps code.
Proof.
  induction 1 as [past g nl Tv|past g nl t w ps code Tv Nw Sg Hl Sp _ IH]; constructor; try assumption.
  intros h S. eapply lexeme_alike; [apply Hl; exact S| |exact Nw|].
  - apply alike_sep; [|exact Sp]. left. exists 32%N, []. split; [reflexivity|]. unfold blank. auto.
  - intros v ->. destruct Sg.
Qed.

(** ** Completeness *)
Section Sources.
Variable E : env.
Notation checks := (overflow_checks E).
(** [misfit] finds every hint that is not a right one, and accepted runs have none. *)
Variable misfit : list token -> bool -> bool -> lookahead -> bool.
Hypothesis misfit_suits : forall past h la, misfit past (h_expression h) (h_template h) la = false -> suits (rev past) (snd la) h.
Hypothesis no_misfit : forall n i a st', hinterp misfit TEOF (hexec misfit TEOF n) parse_module flags_default (HS 0 false [] false i) = HOk a st' ->
  hbad st' = false.

(** The tokenizer reads the words of [ps] as its tokens. *)
Inductive readable : list token -> list piece -> bytes -> Prop :=
| re_end past g nl : trivia g nl [] -> readable past [Piece g (nl, TEOF) []] g
| re_cons past g nl t w ps code :
    trivia g nl (w ++ code) -> w <> [] -> is_trivia t = false ->
    (forall h, suits past t h -> lexeme checks h w t code /\ read_next E (w ++ code) h = TOk (t, length w)) ->
    readable (past ++ [t]) ps code -> readable past (Piece g (nl, t) w :: ps) (g ++ w ++ code).

Lemma same_brace t t' s : same_token t t' -> brace_step s t = brace_step s t'.
Proof. destruct t, t'; cbn; try discriminate; intros H; try (injection H; intros; subst); reflexivity. Qed.
Lemma same_braces a b s : Forall2 same_token a b -> fold_left brace_step a s = fold_left brace_step b s.
Proof. intros H. revert s. induction H as [|x y a b S _ IH]; intros s; [reflexivity|]. cbn. rewrite (same_brace x y s S). apply IH. Qed.
Lemma same_rev a b : Forall2 same_token a b -> Forall2 same_token (rev a) (rev b).
Proof. induction 1; cbn; [constructor|]. apply Forall2_app; auto. Qed.
Lemma same_wants a b : Forall2 same_token a b -> wants_operand a = wants_operand b.
Proof.
  destruct 1 as [|x y a b S _]; [reflexivity|]. destruct x, y; cbn in S; try discriminate; try contradiction; try (injection S; intros; subst); reflexivity.
Qed.
Lemma same_bracket t t' s : same_token t t' -> bracket_step t s = bracket_step t' s.
Proof. destruct t, t'; cbn; try discriminate; intros H; try (injection H; intros; subst); reflexivity. Qed.
Lemma same_brackets a b : Forall2 same_token a b -> open_brackets a = open_brackets b.
Proof.
  induction 1 as [|x y a b S _ IH]; [reflexivity|]. unfold open_brackets in *. cbn [fold_right]. rewrite IH. apply same_bracket. exact S.
Qed.
Lemma same_if a b : Forall2 same_token a b -> mentions_if a = mentions_if b.
Proof.
  unfold mentions_if. induction 1 as [|x y a b S _ IH]; [reflexivity|]. cbn [existsb]. rewrite IH. f_equal.
  destruct x, y; cbn in S; try discriminate; try contradiction; try (injection S; intros; subst); reflexivity.
Qed.
Lemma same_period a b : Forall2 same_token a b -> after_period a = after_period b.
Proof.
  destruct 1 as [|x y a b S P]; [reflexivity|].
  destruct x, y; cbn in S; try discriminate; try contradiction; try (injection S; intros; subst); reflexivity.
Qed.
Lemma same_before a b : Forall2 same_token a b -> before_operand a = before_operand b.
Proof.
  destruct 1 as [|x y a b S P]; [reflexivity|].
  destruct x, y; cbn in S; try discriminate; try contradiction; try (injection S; intros; subst); try reflexivity.
  - cbn [before_operand]. unfold comma_settles. rewrite (same_brackets _ _ P), (same_if _ _ P). reflexivity.
  - cbn [before_operand]. rewrite (same_period _ _ P). reflexivity.
Qed.
Lemma same_after a b : Forall2 same_token a b -> after_operand a = after_operand b.
Proof.
  destruct 1 as [|x y a b S P]; [reflexivity|]. pose proof (same_wants _ _ P) as W.
  destruct x as [px| | | | | | | | |], y as [py| | | | | | | | |]; cbn in S; try discriminate; try contradiction; try (injection S; intros; subst);
    cbn [after_operand]; try exact W; try reflexivity.
  - destruct py; try reflexivity. destruct P as [|x y a b S' P']; [reflexivity|]. pose proof (same_wants _ _ P') as W'.
    destruct x, y; cbn in S'; try discriminate; try contradiction; try (injection S'; intros; subst); cbn [after_operand]; try exact W'; reflexivity.
  - destruct format0; try reflexivity. exact W.
Qed.
Lemma same_yield a b : Forall2 same_token a b -> mentions_yield a = mentions_yield b.
Proof.
  unfold mentions_yield. induction 1 as [|x y a b S _ IH]; [reflexivity|]. cbn [existsb]. rewrite IH. f_equal.
  destruct x, y; cbn in S; try discriminate; try contradiction; try (injection S; intros; subst); reflexivity.
Qed.
Lemma same_suits past past' t t' h : Forall2 same_token past past' -> same_token t t' -> suits past t h -> suits past' t' h.
Proof.
  intros P S [H K]. split.
  - unfold suits_brace, in_substitution, open_braces in *. rewrite <- (same_braces past past' [] P). intros C. apply H.
    apply closer_spec. apply closer_spec in C. destruct t, t'; cbn in S; try discriminate; try (injection S; intros; subst); auto.
  - unfold suits_slash in *. rewrite <- (same_yield _ _ P), <- (same_after _ _ (same_rev _ _ P)), <- (same_before _ _ (same_rev _ _ P)). intros Y.
    destruct (K Y) as [K1 K2]. split; intros D; [apply K1; apply slash_divides; apply slash_divides in D|apply K2; apply regex_regular; apply regex_regular in D];
    destruct t, t'; cbn in S; try discriminate; try contradiction; try (injection S; intros; subst); auto.
Qed.
Lemma after_not_before past : after_operand past = true -> before_operand past = false.
Proof.
  destruct past as [|[[]| | | | |name| | | |] past]; cbn [after_operand before_operand]; try discriminate; try reflexivity.
  intros P. rewrite (SlashHints.binding_not_operand flags_default name (SlashHints.plain_binds flags_default name P)). reflexivity.
Qed.
(** There is always a right hint. *)
Lemma some_suits past t : suits past t (Hint (before_operand (rev past)) (in_substitution past) false).
Proof. split; [intros _; reflexivity|]. intros _. cbn. split; [|auto]. intros _. apply after_not_before. Qed.
Lemma any_suits past t h : closer t = false -> SlashHints.slash t = false -> is_regex t = false -> suits past t h.
Proof.
  intros C S R. split.
  - intros K. apply closer_spec in K. congruence.
  - intros _. split; intros K; [apply slash_divides in K|apply regex_regular in K]; congruence.
Qed.
Lemma significant_trivia t : significant_token t -> is_trivia t = false.
Proof. destruct t; cbn; tauto. Qed.

Lemma numeric_any h w n m r : lexeme checks h w (TNumeric n) r -> lexeme checks h w (TNumeric m) r.
Proof. intros H. inversion H; subst; [apply lx_decimal|eapply lx_radix]; eassumption. Qed.
Lemma numeric_head h w n r : lexeme checks h w (TNumeric n) r -> ~ head_is (fun b => b = 47 \/ b = 125)%N (w ++ r).
Proof.
  intros H. destruct (lexeme_spells _ _ _ _ _ H) as [[(b & v & -> & D)|(d & v & -> & _)] _]; cbn [app]; rewrite head_is_cons; unfold digit in *; lia.
Qed.

Lemma printed_readable past ps code : printed checks past ps code -> utf8 code -> forall past', Forall2 same_token past past' ->
  exists ps', readable past' ps' code /\ same (map word_token ps) (map word_token ps').
Proof.
  induction 1 as [past g nl Tv|past g nl t w ps code Tv Nw Sg Hl _ IH]; intros U past' P.
  - exists [Piece g (nl, TEOF) []]. split; [constructor; exact Tv|]. repeat constructor.
  - pose proof (trivia_utf8 _ _ _ Tv U) as U1.
    assert (HR : exists t', same_token t t' /\ utf8 code /\ forall h, suits past' t' h -> lexeme checks h w t' code /\ read_next E (w ++ code) h = TOk (t', length w)).
    { assert (C : (exists n, t = TNumeric n) \/ forall n, t <> TNumeric n) by (destruct t; eauto; right; discriminate).
      destruct C as [(n & ->)|C].
      - pose proof (Hl (Hint false false false)) as L. assert (S0 : forall q m h, suits q (TNumeric m) h).
        { intros q m h. apply any_suits; reflexivity. }
        specialize (L (S0 _ _ _)). destruct (lexeme_read E _ _ _ _ L U1) as (t' & R & S).
        exists t'. split; [exact S|]. split; [apply (lexeme_utf8 _ _ _ _ _ L U1)|]. destruct t'; try contradiction S; try discriminate S. intros h _. split.
        + eapply numeric_any. apply Hl. apply S0.
        + rewrite (read_next_hint E _ h (Hint false false false)); [exact R|]. eapply numeric_head. exact L.
      - exists t. split; [apply same_token_refl|]. split.
        + apply (lexeme_utf8 _ _ _ _ _ (Hl _ (some_suits past t)) U1).
        + intros h S. assert (S' : suits past t h).
          { eapply same_suits; [|apply same_token_refl|exact S]. clear - P. induction P; constructor; auto.
            destruct x, y; cbn in *; try discriminate; auto. }
          split; [apply Hl; exact S'|]. apply (lexeme_read_eq E h w t code (Hl h S') U1 C). }
    destruct HR as (t' & St & U2 & HR). destruct (IH U2 (past' ++ [t'])) as (ps' & R & S).
    { apply Forall2_app; [exact P|]. repeat constructor. exact St. }
    exists (Piece g (nl, t') w :: ps'). split.
    + constructor; try assumption. apply significant_trivia in Sg. destruct t, t'; cbn in St; try discriminate; auto.
    + constructor; [split; [reflexivity|exact St]|exact S].
Qed.

Lemma readable_words past ps code : readable past ps code -> forall rl, map snd rl = map word_token ps -> misfits misfit (rev past) rl = false ->
  words E rl ps [] code.
Proof.
  induction 1 as [past g nl Tv|past g nl t w ps code Tv Nw Tr Hl _ IH]; intros rl M B.
  - destruct rl as [|[h la] [|? ?]]; try discriminate. cbn in M. injection M as ->.
    pose proof (ws_cons E h nl TEOF g [] [] [] [] [] Tv (lx_eof _ _) eq_refl eq_refl (ws_nil E [])) as X.
    cbn [app] in X. rewrite app_nil_r in X. exact X.
  - destruct rl as [|[h la] rl]; [discriminate|]. cbn [map snd word_token] in M. injection M as -> M. cbn [misfits snd] in B.
    apply orb_false_iff in B. destruct B as [B1 B2]. apply misfit_suits in B1. rewrite rev_involutive in B1. cbn [snd] in B1.
    destruct (Hl h B1) as (L & R). constructor; try assumption. apply IH; [exact M|]. rewrite rev_app_distr. exact B2.
Qed.

(** The tokens for a tokenizer that does not look at hints. *)
Fixpoint fed (ps : list piece) : list (token * token_range) :=
  match ps with
  | [] => []
  | p :: ps' =>
    (if fst (word_token p) then [(TLineTerminator, snd end_of_input)] else []) ++
    match snd (word_token p) with TEOF => [] | t => [(t, snd end_of_input)] end ++ fed ps'
  end.
Lemma trivia_break g r : trivia g true r -> 1 <= length g.
Proof.
  intros H. remember true as b eqn:Eb. destruct H; try discriminate Eb; cbn; try lia; rewrite ?app_length; cbn; try lia.
  enough (length t <> 0) by lia. unfold line_terminators in H. cbn [In] in H. repeat destruct H as [<-|H]; cbn; try lia; contradiction.
Qed.
Lemma fed_length past ps code : readable past ps code -> length (fed ps) <= length code.
Proof.
  induction 1 as [past g nl Tv|past g nl t w ps code Tv Nw Tr Hl _ IH]; cbn [fed word_token fst snd].
  - rewrite !app_length. cbn. destruct nl; [apply trivia_break in Tv; cbn; lia|cbn; lia].
  - rewrite !app_length. destruct w as [|b w]; [congruence|]. cbn [length].
    assert (length (if nl then [(TLineTerminator, snd end_of_input)] else []) <= length g) by (destruct nl; [apply trivia_break in Tv; cbn; lia|cbn; lia]).
    destruct t; cbn [length]; lia.
Qed.
Lemma readable_not_eof past t w code : w <> [] -> (forall h, suits past t h -> lexeme checks h w t code /\ read_next E (w ++ code) h = TOk (t, length w)) ->
  t <> TEOF.
Proof.
  intros Nw Hl ->. destruct (Hl (Hint false false false)) as (L & _). { apply any_suits; reflexivity. }
  inversion L; subst. congruence.
Qed.
Lemma fed_delivered past ps code : readable past ps code -> delivered (fed ps) = map word_token ps.
Proof.
  induction 1 as [past g nl Tv|past g nl t w ps code Tv Nw Tr Hl _ IH].
  - destruct nl; reflexivity.
  - pose proof (readable_not_eof _ _ _ _ Nw Hl) as NE. cbn [fed map word_token fst snd]. rewrite <- IH.
    unfold delivered. destruct nl, t; try discriminate; try congruence; reflexivity.
Qed.
Lemma readable_eof past ps code : readable past ps code -> exists w nl, map word_token ps = w ++ [(nl, TEOF)] /\ ~ In TEOF (map snd w).
Proof.
  induction 1 as [past g nl Tv|past g nl t w ps code Tv Nw Tr Hl _ IH].
  - exists [], nl. split; [reflexivity|intros []].
  - pose proof (readable_not_eof _ _ _ _ Nw Hl) as NE. destruct IH as (u & nl' & Eu & Nu). exists ((nl, t) :: u), nl'. cbn. rewrite Eu.
    split; [reflexivity|]. intros [K|K]; auto.
Qed.

Lemma eof_once (u v x : list lookahead) a b : u ++ [(a, TEOF)] = (v ++ [(b, TEOF)]) ++ x -> ~ In TEOF (map snd u) -> x = [].
Proof.
  intros H N. destruct x as [|y x _] using rev_ind; [reflexivity|exfalso].
  rewrite app_assoc in H. apply app_inj_tail in H. destruct H as [H _]. apply N. rewrite H, !map_app, !in_app_iff. left. right. left. reflexivity.
Qed.

Theorem readable_accepted r n ps code : readable [] ps code -> utf8 code -> program (map word_token ps) ->
  length code < r -> 20 * length code + 80 <= n -> parse_root E r n code = Accepted /\
  exists rl t, HintParser.reads (next_token E) r (into_tokenizer code) rl t /\ misfits misfit [] rl = false /\ map snd rl = map word_token ps.
Proof.
  intros R U P Lr Ln. pose proof (fed_length _ _ _ R) as FL.
  destruct (feed_exact (fed ps) r n) as [[_ FE] _]; [lia|lia|]. rewrite (fed_delivered _ _ _ R) in FE.
  specialize (FE (ex_intro _ [] P)). unfold parse_root. unfold parse_root_with in *.
  pose proof (run_traced misfit TEOF feed r n (fed ps)) as Tr. unfold traced in Tr. unfold run_parser in *.
  destruct (interp feed r (exec feed r body n) parse_module (pstate_init (fed ps))) as [a s|x s|p|s] eqn:Q; try discriminate. clear FE.
  destruct Tr as (rl & (RD & PR) & Tr & HH).
  destruct (accepted_run feed r n (fed ps) a s Q) as (W & Dv & F).
  assert (M : map snd rl = map word_token ps).
  { assert (V : inv s).
    { pose proof (run_replayed feed r TEOF n parse_module (fed ps) np_module) as RR. unfold run_parser in RR. rewrite Q in RR. cbn [replayed] in RR.
      destruct RR as (? & ? & l & G & _). apply G. }
    pose proof (inv_read _ V) as IR. rewrite <- (waiting_buffered _ V), W, app_nil_r in IR. rewrite PR in IR. cbn [pstate_init ps_read app] in IR.
    rewrite IR. destruct (feed_fetches _ _ _ _ F) as (_ & k & K); [lia|]. rewrite (fed_delivered _ _ _ R) in K.
    destruct (module_eof _ _ _ (Dv [])) as (w & nl & Ew & Nw). rewrite app_nil_r in Ew.
    destruct (readable_eof _ _ _ R) as (u & b & Eu & Nu).
    destruct (prefix_eof w (map word_token ps) (delivered (ps_tok s)) (repeat (false, TEOF) k) nl Nw) as (y & Y).
    - rewrite Eu, map_app. apply in_or_app. right. left. reflexivity.
    - rewrite <- K. f_equal. symmetry. exact Ew.
    - rewrite Eu in Y. pose proof (eof_once _ _ _ _ _ Y Nu) as ->. rewrite app_nil_r in Y. rewrite Ew, Eu. symmetry. exact Y. }
  specialize (HH [] false []). rewrite app_nil_r in HH. cbn [pstate_init ps_flags] in HH. unfold hst at 1 in HH. cbn in HH.
  apply no_misfit in HH. cbn in HH.
  pose proof (readable_words _ _ _ R rl M HH) as Wd.
  destruct (words_reads E r rl ps [] code Wd (into_tokenizer code) (stands_new code U) Lr) as (t2 & R2 & _).
  specialize (Tr _ _ _ _ _ R2). change (set_tok (pstate_init (fed ps)) (into_tokenizer code)) with (pstate_init (into_tokenizer code)) in Tr.
  rewrite Tr. split; [reflexivity|]. exists rl, t2. auto.
Qed.

(** ** Soundness *)
Lemma run_app a hs l b hs' l' c : run E a hs l b -> run E b hs' l' c -> run E a (hs ++ hs') (l ++ l') c.
Proof. induction 1; cbn; [auto|]. intros. econstructor; eauto. Qed.
Lemma suits_trivia past t h : is_trivia t = true -> suits past t h.
Proof. intros T. apply any_suits; destruct t; try discriminate; reflexivity. Qed.

Lemma read_right n : forall t h ln la t' past, read_token (next_token E) n t h ln = RdOk la t' -> suits past (snd la) h ->
  exists hs log, run E t hs log t' /\ (forall rest, significant ln (log ++ rest) = la :: significant false rest) /\
    forall hs2 log2, right_hints (past ++ [snd la]) hs2 log2 -> right_hints past (hs ++ hs2) (log ++ log2).
Proof.
  induction n as [|n IH]; intros t h ln la t' past R S; [discriminate|]. cbn [read_token] in R.
  destruct (next_token E t h) as [[[tok pos] t1]|p] eqn:N; [|discriminate].
  assert (D : is_trivia tok = false -> RdOk (ln, tok) t1 = RdOk la t' ->
    (forall rest, significant ln ((tok, pos) :: rest) = (ln, tok) :: significant false rest) ->
    exists hs log, run E t hs log t' /\ (forall rest, significant ln (log ++ rest) = la :: significant false rest) /\
    forall hs2 log2, right_hints (past ++ [snd la]) hs2 log2 -> right_hints past (hs ++ hs2) (log ++ log2)).
  { intros T K Sg. injection K as <- <-. exists [h], [(tok, pos)]. split; [econstructor; [exact N|constructor]|]. split; [exact Sg|].
    intros hs2 log2 RH. cbn [app right_hints snd] in *. split; [exact S|]. destruct tok; try discriminate T; exact RH. }
  assert (D' : forall ln', is_trivia tok = true -> read_token (next_token E) n t1 h ln' = RdOk la t' ->
    (forall rest, significant ln ((tok, pos) :: rest) = significant ln' rest) ->
    exists hs log, run E t hs log t' /\ (forall rest, significant ln (log ++ rest) = la :: significant false rest) /\
    forall hs2 log2, right_hints (past ++ [snd la]) hs2 log2 -> right_hints past (hs ++ hs2) (log ++ log2)).
  { intros ln' T K Sg. destruct (IH _ _ _ _ _ past K S) as (hs & log & C & Sg' & RH). exists (h :: hs), ((tok, pos) :: log).
    split; [econstructor; eassumption|]. split; [intros rest; cbn [app]; rewrite Sg; apply Sg'|].
    intros hs2 log2 H2. cbn [app right_hints]. split; [apply suits_trivia; exact T|]. destruct tok; try discriminate T; apply RH; exact H2. }
  destruct tok; try (apply D; [reflexivity|exact R|reflexivity]);
    (apply (D' _ eq_refl R); intros rest; cbn [significant]; try reflexivity).
  destruct (line (r_start pos) =? line (r_end pos)); cbn [negb].
  - rewrite orb_false_r. reflexivity.
  - rewrite orb_true_r. reflexivity.
Qed.

Lemma reads_right rf t rl t' : HintParser.reads (next_token E) rf t rl t' -> forall past, misfits misfit (rev past) rl = false ->
  exists hs log, run E t hs log t' /\ (forall rest, significant false (log ++ rest) = map snd rl ++ significant false rest) /\
    right_hints past hs log.
Proof.
  induction 1 as [t|t h la t1 rl t2 R _ IH]; intros past M.
  - exists [], []. split; [constructor|]. split; [reflexivity|exact Logic.I].
  - cbn [misfits] in M. apply orb_false_iff in M. destruct M as [M1 M2]. apply misfit_suits in M1. rewrite rev_involutive in M1.
    destruct (read_right _ _ _ _ _ _ past R M1) as (hs1 & log1 & C1 & S1 & H1).
    destruct (IH (past ++ [snd la])) as (hs2 & log2 & C2 & S2 & H2); [rewrite rev_app_distr; exact M2|].
    exists (hs1 ++ hs2), (log1 ++ log2). split; [eapply run_app; eassumption|]. split; [|apply H1; exact H2].
    intros rest. rewrite <- app_assoc, S1, S2. reflexivity.
Qed.

Theorem printed_accepted r n ps code : utf8 code -> printed checks [] ps code -> program (map word_token ps) ->
  length code < r -> 20 * length code + 80 <= n -> parse_root E r n code = Accepted /\
  exists hs log t, run E (into_tokenizer code) hs log t /\ right_hints [] hs log /\
    Forall2 (fun a b => fst a = fst b /\ same_token (snd a) (snd b)) (map word_token ps) (significant false log).
Proof.
  intros U H P Lr Ln. destruct (printed_readable _ _ _ H U [] (Forall2_nil _)) as (ps' & R & S).
  destruct (readable_accepted r n ps' code R U) as (A & rl & t & RD & M & Ts); try assumption; [eapply same_program; eassumption|].
  split; [exact A|]. destruct (reads_right _ _ _ _ RD [] M) as (hs & log & C & Sg & RH). exists hs, log, t. split; [exact C|]. split; [exact RH|].
  specialize (Sg []). rewrite !app_nil_r in Sg. rewrite Sg, Ts. exact S.
Qed.

Theorem accepted_right rf n code : utf8 code -> parse_root E rf n code = Accepted ->
  exists rl ps hs log t, HintParser.reads (next_token E) rf (into_tokenizer code) rl t /\
    misfits misfit [] rl = false /\ words E rl ps [] code /\ run E (into_tokenizer code) hs log t /\ significant false log = map word_token ps /\
    right_hints [] hs log /\ program (map word_token ps) /\ stands t [].
Proof.
  intros U H. unfold parse_root, parse_root_with in H.
  pose proof (run_traced misfit TEOF (next_token E) rf n (into_tokenizer code)) as Tr. unfold traced in Tr. unfold run_parser in H.
  destruct (interp (next_token E) rf (exec (next_token E) rf body n) parse_module (pstate_init (into_tokenizer code))) as [a s|x s|p|s] eqn:Q; try discriminate. clear H.
  destruct Tr as (rl & (RD & PR) & _ & HH).
  destruct (accepted_run (next_token E) rf n (into_tokenizer code) a s Q) as (W & Dv & F).
  assert (M : map snd rl = ps_popped s).
  { assert (V : inv s).
    { pose proof (run_replayed (next_token E) rf TEOF n parse_module (into_tokenizer code) np_module) as RR. unfold run_parser in RR. rewrite Q in RR. cbn [replayed] in RR.
      destruct RR as (? & ? & l & G & _). apply G. }
    pose proof (inv_read _ V) as IR. rewrite <- (waiting_buffered _ V), W, app_nil_r in IR. rewrite PR in IR. exact IR. }
  specialize (HH [] false []). rewrite app_nil_r in HH. cbn [pstate_init ps_flags] in HH. unfold hst at 1 in HH. cbn in HH.
  apply no_misfit in HH. cbn in HH.
  destruct (reads_words E rf _ rl _ RD code (stands_new code U)) as (ps & rest & Wd & St).
  pose proof (words_tokens _ _ _ _ _ Wd) as WT. rewrite M in WT.
  pose proof (Dv []) as P. rewrite app_nil_r in P. rewrite WT in P.
  destruct (module_eof _ _ _ P) as (w & nl & Ew & Nw).
  assert (rest = []) as ->.
  { clear - Wd Ew Nw. revert w Ew Nw. induction Wd as [rest|h nl0 tok g w rl ps rest code Tv Hl R T H IH]; intros v Ev Nv; [destruct v; discriminate|].
    cbn in Ev. symmetry in Ev. apply tail_of in Ev. destruct Ev as [(-> & K & L)|(v' & -> & L)].
    - injection K as -> ->. destruct ps; [|discriminate]. inversion H; subst. inversion Hl; reflexivity.
    - symmetry in L. apply (IH v' L). intros K. apply Nv. right. exact K. }
  destruct (reads_right _ _ _ _ RD [] HH) as (hs & log & C & S & RH). specialize (S []). rewrite !app_nil_r in S.
  exists rl, ps, hs, log, (ps_tok s). rewrite S, M. repeat (split; [assumption|]). exact St.
Qed.

(** ** Exactness *)
Definition right_hint (past : list token) (h : hint) : hint := Hint (h_expression h) (in_substitution past) (h_strict h).
Lemma right_hint_suits past t h : slash_free t -> suits past t (right_hint past h).
Proof. intros [D R]. split; [intros _; reflexivity|]. intros _. split; intros K; contradiction. Qed.
Lemma lexeme_right_hint past h w t r : suits past t h -> lexeme checks h w t r -> lexeme checks (right_hint past h) w t r.
Proof.
  intros [S _] H. destruct H; try (econstructor; eassumption).
  - apply lx_curly_close. cbn. rewrite <- S; [assumption|]. left. reflexivity.
  - apply lx_template_middle; [|assumption]. cbn. rewrite <- S; [assumption|]. right. eexists _, _. auto.
  - apply lx_template_tail; [|assumption]. cbn. rewrite <- S; [assumption|]. right. eexists _, _. auto.
Qed.
Lemma read_right_hint past h w t r : suits past t h -> lexeme checks h w t r -> utf8 (w ++ r) -> read_next E (w ++ r) h = TOk (t, length w) ->
  read_next E (w ++ r) (right_hint past h) = TOk (t, length w).
Proof.
  intros S H U R. assert (C : (exists n, t = TNumeric n) \/ forall n, t <> TNumeric n) by (destruct t; eauto; right; discriminate).
  destruct C as [(n & ->)|C].
  - rewrite <- R. apply read_next_hint. eapply numeric_head. exact H.
  - apply lexeme_read_eq; [|exact U|exact C]. apply lexeme_right_hint; assumption.
Qed.
Lemma stands_same t u v : stands t u -> stands t v -> u = v.
Proof.
  intros (a & Ha & Oa & _) (b & Hb & Ob & _). rewrite Ha in Hb. rewrite Oa in Ob. apply app_same_length in Hb; [apply Hb|exact Ob].
Qed.

Lemma readable_unique past ps code : readable past ps code -> Forall (fun p => slash_free (snd (word_token p))) ps -> utf8 code -> forall rl ps2, words E rl ps2 [] code -> misfits misfit (rev past) rl = false ->
  (exists w nl, map word_token ps2 = w ++ [(nl, TEOF)] /\ ~ In TEOF (map snd w)) -> map word_token ps = map word_token ps2.
Proof.
  induction 1 as [past g nl Tv|past g nl t w ps code Tv Nw Tr Hl Rd IH]; intros SF U rl ps2 Wd M (v & nlv & Ev & Nv).
  - inversion Wd as [|h nl2 t2 g2 w2 rl2 ps3 ? code2 Tv2 Hl2 R2 T2 Wd2]; subst; [destruct v; discriminate|].
    cbn [misfits] in M. apply orb_false_iff in M. destruct M as [M1 M2]. apply misfit_suits in M1. rewrite rev_involutive in M1. cbn [snd] in M1.
    pose proof (trivia_utf8 _ _ _ Tv2 U) as U2.
    set (h' := right_hint past h).
    destruct (read_piece E g2 nl2 w2 code2 h' t2 (into_tokenizer (g2 ++ w2 ++ code2)) false (S (length (g2 ++ w2 ++ code2))) Tv2 (stands_new _ U)
      (lexeme_right_hint _ _ _ _ _ M1 Hl2) (read_right_hint _ _ _ _ _ M1 Hl2 U2 R2) T2 (Nat.lt_succ_diag_r _)) as (t' & Q1 & S1).
    pose proof (read_piece E (g2 ++ w2 ++ code2) nl [] [] h' TEOF (into_tokenizer (g2 ++ w2 ++ code2)) false (S (length (g2 ++ w2 ++ code2))) Tv) as K.
    cbn [app] in K. rewrite app_nil_r in K.
    destruct (K (stands_new _ U) (lx_eof _ _) eq_refl eq_refl (Nat.lt_succ_diag_r _)) as (t'' & Q2 & S2). rewrite Q1 in Q2. injection Q2 as -> -> ->.
    cbn in Ev. symmetry in Ev. apply tail_of in Ev. destruct Ev as [(-> & _ & L)|(v' & -> & L)].
    + destruct ps3; [reflexivity|discriminate].
    + exfalso. apply Nv. left. reflexivity.
  - remember (g ++ w ++ code) as u eqn:EE.
    inversion Wd as [rest|h nl2 t2 g2 w2 rl2 ps3 ? code2 Tv2 Hl2 R2 T2 Wd2 Erl Eps Er EE2]; [subst; destruct v; discriminate|]. rewrite <- Erl in M. rewrite <- Eps in Ev.
    cbn [misfits] in M. apply orb_false_iff in M. destruct M as [M1 M2]. apply misfit_suits in M1. rewrite rev_involutive in M1. cbn [snd] in M1, M2.
    rewrite EE in EE2, U. set (h' := right_hint past h). inversion SF as [|? ? SF1 SF2]; subst x l. destruct (Hl h' (right_hint_suits _ _ _ SF1)) as (L1 & R1).
    destruct (read_piece E g nl w code h' t (into_tokenizer (g ++ w ++ code)) false (S (length (g ++ w ++ code))) Tv (stands_new _ U)
      L1 R1 Tr (Nat.lt_succ_diag_r _)) as (t' & Q1 & S1).
    pose proof (lexeme_utf8 _ _ _ _ _ L1 (trivia_utf8 _ _ _ Tv U)) as [_ Uc].
    rewrite <- EE2 in U, Q1. pose proof (trivia_utf8 _ _ _ Tv2 U) as U2.
    destruct (read_piece E g2 nl2 w2 code2 h' t2 (into_tokenizer (g2 ++ w2 ++ code2)) false (S (length (g2 ++ w2 ++ code2))) Tv2 (stands_new _ U)
      (lexeme_right_hint _ _ _ _ _ M1 Hl2) (read_right_hint _ _ _ _ _ M1 Hl2 U2 R2) T2 (Nat.lt_succ_diag_r _)) as (t'' & Q2 & S2).
    rewrite Q2 in Q1. injection Q1 as -> -> ->. pose proof (stands_same _ _ _ S1 S2) as <-.
    cbn [map word_token]. f_equal. apply (IH SF2 Uc rl2 ps3 Wd2); [rewrite rev_app_distr; exact M2|].
    cbn in Ev. symmetry in Ev. apply tail_of in Ev. destruct Ev as [(-> & K & L)|(v' & -> & L)].
    + injection K as -> ->. exfalso. exact (readable_not_eof _ _ _ _ Nw Hl eq_refl).
    + exists v', nlv. split; [symmetry; exact L|]. intros K. apply Nv. right. exact K.
Qed.

Theorem printed_exact r n ps code : utf8 code -> printed checks [] ps code -> Forall (fun p => slash_free (snd (word_token p))) ps -> length code < r -> 20 * length code + 80 <= n ->
  (parse_root E r n code = Accepted <-> program (map word_token ps)).
Proof.
  intros U H SF Lr Ln. split; [|intros P; apply (printed_accepted r n ps code); assumption]. intros A.
  destruct (printed_readable _ _ _ H U [] (Forall2_nil _)) as (ps' & R & S).
  destruct (accepted_right r n code U A) as (rl & ps2 & hs & log & t & _ & M & Wd & _ & _ & _ & P & _).
  destruct (module_eof _ _ _ P) as (w & nl & Ew & Nw).
  assert (SF' : Forall (fun p => slash_free (snd (word_token p))) ps').
  { clear - S SF. remember (map word_token ps) as x eqn:Ex. remember (map word_token ps') as y eqn:Ey. revert ps ps' Ex Ey SF.
    induction S as [|a b x y [_ Sa] _ IH]; intros [|p ps] [|p' ps'] Ex Ey SF; try discriminate; constructor; cbn [map] in *; injection Ex as -> Ex; injection Ey as -> Ey;
    inversion SF as [|? ? F1 F2]; subst x0 l; [|eauto]. destruct F1 as [D G]. split; intros K; [apply D; apply slash_divides; apply slash_divides in K|apply G; apply regex_regular; apply regex_regular in K];
    destruct (snd (word_token p)), (snd (word_token p')); cbn in Sa; try discriminate; try contradiction; try (injection Sa; intros; subst); auto. }
  rewrite <- (readable_unique _ _ _ R SF' U rl ps2 Wd M) in P by eauto.
  eapply same_program; [exact P|]. apply same_sym, S.
Qed.
End Sources.
