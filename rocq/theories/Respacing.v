(** Respacing a program does not change the outcome of the parse. *)
From Coq Require Import String List Arith NArith Bool Lia.
From Verif Require Import Base Tokens SpecTokens SpecStream Tokenizer ByteFacts NumberFacts LexFacts LexTotal NextFacts TokenProps
  ParserCore ParserBody SpecParser AbstractParser ParserExec Replay ParserProps ParserProps2 HintParser SpecTrivia LexSuffix TriviaFacts.
Import ListNotations.

Section Words.
Variable E : env.
Notation next := (next_token E).
Notation checks := (overflow_checks E).

(** The reads [rl] are the tokens [ps] of the text [code], up to [rest]. *)
Inductive words : list (hint * lookahead) -> list piece -> bytes -> bytes -> Prop :=
| ws_nil rest : words [] [] rest rest
| ws_cons h nl tok g w rl ps rest code :
    trivia g nl (w ++ code) -> lexeme checks h w tok code -> read_next E (w ++ code) h = TOk (tok, length w) ->
    is_trivia tok = false -> words rl ps rest code ->
    words ((h, (nl, tok)) :: rl) (Piece g (nl, tok) w :: ps) rest (g ++ w ++ code).

Lemma reads_words rf t rl t' : HintParser.reads next rf t rl t' -> forall u, stands t u ->
  exists ps rest, words rl ps rest u /\ stands t' rest.
Proof.
  induction 1 as [t|t h [l tok] t1 rl t2 R H IH]; intros u St.
  - exists [], u. split; [constructor|exact St].
  - destruct (read_piece_inv E rf t h false l tok t1 u St R) as (g & nl & w & r & -> & Tv & L & Hl & Rn & T & St1).
    cbn [orb] in L. subst l. destruct (IH r St1) as (ps & rest & W & St2).
    exists (Piece g (nl, tok) w :: ps), rest. split; [constructor; assumption|exact St2].
Qed.

Lemma words_reads rf rl ps rest u : words rl ps rest u -> forall t, stands t u -> length u < rf ->
  exists t', HintParser.reads next rf t rl t' /\ stands t' rest.
Proof.
  induction 1 as [rest|h nl tok g w rl ps rest code Tv Hl R T H IH]; intros t St L.
  - exists t. split; [constructor|exact St].
  - destruct (read_piece E g nl w code h tok t false rf Tv St Hl R T L) as (t1 & Q & St1).
    destruct (IH t1 St1) as (t' & X & St'). { rewrite !app_length in L. lia. }
    exists t'. split; [|exact St']. econstructor; [exact Q|exact X].
Qed.

Lemma trivia_utf8 g nl r : trivia g nl r -> utf8 (g ++ r) -> utf8 r.
Proof.
  induction 1 as [r|b g nl r Hb H IH|w g nl r Hw H IH|v g nl r Hv H IH|v g nl r Hv Hk H IH|v g nl r Hv Hk H IH]; intros U.
  - exact U.
  - apply IH. apply (utf8_rest_ascii [b] (g ++ r)); [|exact U]. constructor; [destruct Hb as [->|[->|[->| ->]]]; lia|constructor].
  - apply IH. rewrite <- app_assoc in U. eapply (lexeme_utf8 true (Hint false false false) w TLineTerminator); [|exact U]. apply lx_line_terminator, Hw.
  - apply IH. rewrite <- !app_assoc in U. rewrite (app_assoc (s2b "//")) in U.
    eapply (lexeme_utf8 true (Hint false false false) _ (TComment CF_Line v)); [|exact U]. apply lx_line_comment, Hv.
  - apply IH. rewrite <- !app_assoc in U. rewrite (app_assoc v), (app_assoc (s2b "/*")) in U.
    eapply (lexeme_utf8 true (Hint false false false) _ (TComment CF_Block v)); [|exact U]. apply lx_block_comment, Hv.
  - apply IH. rewrite <- !app_assoc in U. rewrite (app_assoc v), (app_assoc (s2b "/*")) in U.
    eapply (lexeme_utf8 true (Hint false false false) _ (TComment CF_Block v)); [|exact U]. apply lx_block_comment, Hv.
Qed.

Lemma words_spaced rl ps rest code : words rl ps rest code -> spaced ps rest code.
Proof.
  intros W. induction W as [rest|h nl tok g w rl ps rest code Tv Hl R T H IH]; [constructor|].
  constructor; [exact Tv|eapply lexeme_spells; eassumption|exact IH].
Qed.

Lemma words_tokens rl ps rest code : words rl ps rest code -> map snd rl = map word_token ps.
Proof. induction 1; cbn; [reflexivity|]. f_equal. assumption. Qed.

Lemma trivia_head g nl r : trivia g nl r -> g = [] \/ head_is blank g \/ at_line_terminator g \/ head_is (eq 47%N) g.
Proof.
  intros H. destruct H as [r|b g nl r Hb H|w g nl r Hw H|v g nl r Hv H|v g nl r Hv Hk H|v g nl r Hv Hk H].
  - auto.
  - right. left. exists b, g. auto.
  - right. right. left. exists w. split; [exact Hw|]. exists g. reflexivity.
  - right. right. right. eexists _, _. split; reflexivity.
  - right. right. right. eexists _, _. split; reflexivity.
  - right. right. right. eexists _, _. split; reflexivity.
Qed.

Lemma head_is_app (P : N -> Prop) a b : head_is P a -> head_is P (a ++ b).
Proof. intros (c & r & -> & H). exists c, (r ++ b). auto. Qed.
Lemma at_lt_app a b : at_line_terminator a -> at_line_terminator (a ++ b).
Proof. intros (t & Ht & r & ->). exists t. split; [exact Ht|]. exists (r ++ b). rewrite app_assoc. reflexivity. Qed.

(** Where the tokenizer does not advance, it never does. *)
Lemma stuck_trivia e u g nl r : stuck E e u -> u = g ++ r -> trivia g nl r -> g = [].
Proof.
  intros [En L] Eu Tv. specialize (L (Hint false false false)).
  destruct (trivia_head _ _ _ Tv) as [->|C]; [reflexivity|exfalso].
  assert (C' : head_is blank u \/ at_line_terminator u \/ head_is (eq 47%N) u)
    by (subst u; destruct C as [C|[C|C]]; auto using head_is_app, at_lt_app). clear C Tv Eu.
  destruct (lexeme_empty _ _ _ _ _ L eq_refl) as [(-> & ->)|[(-> & U)|(-> & q & v & Q & -> & O)]].
  - destruct C' as [(? & ? & X & _)|[(t & Ht & ? & X)|(? & ? & X & _)]]; try discriminate.
    destruct t; [|discriminate]. cbn in Ht. intuition discriminate.
  - destruct U as ((b & x & -> & _ & NB & _ & _ & _ & NP) & NL & _ & _).
    destruct C' as [C|[C|C]].
    + rewrite head_is_cons in C. contradiction.
    + contradiction.
    + rewrite head_is_cons in C. apply (NP Slash). exists 47%N, []. split; [reflexivity|congruence].
  - destruct C' as [C|[C|C]].
    + rewrite head_is_cons in C. unfold blank in C. lia.
    + rewrite at_lt_iff in C. destruct C as [(y & X)|[(y & X)|[(y & X)|(y & X)]]]; injection X; intros; lia.
    + rewrite head_is_cons in C. lia.
Qed.

Lemma stuck_words e u rl ps rest : stuck E e u -> words rl ps rest u -> utf8 u ->
  rest = u /\ Forall (fun p => gap p = [] /\ word p = []) ps.
Proof.
  intros K W. revert e K. induction W as [rest|h nl tok g w rl ps rest code Tv Hl R T H IH]; intros e K U; [auto|].
  assert (g = []) as -> by (eapply stuck_trivia; [exact K|reflexivity|exact Tv]). cbn [app] in *.
  destruct K as [En L]. destruct (lexeme_read E h [] e (w ++ code) (L h) U) as (t' & R' & _).
  cbn [app] in R'. rewrite R in R'. injection R' as _ Lw. cbn in Lw. destruct w; [|discriminate]. cbn [app] in *.
  destruct (IH e (conj En L) U) as (-> & F). split; [reflexivity|]. constructor; [auto|exact F].
Qed.

Lemma separated_app a b : separated a -> separated (a ++ b).
Proof. intros [H|H]; [left; apply head_is_app, H|right; apply at_lt_app, H]. Qed.
Lemma separated_nil : ~ separated [].
Proof. intros H. destruct (separated_head _ H) as (? & ? & X & _). discriminate. Qed.

Lemma words_alike rl ps rest code : words rl ps rest code -> forall qs code', Forall2 respaced_piece ps qs ->
  spaced qs rest code' -> alike code code'.
Proof.
  induction 1 as [rest|h nl tok g w rl ps rest code Tv Hl R T H IH]; intros qs code' F S.
  - inversion F; subst. inversion S; subst. apply alike_refl.
  - inversion F as [|? q ? qs' (A & B & C) F']; subst. inversion S as [|g' nl' tok' w' qs2 ? code2 Tv' Sp S']; subst. cbn in A, B, C. subst w'.
    destruct C as [C|[C1 C2]].
    + subst g'. apply alike_app, alike_app. eapply IH; eassumption.
    + apply alike_sep; apply separated_app; assumption.
Qed.

Lemma empty_pieces ps qs rest code : Forall (fun p => gap p = [] /\ word p = []) ps -> Forall2 respaced_piece ps qs ->
  spaced qs rest code -> code = rest.
Proof.
  intros F. revert qs code. induction F as [|p ps (G & W) F IH]; intros qs code F2 S.
  - inversion F2; subst. inversion S; subst. reflexivity.
  - inversion F2 as [|? q ? qs' (A & B & C) F']; subst. inversion S as [|g' nl' tok' w' qs2 ? code2 Tv' Sp S']; subst. cbn in A, B, C.
    rewrite W in B. subst w'. rewrite G in C. destruct C as [<-|[C _]]; [|destruct (separated_nil C)]. cbn. eapply IH; eassumption.
Qed.

Lemma words_tail rl ps rest code : words rl ps rest code -> utf8 code -> forall qs code', Forall2 respaced_piece ps qs ->
  spaced qs rest code' -> utf8 code' -> words rl qs rest code'.
Proof.
  induction 1 as [rest|h nl tok g w rl ps rest code Tv Hl R T H IH]; intros U qs code' F S U'.
  - inversion F; subst. inversion S; subst. constructor.
  - inversion F as [|? q ? qs' (A & B & C) F']; subst. inversion S as [|g' nl' tok' w' qs2 ? code2 Tv' Sp S']; subst. cbn in A, B, C. subst w'.
    injection A as <- <-.
    pose proof (trivia_utf8 _ _ _ Tv U) as U1. destruct (lexeme_utf8 _ _ _ _ _ Hl U1) as [Uw U2].
    pose proof (trivia_utf8 _ _ _ Tv' U') as U1'.
    destruct w as [|b w].
    + cbn [app] in *. destruct (stuck_words tok code rl ps rest (empty_stuck E _ _ _ Hl) H U2) as (-> & Fe).
      assert (code2 = code) as -> by (eapply empty_pieces; eassumption).
      change (g' ++ code) with (g' ++ [] ++ code). apply ws_cons; [exact Tv'|exact Hl|exact R|exact T|]. apply IH; assumption.
    + assert (AL : alike code code2) by (eapply words_alike; eassumption).
      assert (NL : forall v, tok <> TComment CF_Line v) by (intros v ->; discriminate).
      assert (Hl2 : lexeme checks h (b :: w) tok code2) by (eapply lexeme_alike; [exact Hl|exact AL|discriminate|exact NL]).
      destruct (lexeme_utf8 _ _ _ _ _ Hl2 U1') as [_ U2'].
      apply ws_cons; [exact Tv'|exact Hl2| |exact T|apply IH; assumption].
      eapply (read_alike E h (b :: w) tok code code2); try eassumption. discriminate.
Qed.

Lemma words_respaced rl ps rest code qs code' : words rl ps rest code -> utf8 code -> respaced ps qs ->
  spaced qs rest code' -> utf8 code' -> words rl qs rest code'.
Proof.
  intros W U F S U'. destruct W as [rest|h nl tok g w rl ps rest code Tv Hl R T H].
  - destruct qs; [|destruct F]. inversion S; subst. constructor.
  - destruct qs as [|q qs]; [destruct F|]. destruct F as (A & B & F).
    inversion S as [|g' nl' tok' w' qs2 ? code2 Tv' Sp S']; subst. cbn in A, B. subst w'. injection A as <- <-.
    pose proof (trivia_utf8 _ _ _ Tv U) as U1. destruct (lexeme_utf8 _ _ _ _ _ Hl U1) as [Uw U2].
    pose proof (trivia_utf8 _ _ _ Tv' U') as U1'.
    destruct w as [|b w].
    + cbn [app] in *. destruct (stuck_words tok code rl ps rest (empty_stuck E _ _ _ Hl) H U2) as (-> & Fe).
      assert (code2 = code) as -> by (eapply empty_pieces; eassumption).
      change (g' ++ code) with (g' ++ [] ++ code). apply ws_cons; [exact Tv'|exact Hl|exact R|exact T|]. eapply words_tail; eassumption.
    + assert (AL : alike code code2) by (eapply words_alike; eassumption).
      assert (NL : forall v, tok <> TComment CF_Line v) by (intros v ->; discriminate).
      assert (Hl2 : lexeme checks h (b :: w) tok code2) by (eapply lexeme_alike; [exact Hl|exact AL|discriminate|exact NL]).
      destruct (lexeme_utf8 _ _ _ _ _ Hl2 U1') as [_ U2'].
      apply ws_cons; [exact Tv'|exact Hl2| |exact T|eapply words_tail; eassumption].
      eapply (read_alike E h (b :: w) tok code code2); try eassumption. discriminate.
Qed.
End Words.

(** ** Panics *)
Section Panics.
Variable E : env.
Notation next := (next_token E).

Lemma eat_loop_shift u : forall i, eat_whitespace_loop u i = i + eat_whitespace_loop u 0.
Proof.
  induction u as [|b u IH]; intros i; cbn [eat_whitespace_loop]; [lia|].
  repeat match goal with |- context [if ?c then _ else _] => destruct c end; rewrite ?(IH (S i)), ?(IH 1); lia.
Qed.

Lemma boundary_app a u k : utf8 u -> is_char_boundary (a ++ u) (length a + k) = is_char_boundary u k.
Proof.
  intros U. unfold is_char_boundary, at_. rewrite app_length, app_nth2_plus.
  destruct k as [|k].
  - cbn [Nat.eqb orb]. rewrite Nat.add_0_r. destruct u as [|b u]; [cbn; rewrite Nat.add_0_r, Nat.eqb_refl, orb_true_r; reflexivity|].
    destruct (Nat.eqb_spec (length a) 0) as [Z|Z]; [reflexivity|]. cbn [orb nth length].
    assert (H : negb (is_cont b) = true).
    { inversion U; subst; apply negb_true_iff, not_true_iff_false; rewrite is_cont_iff; lia. }
    rewrite H. destruct (Nat.eqb_spec (length a) (length a + S (length u))); [lia|]. cbn [orb].
    destruct (Nat.ltb_spec (length a) (length a + S (length u))); [reflexivity|lia].
  - replace (Nat.eqb (length a + S k) 0) with false by (symmetry; apply Nat.eqb_neq; lia).
    replace (Nat.eqb (length a + S k) (length a + length u)) with (Nat.eqb (S k) (length u))
      by (destruct (Nat.eqb_spec (S k) (length u)); symmetry; [apply Nat.eqb_eq|apply Nat.eqb_neq]; lia).
    replace (Nat.ltb (length a + S k) (length a + length u)) with (Nat.ltb (S k) (length u))
      by (destruct (Nat.ltb_spec (S k) (length u)); symmetry; [apply Nat.ltb_lt|apply Nat.ltb_ge]; lia).
    reflexivity.
Qed.

(** What decides whether a call panics is the text. *)
Definition text_call (h : hint) (u : bytes) : tres unit :=
  tdo s <- slice_from u (eat_whitespace_loop u 0) ;;
  tdo (tok, size) <- read_next E s h ;;
  tdo _ <- slice s 0 size ;; TOk tt.

Lemma next_text t h u : stands t u ->
  match next t h with TOk _ => text_call h u = TOk tt | TPanic p => text_call h u = TPanic p end.
Proof.
  intros (a & Hc & Ho & Hu). unfold next_token, eat_whitespace, text_call.
  rewrite Hc, Ho, slice_from_app by exact Hu. cbn [tbind offset].
  rewrite (eat_loop_shift u (length a)). unfold slice_from. rewrite boundary_app by exact Hu.
  destruct (is_char_boundary u (eat_whitespace_loop u 0)); [|reflexivity]. cbn [tbind].
  replace (skipn (length a + eat_whitespace_loop u 0) (a ++ u)) with (skipn (eat_whitespace_loop u 0) u)
    by (rewrite skipn_app, (skipn_all2 a) by lia; cbn [app]; f_equal; lia).
  destruct (read_next E _ h) as [[tok size]|p]; [|reflexivity]. cbn [tbind]. unfold increment_position.
  destruct (slice (skipn _ u) 0 size); cbn [tbind]; [|reflexivity].
  destruct (increment_position_loop _ _ _ _). reflexivity.
Qed.

Lemma next_same_panic t1 t2 h u p : stands t1 u -> stands t2 u -> next t1 h = TPanic p -> next t2 h = TPanic p.
Proof.
  intros S1 S2 H. pose proof (next_text t1 h u S1) as X. pose proof (next_text t2 h u S2) as Y. rewrite H in X.
  destruct (next t2 h); congruence.
Qed.

Lemma read_same_panic n1 : forall n2 t1 t2 h ln1 ln2 u p, stands t1 u -> stands t2 u -> length u < n2 ->
  read_token next n1 t1 h ln1 = RdPanic p -> read_token next n2 t2 h ln2 = RdPanic p.
Proof.
  induction n1 as [|n1 IH]; intros n2 t1 t2 h ln1 ln2 u p S1 S2 L H; [discriminate|].
  destruct n2 as [|n2]; [lia|]. cbn [read_token] in *.
  destruct (next t1 h) as [[[tok rg] t1']|q] eqn:Q.
  - destruct (next_ok E t1 h u tok rg t1' S1 Q) as (g & w & r & -> & Bg & Hl & St & Uw & St1).
    assert (R : read_next E (w ++ r) h = TOk (tok, length w)).
    { destruct (lexeme_no_bom _ _ _ _ _ Hl) as [N1 N2].
      pose proof (next_eq E t1 h g (w ++ r) S1 Bg (lexeme_no_blank _ _ _ _ _ Hl) N1 N2) as X.
      pose proof (stands_blanks _ _ _ S1 Bg) as U.
      destruct (lexeme_read E h w tok r Hl U) as (tk' & R & _). rewrite R in X |- *. cbn [tbind] in X. rewrite Q in X.
      destruct (increment_position _ _ _); cbn in X; congruence. }
    destruct (next_word E t2 h g w tok r S2 Bg Hl R) as (rg2 & t2' & Q2 & _ & St2 & _). rewrite Q2.
    assert (LW : is_trivia tok = true -> length r < n2).
    { intros T. rewrite !app_length in L. destruct w; [|cbn in L; lia]. exfalso.
      destruct (empty_stuck E _ _ _ Hl) as [K _]. destruct K as [->|[->| ->]]; discriminate. }
    destruct tok; try discriminate H; cbn [is_trivia] in LW; (eapply IH; [exact St1|exact St2|apply LW; reflexivity|exact H]).
  - injection H as ->. rewrite (next_same_panic t1 t2 h u p S1 S2 Q). reflexivity.
Qed.
End Panics.

(** ** The theorem *)
Lemma stands_new code : utf8 code -> stands (into_tokenizer code) code.
Proof. intros U. exists []. repeat split. exact U. Qed.

Theorem respacing E r n code : utf8 code -> length code < r -> parse_root E r n code <> OutOfFuel ->
  exists ps rest log t,
    spaced ps rest code /\
    calls (next_token E) (into_tokenizer code) log t /\ significant false log = map word_token ps /\ stands t rest /\
    (forall a s, run_parser (next_token E) r n parse_module (into_tokenizer code) = ROk a s -> t = ps_tok s) /\
    (forall x s, run_parser (next_token E) r n parse_module (into_tokenizer code) = RErr x s -> map word_token ps = ps_read s) /\
    forall qs code' r', respaced ps qs -> spaced qs rest code' -> utf8 code' -> length code' < r' ->
      parse_root E r' n code' = parse_root E r n code.
Proof.
  intros U L NF. pose proof (stands_new code U) as S0.
  pose proof (run_traced (fun _ _ _ _ => false) TEOF (next_token E) r n (into_tokenizer code)) as Tr.
  unfold parse_root, parse_root_with, run_parser in *. unfold traced in Tr.
  assert (LOG : forall rl t', HintParser.reads (next_token E) r (into_tokenizer code) rl t' ->
    exists log, calls (next_token E) (into_tokenizer code) log t' /\ significant false log = map snd rl).
  { intros rl t' R. assert (X : exists log, calls (next_token E) (into_tokenizer code) log t' /\ forall rest, significant false (log ++ rest) = map snd rl ++ significant false rest).
    { clear - R. induction R as [t|t h la t1 rl t2 Q H IH]; [exists []; split; [constructor|reflexivity]|].
      destruct (read_calls _ _ _ _ _ _ _ Q) as (log1 & C1 & G1). destruct IH as (log2 & C2 & G2).
      exists (log1 ++ log2). split; [eapply calls_app; eassumption|]. intros rest. rewrite <- app_assoc, G1, G2. reflexivity. }
    destruct X as (log & C & G). exists log. split; [exact C|]. specialize (G []). rewrite !app_nil_r in G. exact G. }
  assert (REST : forall rl t', HintParser.reads (next_token E) r (into_tokenizer code) rl t' ->
    exists ps rest log, map word_token ps = map snd rl /\ spaced ps rest code /\
      calls (next_token E) (into_tokenizer code) log t' /\ significant false log = map word_token ps /\ stands t' rest /\
      forall qs code' r', respaced ps qs -> spaced qs rest code' -> utf8 code' -> length code' < r' ->
        exists t2, HintParser.reads (next_token E) r' (into_tokenizer code') rl t2 /\ stands t2 rest).
  { intros rl t' R. destruct (reads_words E r _ rl t' R code S0) as (ps & rest & W & St). destruct (LOG _ _ R) as (log & C & G).
    exists ps, rest, log. split; [symmetry; eapply words_tokens; exact W|]. split; [eapply words_spaced; exact W|]. split; [exact C|]. split; [rewrite <- (words_tokens _ _ _ _ _ W); exact G|].
    split; [exact St|]. intros qs code' r' F S U' L'.
    apply (words_reads E r' rl qs rest code'); [eapply words_respaced; eassumption|apply stands_new, U'|exact L']. }
  assert (LEN : forall ps rest, spaced ps rest code -> length rest <= length code).
  { clear. induction 1; rewrite ?app_length; lia. }
  destruct (interp (next_token E) r (exec (next_token E) r body n) parse_module (pstate_init (into_tokenizer code))) as [a s'|x s'|q|s'] eqn:Q.
  - destruct Tr as (rl & (R & RD) & T2 & _). destruct (REST _ _ R) as (ps & rest & log & A0 & A1 & A2 & A3 & A4 & A5).
    exists ps, rest, log, (ps_tok s'). repeat (split; [assumption|]). split; [congruence|].
    split; [intros y s Y; try discriminate Y; injection Y as <- <-; rewrite A0; cbn in RD; congruence|]. intros qs code' r' F S U' L'.
    destruct (A5 qs code' r' F S U' L') as (t2 & R2 & _). specialize (T2 _ _ _ _ _ R2).
    change (set_tok (pstate_init (into_tokenizer code)) (into_tokenizer code')) with (pstate_init (into_tokenizer code')) in T2.
    rewrite T2. reflexivity.
  - destruct Tr as (rl & (R & RD) & T2 & _). destruct (REST _ _ R) as (ps & rest & log & A0 & A1 & A2 & A3 & A4 & A5).
    exists ps, rest, log, (ps_tok s'). repeat (split; [assumption|]). split; [congruence|].
    split; [intros y s Y; try discriminate Y; injection Y as <- <-; rewrite A0; cbn in RD; congruence|]. intros qs code' r' F S U' L'.
    destruct (A5 qs code' r' F S U' L') as (t2 & R2 & _). specialize (T2 _ _ _ _ _ R2).
    change (set_tok (pstate_init (into_tokenizer code)) (into_tokenizer code')) with (pstate_init (into_tokenizer code')) in T2.
    rewrite T2. reflexivity.
  - destruct Tr as (rl & t & R & D). destruct (REST _ _ R) as (ps & rest & log & A0 & A1 & A2 & A3 & A4 & A5).
    exists ps, rest, log, t. repeat (split; [assumption|]). split; [discriminate|]. split; [discriminate|]. intros qs code' r' F S U' L'.
    destruct (A5 qs code' r' F S U' L') as (t2 & R2 & St2).
    destruct D as [(h & D1 & D2)|D].
    + assert (Lr : length rest < r').
      { clear - S L'. enough (length rest <= length code') by lia. clear L'. induction S; rewrite ?app_length; lia. }
      pose proof (read_same_panic E r r' t t2 h false false rest q A4 St2 Lr D1) as P.
      specialize (D2 _ _ _ _ _ _ R2 P).
      change (set_tok (pstate_init (into_tokenizer code)) (into_tokenizer code')) with (pstate_init (into_tokenizer code')) in D2.
      rewrite D2. reflexivity.
    + specialize (D _ _ _ _ _ R2).
      change (set_tok (pstate_init (into_tokenizer code)) (into_tokenizer code')) with (pstate_init (into_tokenizer code')) in D.
      rewrite D. reflexivity.
  - cbn in NF. congruence.
Qed.
