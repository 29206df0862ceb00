(** Proofs about what is read back from formatted text. *)
From Coq Require Import String List NArith Bool Arith Lia.
From Verif Require Import Base Tokens SpecTokens SpecTrivia SpecStream Tokenizer ByteFacts NumberFacts ParserCore SpecParser ParserBody
  SpecGrammar SpecLanguage SpecHints Coverage Formatter SpecFormatter FormatterFacts.
Import ListNotations.

Lemma head_app P a b : a <> [] -> head_is P (a ++ b) <-> head_is P a.
Proof.
  intros N. destruct a as [|x a]; [contradiction|]. cbn [app]. rewrite !head_is_cons. reflexivity.
Qed.

Lemma spells_text i t : spells i t -> item_text i <> [].
Proof.
  intros H. inversion H; subst; try discriminate. 
  - cbn [item_text]. match goal with H : fpunct_text _ = _ |- _ => rewrite H end. destruct q; discriminate.
  - match goal with H : number_text _ |- _ => inversion H; discriminate end.
Qed.

Lemma number_lexeme checks h s n r : number_text s -> ~ head_is ident_char r -> (~ In 46%N s -> ~ head_is (eq 46%N) r) ->
  lexeme checks h s (TNumeric n) r.
Proof.
  intros S A B. rewrite <- (app_nil_r s).
  assert (X : exponent_part [] r). { constructor. left. intros (b & y & -> & C). apply A. exists b, y. split; [reflexivity|].
    unfold exp_letter in C. unfold ident_char, lower, upper. lia. }
  assert (D : ~ head_is digit r) by (intros (b & y & -> & C); apply A; exists b, y; split; [reflexivity|unfold ident_char; tauto]).
  apply lx_decimal; [|intros _; reflexivity].
  inversion S as [|d ds D1 D2|f fs D1|d ds f fs D1 D2 D3]; subst.
  - apply dt_zero. right. intros (b & y & -> & C). cbn in C. 
    assert (b = 46%N \/ ident_char b) as [->|I] by (unfold ident_char, lower, upper; lia).
    + apply B; [cbn; intuition lia|exists 46%N, y; auto].
    + apply A. exists b, y. auto.
  - apply dt_integer; auto. apply B. rewrite Forall_forall in D2. intros [E|E]; [lia|]. apply D2 in E. unfold digit in E. lia.
  - apply dt_zero_dot; auto. discriminate.
  - apply dt_fraction; auto.
Qed.

Lemma mark_not_html p : fpunct_text p <> spelling LAngleExclamDashDash.
Proof. destruct p; discriminate. Qed.

Lemma begins_longer a b c r : SpecTokens.begins a (b ++ c :: r) -> length b < length a -> SpecTokens.begins (b ++ [c]) a.
Proof.
  intros (y & E) L. revert a E L. induction b as [|x b IH]; intros a E L; destruct a as [|z a]; cbn in *; try lia.
  - injection E as <- _. exists a. reflexivity.
  - injection E as <- E. destruct (IH a E ltac:(lia)) as (w & ->). exists w. reflexivity.
Qed.

Lemma mark_longest p q r : fpunct_text p = spelling q ->
  (head_is (fun c => forall q', q' <> LAngleExclamDashDash -> ~ SpecTokens.begins (fpunct_text p ++ [c]) (spelling q')) r \/ r = []) ->
  longest_punctuator q (spelling q ++ r).
Proof.
  intros S H. split; [intros ->; exact (mark_not_html p S)|]. split; [exists r; reflexivity|].
  intros q' N B. destruct (le_lt_dec (length (spelling q')) (length (spelling q))) as [L|L]; [exact L|exfalso].
  destruct H as [(c & y & -> & C)| ->].
  - apply (C q' N). rewrite S. apply begins_longer with y; assumption.
  - destruct B as (y & E). apply (f_equal (@length _)) in E. rewrite !app_length in E. cbn in E. lia.
Qed.

Definition no_template (t : token) : Prop := match t with TTemplate _ _ _ => False | _ => True end.
Lemma no_substitution past : Forall no_template past -> in_substitution past = false.
Proof.
  unfold in_substitution, open_braces. assert (G : forall s, Forall (eq false) s -> Forall no_template past ->
    Forall (eq false) (fold_left brace_step past s)).
  { induction past as [|t past IH]; intros s F T; [exact F|]. inversion T as [|? ? T1 T2]; subst. cbn [fold_left]. apply IH; [|exact T2].
    destruct t as [p| | | | | | | |f c raw| ]; try exact F; [|destruct T1]. destruct p; try exact F; cbn.
    - constructor; auto.
    - destruct F; [constructor|assumption]. }
  intros T. pose proof (G [] (Forall_nil _) T) as X. destruct X as [|x l <- _]; reflexivity.
Qed.
Lemma spells_no_template i t : spells i t -> no_template t.
Proof. intros H. inversion H; exact I. Qed.
Lemma spells_significant i t : spells i t -> significant_token t.
Proof. intros H. inversion H; exact I. Qed.

Lemma item_lexeme checks h past i t r : spells i t -> Forall no_template past -> suits past t h ->
  (divides t -> mentions_yield past = false /\ after_operand (rev past) = true) ->
  (regular_expression t -> mentions_yield past = false /\ before_operand (rev past) = true) ->
  apart i r -> (forall w, i = Word w -> ~ head_is ident_char r) -> lexeme checks h (item_text i) t r.
Proof.
  intros S F (B & Sl) Dv Rx A W. unfold suits_slash in Sl. destruct S as [c w I D Fw|p q E|s n N|s nl U N|v fl U Rb V St Fl]; cbn [item_text].
  - apply lx_ident; auto. eapply W. reflexivity.
  - cbn [apart] in A. rewrite E.
    destruct (punctuator_eq_dec q CurlyClose) as [->|N1].
    { apply lx_curly_close. rewrite B by (left; reflexivity). apply no_substitution, F. }
    destruct (punctuator_eq_dec q Slash) as [->|N2].
    { destruct (Dv (or_introl eq_refl)) as [Y O]. apply lx_slash; [apply (Sl Y); [left; reflexivity|exact O]|].
      assert (p = Fp_Slash) as -> by (destruct p; try discriminate E; reflexivity).
      intros (b & y & -> & C). destruct A as [A|A]; [|discriminate]. rewrite head_is_cons in A. destruct A as (A1 & _ & A2). destruct (A2 eq_refl) as [A3 A4].
      destruct C as [->|[->| ->]]; try congruence. apply (A1 SlashEq); [discriminate|]. exists []. reflexivity. }
    destruct (punctuator_eq_dec q SlashEq) as [->|N3]; [destruct p; discriminate E|].
    apply lx_punctuator.
    + apply (mark_longest p q r E). destruct A as [(c & y & -> & C & _)|A]; [left; exists c, y; auto|right; exact A].
    + intros H. unfold hinted in H. cbn in H. intuition congruence.
    + intros ->. assert (p = Fp_Period) as -> by (destruct p; try discriminate E; reflexivity).
      intros (b & y & -> & C). destruct A as [A|A]; [|discriminate]. rewrite head_is_cons in A. destruct A as (_ & A & _). exact (A eq_refl C).
  - destruct A as [A1 A2]. apply number_lexeme; assumption.
  - apply lx_string with nl; [right; reflexivity|exact N].
  - destruct (Rx (ex_intro _ v (ex_intro _ fl eq_refl))) as [Y O]. apply lx_regex; auto. apply (Sl Y); [exists v, fl; reflexivity|exact O].
Qed.

(** What follows a word does not continue it. *)
Lemma spelling_head q : ~ head_is ident_char (spelling q) /\ spelling q <> [].
Proof. split; [|destruct q; discriminate]. intros (b & y & E & C). destruct q; cbn in E; injection E as <- _; unfold ident_char, lower, upper, digit in C; lia. Qed.
Lemma after_word l : Forall (fun i => exists t, spells i t) l -> ~ head_is ident_char (layout true l).
Proof.
  intros F. destruct F as [|i l (t & S) _]; [apply head_is_nil|]. cbn [layout].
  destruct S as [c w I D Fw|p q E|s n N|s nl U N|v fl U Rb V St Fl]; cbn [spaced_item item_text app];
    try (cbn [s2b app]; rewrite head_is_cons; unfold ident_char, lower, upper, digit; cbn; lia).
  destruct (spelling_head q) as [M1 M2]. match goal with H : fpunct_text _ = _ |- _ => rewrite H end. rewrite head_app by exact M2. exact M1.
Qed.

Fixpoint pieces (k : bool) (l : list item) (ts : list token) : list piece :=
  match l, ts with
  | i :: l', t :: ts' => Piece (spaced_item k i) (false, t) (item_text i) :: pieces (word_last k i) l' ts'
  | _, _ => [Piece [] (false, TEOF) []]
  end.
Lemma pieces_tokens l ts : forall k, Forall2 spells l ts ->
  map word_token (pieces k l ts) = map (fun t => (false, t)) ts ++ [(false, TEOF)].
Proof. intros k F. revert k. induction F as [|i t l ts S F IH]; intros k; cbn; [reflexivity|rewrite IH; reflexivity]. Qed.

Lemma layout_printed checks l ts : Forall2 spells l ts -> all_apart l -> forall k past, Forall no_template past -> slashes_settled past ts ->
  printed checks past (pieces k l ts) (layout k l).
Proof.
  induction 1 as [|i t l ts S F IH]; intros A k past T Sl; cbn [pieces layout]; [apply (pr_end checks past [] false); constructor|].
  cbn [slashes_settled] in Sl. destruct Sl as (Dv & Rx & Sl).
  assert (W : Forall (fun i => exists t, spells i t) l) by (clear - F; induction F; constructor; eauto).
  assert (A' : all_apart l) by (cbn in A; destruct l; [exact I|apply A]).
  apply (pr_cons checks past _ false t (item_text i)).
  - destruct i; cbn [spaced_item]; try apply tv_nil; destruct k; try apply tv_nil; apply tv_blank; try apply tv_nil; unfold blank; auto.
  - eapply spells_text, S.
  - eapply spells_significant, S.
  - intros h H. apply (item_lexeme checks h past); auto.
    + cbn in A. destruct F as [|j t' l ts S' F].
      { cbn [layout]. destruct i; cbn [apart]; auto; try (split; intros; apply head_is_nil); apply head_is_nil. }
      destruct A as [A _]. pose proof (spells_text _ _ S') as N.
      assert (Q : forall k', (forall w, i <> Word w) -> layout (word_last k' i) (j :: l) = item_text j ++ layout (word_last false j) l).
      { intros k' X. destruct S; try reflexivity. - destruct (X _ eq_refl). - destruct j; reflexivity. - destruct j; reflexivity. - destruct j; reflexivity. - destruct j; reflexivity. }
      destruct S; cbn [apart] in A |- *; auto; rewrite Q by discriminate; clear Q.
      * destruct A as [A|A]; [|contradiction]. left. apply head_app; assumption.
      * rewrite !head_app by exact N. exact A.
      * rewrite head_app by exact N. exact A.
    + intros w ->. apply after_word, W.
  - apply IH; auto. apply Forall_app. split; [exact T|]. constructor; [eapply spells_no_template, S|constructor].
Qed.

Theorem formatted checks u ts : Forall2 spells (displayed u) ts -> all_apart (displayed u) -> slashes_settled [] ts ->
  exists ps, map word_token ps = map (fun t => (false, t)) ts ++ [(false, TEOF)] /\ printed checks [] ps (display u).
Proof.
  intros F A S. exists (pieces false (displayed u) ts). split; [apply pieces_tokens, F|]. rewrite display_displayed. apply layout_printed; auto.
Qed.

Lemma digits_ascii ds : Forall digit ds -> Forall (fun b => (b < 128)%N) ds.
Proof. apply Forall_impl. unfold digit. lia. Qed.
Lemma spells_utf8 i t : spells i t -> utf8 (item_text i).
Proof.
  intros S. destruct S as [c w I D Fw|p q E|s n N|s nl U N|v fl U Rb V St Fl]; cbn [item_text].
  - apply utf8_ascii. assert (G : forall b, ident_char b -> (b < 128)%N) by (unfold ident_char, lower, upper, digit; lia).
    constructor; [auto|]. revert Fw. apply Forall_impl. exact G.
  - apply utf8_ascii. destruct p; repeat constructor.
  - apply utf8_ascii. inversion N as [|d ds D1 D2|f fs D1|d ds f fs D1 D2 D3]; subst.
    + repeat constructor.
    + constructor; [lia|apply digits_ascii; assumption].
    + constructor; [lia|]. constructor; [lia|apply digits_ascii; assumption].
    + constructor; [lia|]. apply Forall_app. split; [apply digits_ascii; assumption|]. constructor; [lia|apply digits_ascii; assumption].
  - apply utf8_app; [|apply utf8_app; [exact U|]]; apply utf8_ascii; repeat constructor.
  - apply utf8_app; [apply utf8_ascii; repeat constructor|]. apply utf8_app; [exact U|]. apply utf8_app; [apply utf8_ascii; repeat constructor|].
    apply utf8_ascii. revert Fl. apply Forall_impl. unfold lower. lia.
Qed.
Lemma layout_utf8 l ts : Forall2 spells l ts -> forall k, utf8 (layout k l).
Proof.
  induction 1 as [|i t l ts S F IH]; intros k; cbn [layout]; [constructor|]. apply utf8_app; [|apply utf8_app; [eapply spells_utf8, S|apply IH]].
  apply utf8_ascii. destruct i; cbn; try constructor; destruct k; repeat constructor.
Qed.

Theorem formatted_accepted E r n u ts : Forall2 spells (displayed u) ts -> all_apart (displayed u) -> slashes_settled [] ts ->
  program (map (fun t => (false, t)) ts ++ [(false, TEOF)]) ->
  length (display u) < r -> 20 * length (display u) + 80 <= n ->
  parse_root E r n (display u) = Accepted.
Proof.
  intros F A S P R N. destruct (formatted (overflow_checks E) u ts F A S) as (ps & Q & W).
  apply (c30_accepted E r n ps); auto; [rewrite display_displayed; eapply layout_utf8, F|]. rewrite Q. exact P.
Qed.
