(** Laid out items can be told apart: the text determines them. *)
From Coq Require Import String List NArith Bool Arith Lia.
From Verif Require Import Base Tokens SpecTokens SpecTrivia SpecStream Tokenizer SpecHints ByteFacts LexTotal ParserCore SpecParser ParserBody SpecGrammar SpecLanguage
  Formatter SpecFormatter FormatterFacts FormatterTokens Nodes SpecNodes NodeItems NodeTokens NodeText.
Import ListNotations.

(** What follows an item in a layout does not continue it. *)
Definition delimited (i : item) (r : bytes) : Prop := apart i r /\ forall w, i = Word w -> ~ head_is ident_char r.
Lemma layout_delimited i l k : good_item i -> Forall good_item l -> all_apart (i :: l) -> delimited i (layout (word_last k i) l).
Proof.
  intros (S & _) G A. split.
  - destruct G as [|j l (S' & _) G].
    { cbn [layout]. destruct i; cbn [apart]; auto; try (split; intros; apply head_is_nil); apply head_is_nil. }
    cbn in A. destruct A as [A _]. pose proof (spells_text _ _ S') as N.
    assert (Q : forall k', (forall w, i <> Word w) -> layout (word_last k' i) (j :: l) = item_text j ++ layout (word_last false j) l).
    { intros k' X. destruct S; try reflexivity. - destruct (X _ eq_refl). - destruct j; reflexivity. - destruct j; reflexivity. - destruct j; reflexivity. - destruct j; reflexivity. }
    destruct S; cbn [apart] in A |- *; auto; rewrite Q by discriminate; clear Q.
    + destruct A as [A|A]; [|contradiction]. left. apply head_app; assumption.
    + rewrite !head_app by exact N. exact A.
    + rewrite head_app by exact N. exact A.
  - intros w ->. apply after_word. eapply Forall_impl; [|exact G]. intros j (S' & _). eauto.
Qed.

Lemma good_lexeme checks i r : good_item i -> delimited i r -> lexeme checks hint_default (item_text i) (tok_of i) r.
Proof.
  intros (S & D & X) (A & W). apply (item_lexeme checks hint_default []); auto; try (intros K; contradiction).
  split; [intros _; reflexivity|]. intros _. split; intros K; contradiction.
Qed.
(** Among items of these kinds the token and the text determine the item. *)
Lemma good_determined i j : good_item i -> good_item j -> item_text i = item_text j -> same_token (tok_of i) (tok_of j) -> i = j.
Proof.
  intros (S & _) (S' & _) E T. inversion S as [c w I D Fw Qi Qt|p q Ep Qi Qt|s n N Qi Qt|s nl U N Qi Qt|v fl U Rb V St Fl Qi Qt]; subst i; clear S Qt;
  inversion S' as [c' w' I' D' Fw' Qj Qt|p' q' Ep' Qj Qt|s' n' N' Qj Qt|s' nl' U' N' Qj Qt|v' fl' U' Rb' V' St' Fl' Qj Qt]; subst j; clear S'; cbn [tok_of] in *;
    cbn [same_token] in T; try discriminate T; try (injection T; intros; subst; reflexivity).
  - cbn [item_text] in E. f_equal. clear Qt T. subst.
    destruct p; try discriminate Ep; destruct p'; try discriminate Ep'; try discriminate E; reflexivity.
  - cbn [item_text] in E. congruence.
Qed.

Lemma next_item i j r r' : good_item i -> good_item j -> delimited i r -> delimited j r' -> utf8 (item_text i ++ r) ->
  item_text i ++ r = item_text j ++ r' -> i = j /\ r = r'.
Proof.
  intros Gi Gj Di Dj U E. pose (B := {| overflow_checks := true; powi10 := fun _ => f64_zero |}).
  destruct (lexeme_read B hint_default _ _ _ (good_lexeme _ i r Gi Di) U) as (t & R & T).
  rewrite E in U. destruct (lexeme_read B hint_default _ _ _ (good_lexeme _ j r' Gj Dj) U) as (t' & R' & T').
  rewrite <- E, R in R'. injection R' as <- L.
  assert (item_text i = item_text j) as Q.
  { apply (f_equal (firstn (length (item_text i)))) in E. rewrite L in E at 2. rewrite !firstn_app, !firstn_all, !Nat.sub_diag in E. cbn in E. rewrite !app_nil_r in E. exact E. }
  split; [|rewrite Q in E; apply app_inv_head in E; exact E]. apply good_determined; auto.
  destruct (tok_of i); destruct (tok_of j); cbn [same_token] in *; subst; try exact I; try reflexivity; try discriminate T'; try (injection T' as ->; reflexivity); auto.
Qed.
(** The space that is put in front. *)
Lemma item_no_space i : good_item i -> ~ head_is (eq 32%N) (item_text i).
Proof.
  intros ([c w I D Fw|p q Ep|s n N|s nl U N|v fl U Rb V St Fl] & _) (b & y & Q & <-); cbn [item_text] in Q.
  - injection Q as -> _. unfold ident_char, lower, upper, digit in I. lia.
  - destruct p; discriminate Q.
  - inversion N; subst; try discriminate; match goal with H : _ :: _ = 32%N :: y |- _ => injection H; intros; lia end.
  - discriminate Q.
  - discriminate Q.
Qed.
Lemma spaced_cases k i : spaced_item k i = [] \/ spaced_item k i = [32%N].
Proof. destruct i, k; cbn; auto. Qed.
Theorem layout_injective l : Forall good_item l -> all_apart l -> forall l' k, Forall good_item l' -> all_apart l' -> layout k l = layout k l' -> l = l'.
Proof.
  induction 1 as [|i l Gi Gl IH]; intros A l' k Gl' A' E.
  - destruct Gl' as [|j l' Gj Gl']; [reflexivity|]. exfalso. cbn [layout] in E. pose proof (spells_text _ _ (proj1 Gj)) as N. destruct (spaced_item k j), (item_text j); try discriminate E; congruence.
  - destruct Gl' as [|j l' Gj Gl'].
    { exfalso. cbn [layout] in E. pose proof (spells_text _ _ (proj1 Gi)) as N. destruct (spaced_item k i), (item_text i); try discriminate E; congruence. }
    assert (U : utf8 (item_text i ++ layout (word_last k i) l)).
    { apply utf8_app; [eapply spells_utf8, Gi|]. eapply layout_utf8. apply spells_all, Gl. }
    pose proof (layout_delimited i l k Gi Gl A) as Di. pose proof (layout_delimited j l' k Gj Gl' A') as Dj. cbn [layout] in E.
    assert (spaced_item k i = spaced_item k j) as Q.
    { pose proof (item_no_space i Gi) as Ni. pose proof (item_no_space j Gj) as Nj. pose proof (spells_text _ _ (proj1 Gi)) as Ti. pose proof (spells_text _ _ (proj1 Gj)) as Tj.
      destruct (spaced_cases k i) as [Qi|Qi], (spaced_cases k j) as [Qj|Qj]; rewrite Qi, Qj in *; auto; exfalso; cbn [app] in E.
      - apply Ni. destruct (item_text i) as [|b y]; [congruence|]. injection E as -> _. apply head_is_cons. reflexivity.
      - apply Nj. destruct (item_text j) as [|b y]; [congruence|]. injection E as <- _. apply head_is_cons. reflexivity. }
    rewrite Q in E. apply app_inv_head in E. destruct (next_item i j _ _ Gi Gj Di Dj U E) as (-> & R). f_equal.
    apply (IH ltac:(cbn in A; destruct l; [exact I|apply A]) l' (word_last k j)); auto. cbn in A'. destruct l'; [exact I|apply A'].
Qed.
