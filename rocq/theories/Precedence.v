(** Precedence has no influence on what a chain of binary operators accepts. *)
From Coq Require Import String List Arith NArith Bool Lia.
From Verif Require Import Base Tokens ByteFacts ParserCore ParserBody AbstractParser ParserExec ParserTerminates GrammarFirst.
Import ListNotations.
Local Open Scope string_scope.

Lemma teof_end : end_token TEOF.
Proof. left. reflexivity. Qed.
Notation parse0 := (parse TEOF).
Notation ok r := (AOk (Some tt) r).
Lemma parse0_eq f g i : parse0 f g i = ainterp TEOF parse0 (body f) g i.
Proof. apply parse_eq, teof_end. Qed.
Lemma parse0_first f g i : firstness f g i (parse0 f g i).
Proof. apply first_holds. Qed.
Lemma parse0_consumption f g i : consumption f i (parse0 f g i).
Proof. apply parse_consumption. Qed.
Lemma parse0_le f g i r : parse0 f g i = ok r -> length r <= length i.
Proof.
  intros H. pose proof (parse0_consumption f g i) as C. rewrite H in C. cbn [consumption] in C. lia.
Qed.
Lemma unary_lt g i r : parse0 F_unary g i = ok r -> length r < length i.
Proof.
  intros H. pose proof (parse0_consumption F_unary g i) as C. rewrite H in C. cbn [consumption consuming] in C.
  destruct i; [|cbn [length] in *; lia]. pose proof (parse0_first F_unary g []) as F. rewrite H in F. cbn in F. discriminate F.
Qed.
Lemma tok0_length i : tok0 i <> TEOF -> length (tl i) < length i.
Proof. destruct i; intros H; [exfalso; apply H; reflexivity|cbn; lia]. Qed.

Local Opaque parse.
Ltac exec f := rewrite (parse0_eq f); cbn [body].

(** ** The functions involved, as equations *)
Definition precedence_here (g : grammar_flags) (i : input) : option nat := binary_precedence (allow_in g) (tok0 i).

Lemma fancy_eq p g i r : parse0 (F_fancy p) g i = ok r <->
  exists k, parse0 F_exponential g i = ok k /\ parse0 (L_fancy p (allow_in g)) g k = ok r.
Proof.
  exec (F_fancy p). unfold parse_fancy. cbn [ainterp abind].
  destruct (parse0 F_exponential g i) as [[[]|] k|? ?|?|?]; cbn; split;
    try (intros H; discriminate H); try (intros (k' & H & _); discriminate H).
  - intros H. exists k. split; [reflexivity|exact H].
  - intros (k' & H & H'). injection H as <-. exact H'.
Qed.
Lemma exponential_eq g i k : parse0 F_exponential g i = ok k <->
  exists m, parse0 F_unary g i = ok m /\
    if is_punc StarStar (tok0 m) then parse0 F_exponential g (tl m) = ok k else k = m.
Proof.
  exec F_exponential. unfold parse_exponential_expression. cbn [ainterp abind].
  destruct (parse0 F_unary g i) as [[[]|] m|? ?|?|?]; cbn [ainterp abind]; 
    try (split; [intros H; discriminate H|intros (k' & H & _); discriminate H]).
  rewrite punc_eq. unfold eats.
  destruct (is_punc StarStar (tok0 m)) eqn:E.
  - cbn. split.
    + intros H. exists m. split; [reflexivity|]. rewrite E. revert H. destruct (parse0 F_exponential g (tl m)) as [[[]|] ?|? ?|?|?]; cbn; congruence.
    + intros (m' & H & H'). injection H as <-. rewrite E in H'. rewrite H'. reflexivity.
  - cbn. split.
    + intros H. exists m. split; [reflexivity|]. rewrite E. congruence.
    + intros (m' & H & H'). injection H as <-. rewrite E in H'. congruence.
Qed.
Lemma loop_eq p g i r : parse0 (L_fancy p (allow_in g)) g i = ok r <->
  match precedence_here g i with
  | None => r = i
  | Some q =>
    if Nat.leb p q && negb (Nat.eqb q 11)
    then exists m, parse0 F_unary g (tl i) = ok m /\ parse0 (L_fancy q (allow_in g)) g m = ok r
    else exists m, parse0 (F_fancy q) g (tl i) = ok m /\ parse0 (L_fancy p (allow_in g)) g m = ok r
  end.
Proof.
  exec (L_fancy p (allow_in g)). unfold parse_fancy_loop, precedence_here. 
  cbn. change (snd (cur0 i)) with (tok0 i). change (@tl (bool * token) i) with (@tl lookahead i). destruct (binary_precedence (allow_in g) (tok0 i)) as [q|] eqn:E; cbn.
  - destruct (_ && _).
    + cbn. destruct (parse0 F_unary g (tl i)) as [[[]|] m|? ?|?|?]; cbn;
        (split; [intros H; try discriminate H|intros (m' & H & H'); try discriminate H]).
      * exists m. split; [reflexivity|exact H].
      * injection H as <-. exact H'.
    + cbn. destruct (parse0 (F_fancy q) g (tl i)) as [[[]|] m|? ?|?|?]; cbn;
        (split; [intros H; try discriminate H|intros (m' & H & H'); try discriminate H]).
      * exists m. split; [reflexivity|exact H].
      * injection H as <-. exact H'.
  - split; congruence.
Qed.

(** A chain ends only where no binary operator follows. *)
Lemma loop_stops n : forall p g i r, length i <= n -> parse0 (L_fancy p (allow_in g)) g i = ok r -> precedence_here g r = None.
Proof.
  induction n as [|n IH]; intros p g i r L H; apply loop_eq in H; destruct (precedence_here g i) as [q|] eqn:E; subst; try exact E.
  - destruct i; [discriminate E|cbn in L; lia].
  - assert (length (tl i) < length i) by (apply tok0_length; intros X; unfold precedence_here in E; rewrite X in E; discriminate).
    destruct (_ && _); destruct H as (m & A & B); refine (IH _ _ _ _ _ B); apply parse0_le in A; lia.
Qed.
Lemma loop_stopped p g r : precedence_here g r = None -> parse0 (L_fancy p (allow_in g)) g r = ok r.
Proof. intros H. apply loop_eq. rewrite H. reflexivity. Qed.
Lemma loop_idem p q g k r : parse0 (L_fancy p (allow_in g)) g k = ok r -> parse0 (L_fancy q (allow_in g)) g r = ok r.
Proof. intros H. apply loop_stopped. eapply loop_stops; [apply le_n|exact H]. Qed.
Lemma loop_same p q g j k r : parse0 (L_fancy p (allow_in g)) g j = ok k -> parse0 (L_fancy q (allow_in g)) g k = ok r -> r = k.
Proof. intros H H'. apply (loop_idem _ q) in H. congruence. Qed.

(** Exponentiation in the middle of a chain is one of its operators. *)
Lemma star_star_here g m : is_punc StarStar (tok0 m) = true -> precedence_here g m = Some 11.
Proof. unfold precedence_here. destruct (tok0 m) as [[]| | | | | | | | |]; try discriminate; reflexivity. Qed.

Definition irrelevant (g : grammar_flags) (j : input) : Prop := forall p q r,
  parse0 (L_fancy p (allow_in g)) g j = ok r -> parse0 (L_fancy q (allow_in g)) g j = ok r.
Definition flat (g : grammar_flags) (j : input) : Prop := forall p r,
  parse0 (F_fancy p) g j = ok r <->
  exists m, parse0 F_unary g j = ok m /\ parse0 (L_fancy p (allow_in g)) g m = ok r.

Lemma exponential_le g i r : parse0 F_exponential g i = ok r -> length r < length i.
Proof.
  intros H. apply exponential_eq in H. destruct H as (m & U & H). apply unary_lt in U.
  destruct (is_punc StarStar (tok0 m)); [|subst; exact U]. apply parse0_le in H. rewrite length_tl in H. lia.
Qed.

Lemma irrelevant_flat g n : forall j, length j <= n -> irrelevant g j /\ flat g j.
Proof.
  induction n as [|n IH]; intros j L.
  { destruct j; [|cbn in L; lia]. split.
    - intros p q r H. apply loop_eq in H. cbn in H. subst. apply loop_stopped. reflexivity.
    - intros p r. split.
      + intros H. apply fancy_eq in H. destruct H as (k & H & _). apply exponential_le in H. cbn in H. lia.
      + intros (m & H & _). apply unary_lt in H. cbn in H. lia. }
  assert (FL : flat g j).
  { intros p r. split.
    - intros H. apply fancy_eq in H. destruct H as (k1 & X & Y).
      assert (L1 := exponential_le _ _ _ X). apply exponential_eq in X. destruct X as (m & U & X). exists m. split; [exact U|].
      assert (L2 := unary_lt _ _ _ U). destruct (is_punc StarStar (tok0 m)) eqn:S0; [|subst; exact Y].
      apply loop_eq. rewrite (star_star_here _ _ S0). rewrite Nat.eqb_refl, andb_false_r. exists r. split; [|exact (loop_idem _ _ _ _ _ Y)].
      apply fancy_eq. exists k1. split; [exact X|]. apply (proj1 (IH k1 ltac:(lia)) p). exact Y.
    - intros (m & U & Y). assert (L2 := unary_lt _ _ _ U). apply fancy_eq. destruct (is_punc StarStar (tok0 m)) eqn:S0.
      + apply loop_eq in Y. rewrite (star_star_here _ _ S0) in Y. rewrite Nat.eqb_refl, andb_false_r in Y. destruct Y as (k & A & B).
        apply fancy_eq in A. destruct A as (k1 & A & A'). assert (r = k) by exact (loop_same _ _ _ _ _ _ A' B). subst k.
        exists k1. split; [apply exponential_eq; exists m; split; [exact U|rewrite S0; exact A]|].
        apply exponential_le in A. rewrite length_tl in A. apply (proj1 (IH k1 ltac:(lia)) 11). exact A'.
      + exists m. split; [apply exponential_eq; exists m; split; [exact U|rewrite S0; reflexivity]|exact Y]. }
  split; [|exact FL]. intros p q r H. apply loop_eq in H. apply loop_eq. destruct (precedence_here g j) as [np|] eqn:E; [|exact H].
  assert (LT : length (tl j) < length j) by (apply tok0_length; intros X; unfold precedence_here in E; rewrite X in E; discriminate).
  assert (FT := proj2 (IH (tl j) ltac:(lia))).
  destruct (Nat.leb p np && negb (Nat.eqb np 11)), (Nat.leb q np && negb (Nat.eqb np 11)); destruct H as (m & A & B).
  - eauto.
  - exists r. split; [apply FT; eauto|exact (loop_idem _ _ _ _ _ B)].
  - apply FT in A. destruct A as (m' & U & B'). assert (r = m) by exact (loop_same _ _ _ _ _ _ B' B). subst m. eauto.
  - exists m. split; [exact A|]. apply fancy_eq in A. destruct A as (k1 & _ & A). assert (r = m) by exact (loop_same _ _ _ _ _ _ A B). subst m.
    exact (loop_idem _ _ _ _ _ A).
Qed.

Theorem precedence_irrelevant g j p q r :
  parse0 (L_fancy p (allow_in g)) g j = ok r -> parse0 (L_fancy q (allow_in g)) g j = ok r.
Proof. apply (irrelevant_flat g (length j) j (le_n _)). Qed.
Theorem fancy_flat g j p r : parse0 (F_fancy p) g j = ok r <->
  exists m, parse0 F_unary g j = ok m /\ parse0 (L_fancy p (allow_in g)) g m = ok r.
Proof. apply (irrelevant_flat g (length j) j (le_n _)). Qed.
Theorem fancy_irrelevant g j p q r : parse0 (F_fancy p) g j = ok r -> parse0 (F_fancy q) g j = ok r.
Proof.
  intros H. apply fancy_flat in H. apply fancy_flat. destruct H as (m & U & H). exists m. split; [exact U|].
  exact (precedence_irrelevant _ _ _ _ _ H).
Qed.
