(** Facts about byte strings, UTF-8 and slices. *)
From Coq Require Import String List NArith ZArith Bool Arith Lia.
From Verif Require Import Base Tokens SpecTokens.
Import ListNotations.
Local Open Scope N_scope.

Lemma beqb_eq a b : beqb a b = true <-> a = b.
Proof.
  revert b; induction a as [|x a IH]; intros [|y b]; cbn [beqb]; split; intros H;
    try discriminate; try reflexivity.
  - apply andb_true_iff in H as [H1 H2]. apply N.eqb_eq in H1. apply IH in H2. congruence.
  - injection H as -> ->. rewrite N.eqb_refl. apply IH. reflexivity.
Qed.

Lemma starts_with_begins p s : starts_with p s = true <-> begins p s.
Proof.
  revert s; induction p as [|x p IH]; intros s; cbn [starts_with].
  - split; [intros _; exists s; reflexivity | reflexivity].
  - destruct s as [|y s].
    + split; [discriminate | intros [r H]; discriminate].
    + rewrite andb_true_iff, N.eqb_eq, IH. split.
      * intros [-> [r ->]]. exists r. reflexivity.
      * intros [r H]. injection H as -> ->. split; [reflexivity | exists r; reflexivity].
Qed.

Lemma starts_with_not p s : starts_with p s = false <-> ~ begins p s.
Proof.
  rewrite <- starts_with_begins. destruct (starts_with p s); split; congruence.
Qed.

Lemma begins_dec p s : begins p s \/ ~ begins p s.
Proof.
  destruct (starts_with p s) eqn:H;
    [left; apply starts_with_begins, H | right; apply starts_with_not, H].
Qed.

Lemma begins_app p s : begins p (p ++ s).
Proof. exists s. reflexivity. Qed.

Lemma in_range_iff lo hi b : in_range lo hi b = true <-> lo <= b <= hi.
Proof. unfold in_range. rewrite andb_true_iff, !N.leb_le. lia. Qed.

Lemma in_range_not lo hi b : in_range lo hi b = false <-> ~ (lo <= b <= hi).
Proof. rewrite <- in_range_iff. destruct (in_range lo hi b); split; congruence. Qed.

Lemma head_is_cons P b r : head_is P (b :: r) <-> P b.
Proof.
  split; [intros (c & r' & H & Hp); injection H as -> ->; exact Hp | intros H; exists b, r; auto].
Qed.

Lemma head_is_nil P : ~ head_is P [].
Proof. intros (c & r' & H & _). discriminate. Qed.

(** ** UTF-8 *)

Lemma is_cont_iff b : is_cont b = true <-> 128 <= b <= 191.
Proof. apply in_range_iff. Qed.
Lemma is_cont_not b : is_cont b = false <-> b < 128 \/ 192 <= b.
Proof. unfold is_cont. rewrite in_range_not. lia. Qed.

Ltac nocont :=
  repeat match goal with
  | H : is_cont _ = true |- _ => apply is_cont_iff in H
  | H : is_cont _ = false |- _ => apply is_cont_not in H
  end.

Lemma utf8_head b r : utf8 (b :: r) -> is_cont b = false.
Proof. intros H; inversion H; subst; apply is_cont_not; lia. Qed.

Lemma utf8_ascii_tail b r : b < 128 -> utf8 (b :: r) -> utf8 r.
Proof. intros Hb H; inversion H; subst; auto; lia. Qed.

Ltac u8 := first [ solve [apply utf8_nil] | solve [apply utf8_1; auto] | solve [apply utf8_2; auto]
                 | solve [apply utf8_3; auto] | solve [apply utf8_4; auto] ].

Lemma utf8_app a b : utf8 a -> utf8 b -> utf8 (a ++ b).
Proof. induction 1; cbn [app]; intros; auto; u8. Qed.

Lemma utf8_app_inv a b : utf8 a -> utf8 (a ++ b) -> utf8 b.
Proof.
  induction 1; cbn [app]; intros Hu; auto; inversion Hu; subst; auto; try lia.
Qed.

(** A byte that is not a continuation byte starts a character. *)
Lemma utf8_split s : utf8 s -> forall a b c, s = a ++ b :: c -> is_cont b = false ->
  utf8 a /\ utf8 (b :: c).
Proof.
  induction 1; intros x y z E Hy.
  - destruct x; discriminate.
  - destruct x as [|x0 x]; injection E as -> E.
    + subst. split; u8.
    + destruct (IHutf8 _ _ _ E Hy). split; auto. u8.
  - destruct x as [|x0 [|x1 x]].
    + injection E as -> <-. split; u8.
    + injection E as -> -> <-. congruence.
    + injection E as -> -> E. destruct (IHutf8 _ _ _ E Hy). split; auto. u8.
  - destruct x as [|x0 [|x1 [|x2 x]]].
    + injection E as -> <-. split; u8.
    + injection E as -> -> <-. congruence.
    + injection E as -> -> -> <-. congruence.
    + injection E as -> -> -> E. destruct (IHutf8 _ _ _ E Hy). split; auto. u8.
  - destruct x as [|x0 [|x1 [|x2 [|x3 x]]]].
    + injection E as -> <-. split; u8.
    + injection E as -> -> <-. congruence.
    + injection E as -> -> -> <-. congruence.
    + injection E as -> -> -> -> <-. congruence.
    + injection E as -> -> -> -> E. destruct (IHutf8 _ _ _ E Hy). split; auto. u8.
Qed.

Lemma utf8_split_ascii a b c : b < 128 -> utf8 (a ++ b :: c) -> utf8 a /\ utf8 c.
Proof.
  intros Hb Hu. destruct (utf8_split _ Hu a b c eq_refl) as [Ha Hc].
  - apply is_cont_not. lia.
  - split; auto. eapply utf8_ascii_tail; eauto.
Qed.

Lemma utf8_ascii a : Forall (fun b => b < 128) a -> utf8 a.
Proof. induction 1; u8. Qed.

Lemma utf8_not_split_3 a b c r : 224 <= a <= 239 -> utf8 (a :: b :: c :: r) -> utf8 r.
Proof. intros Ha H; inversion H; subst; auto; lia. Qed.

(** ** Boundaries and slices *)

Lemma at_app_0 b r : at_ (b :: r) 0 = b.
Proof. reflexivity. Qed.

Lemma boundary_app a b : utf8 b -> is_char_boundary (a ++ b) (length a) = true.
Proof.
  intros Hb. unfold is_char_boundary. rewrite app_length.
  destruct b as [|x b].
  - cbn [length]. rewrite Nat.add_0_r, Nat.eqb_refl, orb_true_r. reflexivity.
  - replace (Nat.ltb (length a) (length a + length (x :: b))) with true
      by (symmetry; apply Nat.ltb_lt; cbn [length]; lia).
    unfold at_. rewrite app_nth2, Nat.sub_diag by lia. cbn [nth].
    rewrite (utf8_head _ _ Hb). cbn. rewrite orb_true_r. reflexivity.
Qed.

Lemma boundary_split s i : utf8 s -> is_char_boundary s i = true ->
  exists a b, s = a ++ b /\ length a = i /\ utf8 a /\ utf8 b.
Proof.
  intros Hs H. unfold is_char_boundary in H. rewrite !orb_true_iff in H.
  destruct H as [[H|H]|H].
  - apply Nat.eqb_eq in H as ->. exists [], s. repeat split; auto. u8.
  - apply Nat.eqb_eq in H as ->. exists s, []. rewrite app_nil_r. repeat split; auto. u8.
  - apply andb_true_iff in H as [Hi Hc]. apply Nat.ltb_lt in Hi. apply negb_true_iff in Hc.
    destruct (nth_split s 0 Hi) as (a & b & E & Ha). unfold at_ in Hc.
    exists a, (nth i s 0 :: b). split; [exact E|]. split; [exact Ha|].
    apply (utf8_split _ Hs _ _ _ E Hc).
Qed.

Lemma not_boundary_inside a b c r :
  is_cont b = true -> is_char_boundary (a ++ c :: b :: r) (S (length a)) = false.
Proof.
  intros Hb. unfold is_char_boundary. rewrite app_length. cbn [length].
  replace (Nat.eqb (S (length a)) 0) with false by reflexivity.
  replace (Nat.eqb (S (length a)) (length a + S (S (length r)))) with false
    by (symmetry; apply Nat.eqb_neq; lia).
  replace (a ++ c :: b :: r) with ((a ++ [c]) ++ b :: r) by (rewrite <- app_assoc; reflexivity).
  unfold at_. rewrite app_nth2 by (rewrite app_length; cbn; lia).
  rewrite app_length. cbn [length].
  replace (S (length a) - (length a + 1))%nat with 0%nat by lia. cbn [nth].
  rewrite Hb. rewrite andb_false_r. reflexivity.
Qed.

Lemma skipn_length_app (A : Type) (a b : list A) : skipn (length a) (a ++ b) = b.
Proof. rewrite skipn_app, skipn_all, Nat.sub_diag. reflexivity. Qed.

Lemma firstn_length_app (A : Type) (a b : list A) : firstn (length a) (a ++ b) = a.
Proof. rewrite firstn_app, firstn_all, Nat.sub_diag, firstn_O, app_nil_r. reflexivity. Qed.

Lemma slice_from_app a b : utf8 b -> slice_from (a ++ b) (length a) = TOk b.
Proof.
  intros Hb. unfold slice_from. rewrite boundary_app by exact Hb.
  rewrite skipn_length_app. reflexivity.
Qed.

Lemma slice_app a b c : utf8 (b ++ c) -> utf8 c ->
  slice (a ++ b ++ c) (length a) (length a + length b) = TOk b.
Proof.
  intros Hbc Hc. unfold slice.
  replace (Nat.leb (length a) (length a + length b)) with true
    by (symmetry; apply Nat.leb_le; lia).
  rewrite boundary_app by exact Hbc.
  replace (length a + length b)%nat with (length (a ++ b)) at 1 by (rewrite app_length; reflexivity).
  rewrite app_assoc at 1. rewrite boundary_app by exact Hc. cbn [andb].
  rewrite skipn_length_app.
  replace (length a + length b - length a)%nat with (length b) by lia.
  rewrite firstn_length_app. reflexivity.
Qed.

Lemma slice_0_app b c : utf8 c -> slice (b ++ c) 0 (length b) = TOk b.
Proof.
  intros Hc. unfold slice. cbn [Nat.leb andb].
  rewrite boundary_app by exact Hc. rewrite Nat.sub_0_r, skipn_O, firstn_length_app. reflexivity.
Qed.

(** Same with explicit indices. *)
Lemma slice_at code i j a b c :
  code = a ++ b ++ c -> i = length a -> j = (length a + length b)%nat ->
  utf8 (b ++ c) -> utf8 c -> slice code i j = TOk b.
Proof. intros -> -> ->. apply slice_app. Qed.

Lemma slice_from_at code i a b :
  code = a ++ b -> i = length a -> utf8 b -> slice_from code i = TOk b.
Proof. intros -> ->. apply slice_from_app. Qed.
