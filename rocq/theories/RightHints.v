(** Along every parse that does not fail, all hints are right. *)
From Coq Require Import String List Arith NArith Bool Lia.
From Verif Require Import Base Tokens ParserCore ParserBody AbstractParser ParserExec HintParser SpecHints BraceHints SlashHints.
Import ListNotations.

(** ** Two ways to misread at once *)
Section Both.
Variables m1 m2 : list token -> bool -> bool -> lookahead -> bool.
Definition either past ex te la := m1 past ex te la || m2 past ex te la.

Definition joined (a b c : hstate) : Prop :=
  hk a = hk c /\ he a = he c /\ hpast a = hpast c /\ hi a = hi c /\
  hk b = hk c /\ he b = he c /\ hpast b = hpast c /\ hi b = hi c /\ hbad c = hbad a || hbad b.
Definition joined_res {A : Set} (a b c : hres A) : Prop :=
  match a, b, c with
  | HOk x s1, HOk y s2, HOk z s3 => x = z /\ y = z /\ joined s1 s2 s3
  | HErr x s1, HErr y s2, HErr z s3 => x = z /\ y = z /\ joined s1 s2 s3
  | HPanic p, HPanic q, HPanic r => p = r /\ q = r
  | HFuel s1, HFuel s2, HFuel s3 => joined s1 s2 s3
  | _, _, _ => False
  end.

Lemma joined_peek e g a b c : joined a b c -> joined (hpeek m1 e g a) (hpeek m2 e g b) (hpeek either e g c).
Proof.
  destruct a as [k1 e1 p1 b1 i1], b as [k2 e2 p2 b2 i2], c as [k3 e3 p3 b3 i3]. intros (A1 & A2 & A3 & A4 & A5 & A6 & A7 & A8 & A9). cbn in *. subst.
  unfold hpeek, joined. cbn. destruct (k3 =? 0); cbn; repeat (split; [reflexivity|]); [|reflexivity]. unfold either. destruct b1, b2; cbn; rewrite ?orb_true_r; try reflexivity.
Qed.
Lemma joined_act {A : Set} e (x : act A) g a b c : joined a b c -> joined_res (hact m1 e x g a) (hact m2 e x g b) (hact either e x g c).
Proof.
  intros J. pose proof (joined_peek e g a b c J) as P. destruct x; cbn [hact].
  - destruct J as (A1 & A2 & A3 & A4 & A5 & A6 & A7 & A8 & A9). rewrite A4, A8. split; [reflexivity|]. split; [reflexivity|exact P].
  - destruct a, b, c. unfold joined in J. cbn in *. destruct J as (-> & -> & -> & -> & -> & -> & -> & -> & ->). repeat (split; [reflexivity|]). reflexivity.
  - set (x1 := hpeek m1 e g a) in *. set (x2 := hpeek m2 e g b) in *. set (x3 := hpeek either e g c) in *. clearbody x1 x2 x3.
    assert (I1 : hi a = hi c) by apply J. assert (I2 : hi b = hi c) by apply J. rewrite I1, I2.
    destruct x1 as [k1 e1 p1 b1 i1], x2 as [k2 e2 p2 b2 i2], x3 as [k3 e3 p3 b3 i3]. destruct P as (A1 & A2 & A3 & A4 & A5 & A6 & A7 & A8 & A9). cbn [hk he hpast hbad hi] in *. subst.
    cbn [hk] in *. destruct (k3 <? 2).
    + destruct (tok e (hi c)); cbn; repeat (split; [reflexivity|]); try reflexivity.
      unfold either. destruct b1, b2; cbn; rewrite ?orb_true_r; try reflexivity.
    + cbn. repeat (split; [reflexivity|]). reflexivity.
  - destruct a, b, c. unfold joined in J. cbn in *. destruct J as (-> & -> & -> & -> & -> & -> & -> & -> & ->). repeat (split; [reflexivity|]). reflexivity.
  - cbn. auto.
Qed.
Lemma joined_interp {A : Set} e c1 c2 c3 (p : prog A) :
  (forall f g a b c, joined a b c -> joined_res (c1 f g a) (c2 f g b) (c3 f g c)) ->
  forall g a b c, joined a b c -> joined_res (hinterp m1 e c1 p g a) (hinterp m2 e c2 p g b) (hinterp either e c3 p g c).
Proof.
  intros HC. induction p; intros g s1 s2 s3 J; cbn [hinterp]; try (cbn; auto; fail).
  - specialize (IHp g s1 s2 s3 J). unfold joined_res in IHp.
    destruct (hinterp m1 e c1 p g s1), (hinterp m2 e c2 p g s2), (hinterp either e c3 p g s3); try contradiction; try exact IHp.
    destruct IHp as (-> & -> & J'). apply H. exact J'.
  - apply joined_act, J.
Qed.
Lemma joined_exec e n : forall f g a b c, joined a b c -> joined_res (hexec m1 e n f g a) (hexec m2 e n f g b) (hexec either e n f g c).
Proof.
  induction n as [|n IH]; intros f g a b c J; [exact J|]. cbn [hexec]. apply joined_interp; [exact IH|exact J].
Qed.
End Both.

Definition wrong_hint := either misread misslash.

Theorem no_wrong_hint n i a st' :
  hinterp wrong_hint TEOF (hexec wrong_hint TEOF n) parse_module flags_default (HS 0 false [] false i) = HOk a st' -> hbad st' = false.
Proof.
  intros H. assert (J : joined (HS 0 false [] false i) (HS 0 false [] false i) (HS 0 false [] false i)) by (repeat (split; [reflexivity|]); reflexivity).
  pose proof (joined_interp misread misslash TEOF _ _ _ parse_module (joined_exec misread misslash TEOF n) flags_default _ _ _ J) as X.
  change (either misread misslash) with wrong_hint in X. rewrite H in X. unfold joined_res in X.
  destruct (hinterp misread TEOF _ parse_module flags_default _) as [? s1| | |] eqn:E1;
  destruct (hinterp misslash TEOF _ parse_module flags_default _) as [? s2| | |] eqn:E2; try contradiction.
  destruct X as (_ & _ & X). assert (B : hbad st' = hbad s1 || hbad s2) by apply X.
  rewrite (no_misread _ _ _ _ E1), (no_misslash _ _ _ _ E2) in B. exact B.
Qed.

Lemma slash_divides t : slash t = true <-> divides t.
Proof. split; [|intros [->| ->]; reflexivity]. destruct t as [[]| | | | | | | | |]; try discriminate; intros _; [left|right]; reflexivity. Qed.
Lemma regex_regular t : is_regex t = true <-> regular_expression t.
Proof. split; [|intros (b & f & ->); reflexivity]. destruct t; try discriminate. intros _. eexists _, _. reflexivity. Qed.
Lemma yield_rev l : mentions_yield (rev l) = mentions_yield l.
Proof.
  unfold mentions_yield. apply eq_true_iff_eq. rewrite !existsb_exists. split; intros (x & I & K); exists x; split; try exact K;
  [rewrite in_rev|rewrite <- in_rev]; exact I.
Qed.

Theorem wrong_hint_suits past h la : wrong_hint past (h_expression h) (h_template h) la = false -> suits (rev past) (snd la) h.
Proof.
  unfold wrong_hint, either. intros H. apply orb_false_iff in H. destruct H as [H1 H2]. split; [apply misread_suits; exact H1|].
  intros Y. rewrite yield_rev in Y. rewrite rev_involutive. unfold misslash in H2. rewrite Y in H2. cbn [negb andb] in H2.
  apply orb_false_iff in H2. destruct H2 as [H2 H3]. split.
  - intros D A. apply slash_divides in D. rewrite D, A in H2. exact H2.
  - intros D A. apply regex_regular in D. rewrite D, A in H3. cbn in H3. apply negb_false_iff in H3. exact H3.
Qed.
