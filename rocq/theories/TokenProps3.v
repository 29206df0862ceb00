(** The tokenizer properties, continued: numbers. *)
From Coq Require Import String List NArith ZArith Bool Arith Lia Floats.SpecFloat.
From Verif Require Import Base Tokens SpecTokens SpecStream Tokenizer ByteFacts LoopFacts StringFacts FloatFacts NumberFacts LexFacts LexTotal NextFacts TokenProps.
Import ListNotations.
Local Open Scope N_scope.

(** The token of a [reads] is what [read_next] returns. *)
Lemma reads_number E t h g w r v : stands t (g ++ w ++ r) -> blanks g ->
  lexeme (overflow_checks E) h w (TNumeric v) r -> read_next E (w ++ r) h = TOk (TNumeric v, length w) ->
  reads E t h g w (TNumeric v) r.
Proof.
  intros St Bg Hl Hr. destruct (lexeme_no_bom _ _ _ _ _ Hl) as [N1 N2].
  destruct (reads_lexeme E t h g w _ r St Bg Hl) as (tok & (rg & t' & R & R') & _).
  assert (tok = TNumeric v).
  { rewrite (next_eq E t h g (w ++ r)) in R; try assumption; [|eapply lexeme_no_blank; eassumption].
    rewrite Hr in R. cbn [tbind] in R. destruct (increment_position _ _ _); [|discriminate]. cbn [tbind] in R. congruence. }
  subst tok. exists rg, t'. auto.
Qed.

Lemma read_decimal E h m x r : decimal_text m x r -> read_next E (m ++ x ++ r) h = tok_decimal E (m ++ x ++ r).
Proof.
  intros H. destruct H as [d ds|d ds fs|f fs x r Hf|fs|]; cbn [app].
  + rewrite read_digit by assumption. unfold tok_decimal, at_. cbn [nth].
    destruct (N.eqb_spec d 46); [lia|]. destruct (N.eqb_spec d 48); [lia|]. reflexivity.
  + rewrite read_digit by assumption. unfold tok_decimal, at_. cbn [nth].
    destruct (N.eqb_spec d 46); [lia|]. destruct (N.eqb_spec d 48); [lia|]. reflexivity.
  + rewrite read_dot_digit by (inversion Hf; assumption). reflexivity.
  + rewrite read_zero. reflexivity.
  + rewrite read_zero. reflexivity.
Qed.

(** A decimal literal: extent and value in terms of [mantissa]. *)
Lemma reads_decimal E t h g m x r : stands t (g ++ m ++ x ++ r) -> blanks g -> decimal_text m x r ->
  (overflow_checks E = true -> exponent_fits x) ->
  exists v, reads E t h g (m ++ x) (TNumeric v) r /\ (x = [] -> v = mantissa m) /\
    (x <> [] -> exponent_fits x -> v = f64_mul (mantissa m) (powi10 E (exponent_value x))).
Proof.
  intros St Bg H F.
  assert (U : utf8 (m ++ x ++ r)).
  { destruct St as (a & _ & _ & U). eapply utf8_rest_ascii; [apply blanks_ascii; exact Bg|exact U]. }
  destruct (tok_decimal_spec E m x r H U) as [A _]. destruct (A F) as (v & Hv & V).
  exists v. split; [|exact V]. apply reads_number; auto.
  - rewrite <- app_assoc. exact St.
  - apply lx_decimal; assumption.
  - rewrite <- app_assoc, read_decimal by exact H. exact Hv.
Qed.

Lemma integer_part_exact d ds : 49 <= d <= 57 -> Forall digit ds -> digits_value 10 (d :: ds) < 2 ^ 53 ->
  is_integer (integer_part (d :: ds)) (Z.of_N (digits_value 10 (d :: ds))).
Proof.
  intros Hd Hds L. destruct (int_literal d ds [] Hd Hds (head_is_nil _)) as (v & Ev & X).
  assert (Y := int_literal_ext d ds [] Hd Hds (head_is_nil _)). rewrite Ev in Y. injection Y as ->.
  apply X. change (2 ^ 53)%Z with (Z.of_N (2 ^ 53)). lia.
Qed.

Lemma c14 E t h g d ds r : stands t (g ++ (d :: ds) ++ r) -> blanks g -> 49 <= d <= 57 -> Forall digit ds ->
  ~ head_is digit r -> ~ begins (s2b ".") r -> ~ head_is exp_letter r ->
  exists n, reads E t h g (d :: ds) (TNumeric n) r /\
    (digits_value 10 (d :: ds) < 2 ^ 53 -> is_integer n (Z.of_N (digits_value 10 (d :: ds)))).
Proof.
  intros St Bg Hd Hds N1 N2 N3.
  assert (H : decimal_text (d :: ds) [] r).
  { apply dt_integer; auto.
    - cbn [app]. intros (b & x & -> & <-). apply N2. eexists; reflexivity.
    - apply ep_none. auto. }
  destruct (reads_decimal E t h g (d :: ds) [] r St Bg H) as (v & R & V & _).
  { intros _. unfold exponent_fits. cbn. lia. }
  rewrite app_nil_r in R. exists v. split; [exact R|]. intros L. rewrite (V eq_refl), mantissa_integer by assumption.
  apply integer_part_exact; assumption.
Qed.

(** ** Radix literals *)

Lemma as_read_digit c : digit c -> digit_as_read c = c - 48 /\ digit_value c = c - 48.
Proof. intros H. unfold digit in H. unfold digit_as_read, digit_value. destruct (N.ltb_spec c 65); [auto|lia]. Qed.

Lemma radix_step k c rest v i : radix_digit k c ->
  radix_loop k (c :: rest) v i =
  radix_loop k rest (f64_add (f64_mul v (f64_of_Z (Z.of_N (radix_base k)))) (f64_of_u8 (digit_as_read c))) (S i).
Proof.
  intros H. destruct k; cbn [radix_digit radix_loop radix_base] in *.
  - cbn [hex_loop]. unfold digit_as_read. unfold hex_digit, digit in H.
    destruct (in_range 48 57 c) eqn:E1.
    { apply in_range_iff in E1. destruct (N.ltb_spec c 65); [reflexivity|lia]. }
    destruct (in_range 97 102 c) eqn:E2.
    { apply in_range_iff in E2. destruct (N.ltb_spec c 65); [lia|]. destruct (N.ltb_spec c 97); [lia|reflexivity]. }
    destruct (in_range 65 70 c) eqn:E3.
    { apply in_range_iff in E3. destruct (N.ltb_spec c 65); [lia|]. destruct (N.ltb_spec c 97); [reflexivity|lia]. }
    apply in_range_not in E1, E2, E3. lia.
  - cbn [octal_loop]. unfold octal_digit in H. rewrite (proj2 (in_range_iff 48 55 c)) by lia.
    destruct (as_read_digit c) as [-> _]; [unfold digit; lia|]. reflexivity.
  - cbn [binary_loop]. unfold binary_digit in H. rewrite (proj2 (in_range_iff 48 49 c)) by lia.
    destruct (as_read_digit c) as [-> _]; [unfold digit; lia|]. reflexivity.
Qed.

Definition foldZ (base : Z) (ds : bytes) (z : Z) : Z :=
  fold_left (fun a c => (a * base + Z.of_N (digit_as_read c))%Z) ds z.

Lemma foldZ_ge base ds : (1 <= base)%Z -> forall z, (0 <= z)%Z -> (z <= foldZ base ds z)%Z.
Proof.
  intros Hb. induction ds as [|c ds IH]; intros z Hz; cbn [foldZ fold_left]; [lia|].
  specialize (IH (z * base + Z.of_N (digit_as_read c))%Z). unfold foldZ in IH at 1. nia.
Qed.

Lemma radix_value k ds r : Forall (radix_digit k) ds -> forall v i v' j z,
  radix_loop k (ds ++ r) v i = TOk (v', j) -> ~ head_is (radix_digit k) r ->
  is_integer v z -> (0 <= z)%Z -> (foldZ (Z.of_N (radix_base k)) ds z < 2 ^ 53)%Z ->
  is_integer v' (foldZ (Z.of_N (radix_base k)) ds z).
Proof.
  assert (Bk : (1 <= Z.of_N (radix_base k) <= 16)%Z) by (destruct k; cbn; lia).
  induction 1 as [|c ds Hc Hds IH]; intros v i v' j z E Hr Hv Hz L; cbn [foldZ fold_left app] in *.
  - assert (v' = v); [|subst; exact Hv].
    destruct r as [|b r].
    { destruct k; cbn in E; congruence. }
    rewrite head_is_cons in Hr. destruct k; cbn [radix_loop radix_digit] in *.
    + cbn [hex_loop] in E. unfold hex_digit, digit in Hr.
      rewrite !(proj2 (in_range_not _ _ b)) in E by lia. congruence.
    + cbn [octal_loop] in E. unfold octal_digit in Hr.
      rewrite (proj2 (in_range_not _ _ b)) in E by lia. destruct (_ || _); congruence.
    + cbn [binary_loop] in E. unfold binary_digit in Hr.
      rewrite (proj2 (in_range_not 48 49 b)) in E by lia. destruct (in_range _ _ _); congruence.
  - rewrite radix_step in E by exact Hc.
    set (b := Z.of_N (radix_base k)) in *. set (y := Z.of_N (digit_as_read c)) in *.
    assert (Y : (0 <= y)%Z) by (unfold y; lia).
    assert (G := foldZ_ge b ds (proj1 Bk) (z * b + y)%Z ltac:(nia)). unfold foldZ in G at 1.
    assert (P53 : (16 < 2 ^ 53)%Z) by (vm_compute; reflexivity).
    apply (IH _ _ _ _ (z * b + y)%Z E Hr).
    + apply add_exact.
      * apply mul_exact; [exact Hv|apply of_Z_exact; lia|lia|lia|]. unfold foldZ in *. nia.
      * unfold f64_of_u8. apply of_Z_exact. fold y. unfold foldZ in *. nia.
      * nia.
      * lia.
      * unfold foldZ in *. lia.
    + nia.
    + exact L.
Qed.

Lemma denotes_as_read_Z base d ds : Z.of_N (denotes_as_read base d ds) = foldZ (Z.of_N base) ds (Z.of_N (d - 48)).
Proof.
  unfold denotes_as_read, foldZ. generalize (d - 48) as acc.
  induction ds as [|c ds IH]; intros acc; [reflexivity|]. cbn [fold_left]. rewrite IH. f_equal. lia.
Qed.

(** C15: what is read. *)
Lemma c15_as_read E t h g k l d ds r :
  stands t (g ++ (48 :: l :: d :: ds) ++ r) -> blanks g ->
  radix_letter k l -> 48 <= d < 128 -> Forall (radix_digit k) ds ->
  ~ head_is (radix_digit k) r -> ~ head_is (radix_refused k) r ->
  exists n, reads E t h g (48 :: l :: d :: ds) (TNumeric n) r /\
    (denotes_as_read (radix_base k) d ds < 2 ^ 53 -> is_integer n (Z.of_N (denotes_as_read (radix_base k) d ds))).
Proof.
  intros St Bg Hl Hd Hds Hr1 Hr2.
  assert (Fd : first_digit (overflow_checks E) d) by (split; [lia|intros; lia]).
  assert (U : utf8 ((48 :: l :: d :: ds) ++ r)).
  { destruct St as (a & _ & _ & U). eapply utf8_rest_ascii; [apply blanks_ascii; exact Bg|exact U]. }
  destruct (tok_radix_ok E k l d ds r Hl Fd Hds Hr1 Hr2 U) as [v Hv].
  exists v. split.
  - apply reads_number; [exact St|exact Bg| |].
    + eapply lx_radix; eassumption.
    + cbn [app]. rewrite read_zero. exact Hv.
  - intros L. rewrite (tok_zero_radix E k) in Hv by exact Hl.
    unfold u8_sub in Hv. rewrite (proj2 (N.leb_le 48 d)) in Hv by lia. cbn [tbind] in Hv.
    destruct (radix_loop k (ds ++ r) (f64_of_u8 (d - 48)) 3) as [[v' j]|] eqn:ER; [|discriminate]. cbn [tbind] in Hv.
    destruct (slice _ _ _); [|discriminate]. cbn [tbind] in Hv. injection Hv as <- _.
    rewrite denotes_as_read_Z. assert (P53 : (2 ^ 53)%Z = Z.of_N (2 ^ 53)) by reflexivity.
    assert (L' : (foldZ (Z.of_N (radix_base k)) ds (Z.of_N (d - 48)) < 2 ^ 53)%Z)
      by (rewrite <- denotes_as_read_Z, P53; lia).
    eapply radix_value; [exact Hds|exact ER|exact Hr1| |lia|exact L'].
    apply of_Z_exact. split; [lia|]. rewrite P53. change (2 ^ 53)%N with 9007199254740992. lia.
Qed.

Lemma as_read_right base d ds : Forall digit (d :: ds) -> denotes_as_read base d ds = denotes base (d :: ds).
Proof.
  intros H. inversion H as [|? ? Hd Hds]; subst. unfold denotes_as_read, denotes. cbn [fold_left].
  rewrite (proj2 (as_read_digit d Hd)). rewrite N.mul_0_l, N.add_0_l. generalize (d - 48) as acc.
  clear H Hd. induction Hds as [|c ds Hc Hds IH]; intros acc; [reflexivity|]. cbn [fold_left].
  destruct (as_read_digit c Hc) as [-> ->]. apply IH.
Qed.

Lemma c15 E t h g k l d ds r :
  stands t (g ++ (48 :: l :: d :: ds) ++ r) -> blanks g ->
  radix_letter k l -> Forall (radix_digit k) (d :: ds) -> Forall digit (d :: ds) ->
  ~ head_is (radix_digit k) r -> ~ head_is (radix_refused k) r ->
  exists n, reads E t h g (48 :: l :: d :: ds) (TNumeric n) r /\
    (denotes (radix_base k) (d :: ds) < 2 ^ 53 -> is_integer n (Z.of_N (denotes (radix_base k) (d :: ds)))).
Proof.
  intros St Bg Hl Hrd Hdig Hr1 Hr2. rewrite <- (as_read_right _ d ds Hdig).
  apply c15_as_read; auto.
  - inversion Hdig; subst. unfold digit in *. lia.
  - inversion Hrd; assumption.
Qed.

(** ** Extents: every text that starts a decimal literal. *)
Lemma c16 E t h g s : stands t (g ++ s) -> blanks g ->
  (head_is (fun b => 49 <= b <= 57) s \/ (exists d v, s = 46 :: d :: v /\ digit d) \/
   (exists v, s = 48 :: v /\ (~ head_is (fun b => In b (s2b "xXoObB")) v \/ (length v <= 1)%nat))) ->
  exists m x r, s = m ++ x ++ r /\ decimal_text m x r /\
   ((overflow_checks E = true -> exponent_fits x) -> exists n, reads E t h g (m ++ x) (TNumeric n) r) /\
   (overflow_checks E = true -> ~ exponent_fits x -> panics E t h).
Proof.
  intros St Bg H.
  assert (X : exists m x r, s = m ++ x ++ r /\ decimal_text m x r).
  { destruct H as [(d & s' & -> & Hd)|[(d & v & -> & Hd)|(v & -> & Hv)]].
    - destruct (span_exists digit digit_dec s') as (ds & t' & -> & Hds & Ht).
      assert (D : head_is (eq 46) t' \/ ~ head_is (eq 46) t').
      { destruct t' as [|b t']; [right; apply head_is_nil|]. rewrite head_is_cons. lia. }
      destruct D as [(b & u & -> & <-)|D].
      + destruct (span_exists digit digit_dec u) as (fs & t' & -> & Hfs & Hu).
        destruct (exponent_exists t') as (x & r & -> & Hx).
        exists (d :: ds ++ 46 :: fs), x, r. split; [cbn [app]; rewrite <- app_assoc; reflexivity|].
        apply dt_fraction; assumption.
      + destruct (exponent_exists t') as (x & r & -> & Hx). exists (d :: ds), x, r. split; [reflexivity|].
        apply dt_integer; assumption.
    - destruct (span_exists digit digit_dec v) as (ds & t' & -> & Hds & Ht).
      destruct (exponent_exists t') as (x & r & -> & Hx). exists (46 :: d :: ds), x, r. split; [reflexivity|].
      apply dt_dot; auto.
    - assert (D : (exists b u, v = 46 :: b :: u) \/ ((length v <= 1)%nat \/ ~ head_is (eq 46) v)).
      { destruct v as [|a [|b u]]; [right; left; cbn; lia|right; left; cbn; lia|].
        destruct (N.eq_dec a 46) as [->|Na]; [left; eauto|]. right; right. rewrite head_is_cons. congruence. }
      destruct D as [(b & u & ->)|D].
      + destruct (span_exists digit digit_dec (b :: u)) as (fs & t' & E0 & Hfs & Ht).
        destruct (exponent_exists t') as (x & r & -> & Hx). rewrite E0.
        exists (48 :: 46 :: fs), x, r. split; [reflexivity|]. apply dt_zero_dot; auto. rewrite <- E0. discriminate.
      + exists [48], [], v. split; [reflexivity|]. apply dt_zero.
        destruct Hv as [Hv|Hv]; [|auto]. destruct D as [D|D]; [auto|]. right.
        intros (b & u & -> & Hb). change (s2b "xXoObB.") with (s2b "xXoObB" ++ [46]) in Hb.
        apply in_app_or in Hb as [Hb|[Hb|[]]].
        * apply Hv. rewrite head_is_cons. exact Hb.
        * apply D. rewrite head_is_cons. exact Hb. }
  destruct X as (m & x & r & -> & Hd). exists m, x, r. split; [reflexivity|]. split; [exact Hd|]. split.
  - intros F. destruct (reads_decimal E t h g m x r St Bg Hd F) as (v & R & _). eauto.
  - intros C F. eapply panics_error; [exact St|exact Bg| |apply le_exponent; assumption].
    clear - Hd. destruct Hd; cbn [app]; rewrite head_is_cons; unfold blank; lia.
Qed.

(** An exponent multiplies the mantissa by the platform's power of ten. *)
Lemma c40 E t1 h1 g1 t2 h2 g2 m x r1 r2 :
  stands t1 (g1 ++ m ++ r1) -> blanks g1 -> decimal_text m [] r1 ->
  stands t2 (g2 ++ m ++ x ++ r2) -> blanks g2 -> decimal_text m x r2 -> x <> [] -> exponent_fits x ->
  exists n, reads E t1 h1 g1 m (TNumeric n) r1 /\
            reads E t2 h2 g2 (m ++ x) (TNumeric (f64_mul n (powi10 E (exponent_value x)))) r2.
Proof.
  intros St1 Bg1 D1 St2 Bg2 D2 Nx F.
  destruct (reads_decimal E t1 h1 g1 m [] r1) as (v1 & R1 & V1 & _); auto.
  { intros _. unfold exponent_fits. cbn. lia. }
  destruct (reads_decimal E t2 h2 g2 m x r2) as (v2 & R2 & _ & V2); auto.
  rewrite app_nil_r in R1. exists v1. split; [exact R1|]. rewrite (V1 eq_refl), <- (V2 Nx F). exact R2.
Qed.

(** Overflow of exponents. *)
Lemma c17 E t h g m x r : stands t (g ++ m ++ x ++ r) -> blanks g -> decimal_text m x r -> overflow_checks E = true ->
  (panics E t h <-> 2147483648 <= digits_value 10 (exponent_digits x)).
Proof.
  intros St Bg H C. destruct (N.lt_ge_cases (digits_value 10 (exponent_digits x)) 2147483648) as [L|L].
  - split; [|lia]. intros [p Hp]. destruct (reads_decimal E t h g m x r St Bg H (fun _ => L)) as (v & (rg & t' & R & _) & _). congruence.
  - split; [auto|]. intros _. eapply panics_error; [exact St|exact Bg| |apply le_exponent; auto].
    + clear - H. destruct H; cbn [app]; rewrite head_is_cons; unfold blank; lia.
    + unfold exponent_fits. lia.
Qed.
Lemma c17_release E t h g m x r : stands t (g ++ m ++ x ++ r) -> blanks g -> decimal_text m x r ->
  overflow_checks E = false -> ~ panics E t h.
Proof.
  intros St Bg H C [p Hp]. destruct (reads_decimal E t h g m x r St Bg H) as (v & (rg & t' & R & _) & _); congruence.
Qed.
