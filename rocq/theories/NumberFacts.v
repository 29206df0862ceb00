(** What the scans of numeric literals compute. *)
From Coq Require Import String List NArith ZArith Bool Arith Lia Floats.SpecFloat.
From Verif Require Import Base Tokens SpecTokens Tokenizer ByteFacts LoopFacts FloatFacts.
Import ListNotations.
Local Open Scope N_scope.

(** ** Values of digit strings *)

Definition valueZ (base acc : Z) (ds : bytes) : Z :=
  fold_left (fun a d => (a * base + Z.of_N (d - 48))%Z) ds acc.

Lemma digits_value_Z base ds : Z.of_N (digits_value base ds) = valueZ (Z.of_N base) 0 ds.
Proof.
  unfold digits_value, valueZ. change 0%Z with (Z.of_N 0). generalize 0 as acc.
  induction ds as [|d ds IH]; intros acc; [reflexivity|]. cbn [fold_left]. rewrite IH.
  f_equal. lia.
Qed.

Lemma valueZ_ge base acc ds : (1 <= base)%Z -> (0 <= acc)%Z -> (acc <= valueZ base acc ds)%Z.
Proof.
  intros Hb. revert acc. induction ds as [|d ds IH]; intros acc Ha; cbn [valueZ fold_left]; [lia|].
  change (acc <= valueZ base (acc * base + Z.of_N (d - 48)) ds)%Z.
  assert (acc <= acc * base + Z.of_N (d - 48))%Z by nia.
  specialize (IH (acc * base + Z.of_N (d - 48))%Z). lia.
Qed.

(** ** Integers *)

Lemma ten_big : big (f64_of_Z 10).
Proof. apply of_Z_big. lia. Qed.

Lemma int_loop ds r : Forall digit ds -> ~ head_is digit r -> forall v i, big v ->
  exists v', parse_int_literal_loop (ds ++ r) v i = (v', i + length ds)%nat /\ big v' /\
    (forall z, is_integer v z -> (0 <= z)%Z -> (valueZ 10 z ds < 2 ^ 53)%Z ->
       is_integer v' (valueZ 10 z ds)).
Proof.
  intros Hds Hr. induction Hds as [|d ds Hd Hds IH]; intros v i Hv; cbn [app length].
  - exists v. rewrite Nat.add_0_r. split; [|split; auto].
    destruct r as [|b r]; [reflexivity|]. rewrite head_is_cons in Hr. unfold digit in Hr.
    cbn [parse_int_literal_loop]. destruct (N.eqb_spec b 48); [exfalso; lia|].
    destruct (in_range 49 57 b) eqn:E; [apply in_range_iff in E; exfalso; lia | reflexivity].
  - cbn [parse_int_literal_loop]. unfold digit in Hd.
    assert (VG : forall z, (0 <= z)%Z -> (valueZ 10 z (d :: ds) < 2 ^ 53)%Z ->
                 (z * 10 + Z.of_N (d - 48) < 2 ^ 53)%Z).
    { intros z Hz L. cbn [valueZ fold_left] in L.
      change (valueZ 10 (z * 10 + Z.of_N (d - 48)) ds < 2 ^ 53)%Z in L.
      pose proof (valueZ_ge 10 (z * 10 + Z.of_N (d - 48)) ds ltac:(lia) ltac:(lia)). lia. }
    destruct (N.eqb_spec d 48) as [->|N].
    + rewrite big_nonzero by exact Hv.
      destruct (IH (f64_mul v (f64_of_Z 10)) (S i)) as (v' & E & B & X).
      { apply big_mul; [exact Hv | apply ten_big]. }
      exists v'. rewrite E. split; [f_equal; lia|]. split; [exact B|].
      intros z Hz Hz0 L. cbn [valueZ fold_left].
      change (is_integer v' (valueZ 10 (z * 10 + Z.of_N (48 - 48)) ds)).
      specialize (VG z Hz0 L).
      apply X; [|lia|exact L].
      change (Z.of_N (48 - 48)) with 0%Z in *. rewrite Z.add_0_r in *.
      apply mul_exact; try assumption; try lia. apply of_Z_exact. lia.
    + rewrite (proj2 (in_range_iff 49 57 d)) by lia.
      destruct (IH (f64_add (f64_mul v (f64_of_Z 10)) (f64_of_u8 (d - 48))) (S i)) as (v' & E & B & X).
      { apply big_add; [apply big_mul; [exact Hv | apply ten_big]|].
        apply of_Z_nonneg. lia. }
      exists v'. rewrite E. split; [f_equal; lia|]. split; [exact B|].
      intros z Hz Hz0 L. cbn [valueZ fold_left].
      change (is_integer v' (valueZ 10 (z * 10 + Z.of_N (d - 48)) ds)).
      specialize (VG z Hz0 L).
      apply X; [|lia|exact L].
      apply add_exact; try lia; [|apply of_Z_exact; lia].
      apply mul_exact; try assumption; try lia. apply of_Z_exact. lia.
Qed.

Lemma add_mul_zero y : nonneg y -> f64_add (f64_mul f64_zero (f64_of_Z 10)) y = y.
Proof.
  intros [->|H]; [reflexivity|].
  replace (f64_mul f64_zero (f64_of_Z 10)) with f64_zero by reflexivity.
  destruct y as [[]|[]| |[]]; cbn in *; tauto || reflexivity.
Qed.

Lemma int_literal d ds r : 49 <= d <= 57 -> Forall digit ds -> ~ head_is digit r ->
  exists v, parse_int_literal (d :: ds ++ r) = (v, S (length ds)) /\
    ((Z.of_N (digits_value 10 (d :: ds)) < 2 ^ 53)%Z -> is_integer v (Z.of_N (digits_value 10 (d :: ds)))).
Proof.
  intros Hd Hds Hr. unfold parse_int_literal. cbn [parse_int_literal_loop].
  destruct (N.eqb_spec d 48); [lia|]. rewrite (proj2 (in_range_iff 49 57 d)) by lia.
  rewrite add_mul_zero by (apply of_Z_nonneg; lia).
  destruct (int_loop ds r Hds Hr (f64_of_u8 (d - 48)) 1%nat) as (v & E & _ & X).
  { apply of_Z_big. lia. }
  exists v. split; [exact E|]. rewrite digits_value_Z. intros L. cbn [valueZ fold_left] in *.
  apply X; [apply of_Z_exact; lia | lia | exact L].
Qed.

(** ** Fractions *)

Lemma decimal_loop ds r : Forall digit ds -> ~ head_is digit r -> forall v f i,
  exists v', parse_decimal_digits_loop (ds ++ r) v f i = (v', i + length ds)%nat.
Proof.
  intros Hds Hr. induction Hds as [|d ds Hd Hds IH]; intros v f i; cbn [app length].
  - exists v. rewrite Nat.add_0_r. destruct r as [|b r]; [reflexivity|].
    rewrite head_is_cons in Hr. cbn [parse_decimal_digits_loop].
    apply digit_not in Hr. rewrite Hr. reflexivity.
  - cbn [parse_decimal_digits_loop]. apply digit_iff in Hd. rewrite Hd.
    edestruct IH as (v' & E). exists v'. rewrite E. f_equal. lia.
Qed.

Lemma decimal_loop_ext ds r : Forall digit ds -> ~ head_is digit r -> forall v f i j,
  fst (parse_decimal_digits_loop (ds ++ r) v f i) = fst (parse_decimal_digits_loop ds v f j).
Proof.
  intros Hds Hr. induction Hds as [|d ds Hd Hds IH]; intros v f i j; cbn [app].
  - destruct r as [|b r]; [reflexivity|].
    rewrite head_is_cons in Hr. cbn [parse_decimal_digits_loop].
    apply digit_not in Hr. rewrite Hr. reflexivity.
  - cbn [parse_decimal_digits_loop]. apply digit_iff in Hd. rewrite Hd. apply IH.
Qed.

Lemma decimal_digits ds r : Forall digit ds -> ~ head_is digit r ->
  parse_decimal_digits (ds ++ r) = (fst (parse_decimal_digits ds), length ds).
Proof.
  intros Hds Hr. destruct (decimal_loop ds r Hds Hr f64_zero f64_tenth 0) as [v E].
  unfold parse_decimal_digits at 1. rewrite E. f_equal.
  assert (X := decimal_loop_ext ds r Hds Hr f64_zero f64_tenth 0 0). rewrite E in X. exact X.
Qed.

(** The value of a mantissa. *)
Fixpoint before_dot (m : bytes) : bytes :=
  match m with [] => [] | c :: m' => if c =? 46 then [] else c :: before_dot m' end.
Fixpoint after_dot (m : bytes) : bytes :=
  match m with [] => [] | c :: m' => if c =? 46 then m' else after_dot m' end.
Definition fraction (fs : bytes) : f64 := fst (parse_decimal_digits fs).
Definition integer_part (ds : bytes) : f64 := fst (parse_int_literal ds).
Definition mantissa (m : bytes) : f64 :=
  match m with
  | 48 :: 46 :: [] => f64_zero
  | 48 :: 46 :: fs => f64_add f64_zero (fraction fs)
  | 48 :: _ => f64_zero
  | 46 :: fs => f64_add f64_zero (fraction fs)
  | _ =>
    if existsb (N.eqb 46) m then f64_add (integer_part (before_dot m)) (fraction (after_dot m))
    else integer_part m
  end.

(** ** Exponents *)

Lemma i32_nopanic E z : overflow_checks E = false -> exists y, i32 E z = TOk y.
Proof. intros H. unfold i32. rewrite H. destruct (i32_ok z); eexists; reflexivity. Qed.

Lemma i32_in E z : (0 <= z < 2147483648)%Z -> i32 E z = TOk z.
Proof.
  intros H. unfold i32, i32_ok. replace (_ && _)%Z with true; [reflexivity|].
  symmetry. apply andb_true_iff. rewrite !Z.leb_le. lia.
Qed.

Lemma i32_neg E z : (0 <= z < 2147483648)%Z -> i32 E (-1 * z) = TOk (- z)%Z.
Proof.
  intros H. unfold i32, i32_ok. replace (_ && _)%Z with true; [f_equal; lia|].
  symmetry. apply andb_true_iff. rewrite !Z.leb_le. lia.
Qed.

Lemma i32_out E z : overflow_checks E = true -> (2147483648 <= z)%Z -> i32 E z = TPanic P_overflow.
Proof.
  intros C H. unfold i32, i32_ok. rewrite C. replace (_ && _)%Z with false; [reflexivity|].
  symmetry. apply andb_false_iff. rewrite !Z.leb_gt. lia.
Qed.

Lemma exponent_loop_ok E ds r : Forall digit ds -> ~ head_is digit r -> forall v i,
  (overflow_checks E = false -> exists v', parse_exponent_loop E (ds ++ r) v i = TOk (v', i + length ds)%nat) /\
  ((0 <= v)%Z -> (valueZ 10 v ds < 2147483648)%Z ->
     parse_exponent_loop E (ds ++ r) v i = TOk (valueZ 10 v ds, i + length ds)%nat) /\
  (overflow_checks E = true -> (0 <= v < 2147483648)%Z -> (2147483648 <= valueZ 10 v ds)%Z ->
     parse_exponent_loop E (ds ++ r) v i = TPanic P_overflow).
Proof.
  intros Hds Hr. induction Hds as [|d ds Hd Hds IH]; intros v i; cbn [app length].
  - rewrite Nat.add_0_r.
    assert (X : parse_exponent_loop E r v i = TOk (v, i)).
    { destruct r as [|b r]; [reflexivity|]. rewrite head_is_cons in Hr. cbn [parse_exponent_loop].
      apply digit_not in Hr. rewrite Hr. reflexivity. }
    rewrite X. cbn [valueZ fold_left]. split; [eauto|]. split; [reflexivity|]. intros; lia.
  - cbn [parse_exponent_loop]. assert (Hd' := proj2 (digit_iff d) Hd). rewrite Hd'. clear Hd'. unfold digit in Hd.
    set (val := Z.of_N (d - 48)). assert (Hval : (0 <= val <= 9)%Z) by (unfold val; lia).
    change (valueZ 10 v (d :: ds)) with (valueZ 10 (v * 10 + val) ds).
    destruct (negb (Z.eqb val 0) || negb (Z.eqb v 0)) eqn:Z0.
    + split; [|split].
      * intros C. destruct (i32_nopanic E (v * 10) C) as [v1 E1]. rewrite E1. cbn [tbind].
        destruct (i32_nopanic E (v1 + val) C) as [v2 E2]. rewrite E2. cbn [tbind].
        destruct (proj1 (IH v2 (S i)) C) as [v' E']. exists v'. rewrite E'. do 2 f_equal. lia.
      * intros Hv L. pose proof (valueZ_ge 10 (v * 10 + val) ds ltac:(lia) ltac:(lia)).
        rewrite i32_in by lia. cbn [tbind]. rewrite i32_in by lia. cbn [tbind].
        rewrite (proj1 (proj2 (IH (v * 10 + val)%Z (S i)))) by lia. do 2 f_equal. lia.
      * intros C Hv L.
        destruct (Z.ltb_spec (v * 10) 2147483648).
        -- rewrite i32_in by lia. cbn [tbind].
           destruct (Z.ltb_spec (v * 10 + val) 2147483648).
           ++ rewrite i32_in by lia. cbn [tbind]. apply (proj2 (proj2 (IH (v * 10 + val)%Z (S i)))); auto; lia.
           ++ rewrite i32_out by (assumption || lia). reflexivity.
        -- rewrite i32_out by (assumption || lia). reflexivity.
    + apply orb_false_iff in Z0 as [Z1 Z2]. rewrite negb_false_iff, Z.eqb_eq in Z1, Z2.
      rewrite Z1, Z2. change (0 * 10 + 0)%Z with 0%Z.
      replace (i + S (length ds))%nat with (S i + length ds)%nat by lia. apply IH.
Qed.


Lemma sign_test b : sign_char b <-> (b =? 43) || (b =? 45) = true.
Proof. unfold sign_char. rewrite orb_true_iff, !N.eqb_eq. tauto. Qed.
Lemma exp_test b : exp_letter b <-> (b =? 101) || (b =? 69) = true.
Proof. unfold exp_letter. rewrite orb_true_iff, !N.eqb_eq. tauto. Qed.

Lemma exponent_none E r : ~ head_is exp_letter r \/ length r = 1%nat ->
  parse_exponent E r = TOk (0%Z, 0%nat).
Proof.
  intros H. unfold parse_exponent. destruct (Nat.leb 2 (length r)) eqn:L; [|reflexivity].
  apply Nat.leb_le in L. destruct H as [H|H]; [|lia].
  destruct r as [|b r]; [cbn in L; lia|]. rewrite head_is_cons, exp_test in H. cbn [at_ nth].
  unfold at_. cbn [nth]. destruct (_ || _); [exfalso; auto|reflexivity].
Qed.

Lemma exponent_digits_unsigned c ds : ~ head_is sign_char ds -> exponent_digits (c :: ds) = ds.
Proof.
  intros H. unfold exponent_digits. destruct ds as [|d ds]; [reflexivity|].
  rewrite head_is_cons, sign_test in H. destruct (_ || _); [exfalso; auto|reflexivity].
Qed.
Lemma exponent_digits_signed c s ds : sign_char s -> exponent_digits (c :: s :: ds) = ds.
Proof. intros H. unfold exponent_digits. apply sign_test in H. rewrite H. reflexivity. Qed.

Lemma head_is_app_l P a b : head_is P a -> head_is P (a ++ b).
Proof. intros (c & r & -> & H). exists c, (r ++ b). auto. Qed.

Lemma exponent_spec E x r : exponent_part x r ->
  (overflow_checks E = false -> exists v, parse_exponent E (x ++ r) = TOk (v, length x)) /\
  (exponent_fits x -> parse_exponent E (x ++ r) = TOk (exponent_value x, length x)) /\
  (overflow_checks E = true -> ~ exponent_fits x -> parse_exponent E (x ++ r) = TPanic P_overflow).
Proof.
  intros H. unfold exponent_fits. destruct H as [r H|c ds r Hc Hds Hr Hs Hne|c s ds r Hc Hs Hds Hr].
  - cbn [app length]. rewrite exponent_none by exact H. split; [eauto|]. split; [reflexivity|].
    intros _ N. exfalso. apply N. cbn. lia.
  - assert (Hs' : ~ head_is sign_char ds) by (intros X; apply Hs, head_is_app_l, X).
    rewrite exponent_digits_unsigned by exact Hs'.
    assert (P : parse_exponent E ((c :: ds) ++ r) =
                tdo (value, i) <- parse_exponent_loop E (ds ++ r) 0 1 ;;
                tdo v <- i32 E (1 * value)%Z ;; TOk (v, i)).
    { unfold parse_exponent. cbn [app].
      replace (Nat.leb 2 (length (c :: ds ++ r))) with true; cycle 1.
      { symmetry. apply Nat.leb_le. destruct (ds ++ r); [congruence|cbn; lia]. }
      unfold at_ at 1 2. cbn [nth]. rewrite (proj1 (exp_test c) Hc).
      destruct (ds ++ r) as [|b t] eqn:Et; [congruence|].
      unfold at_. cbn [nth].
      rewrite head_is_cons, sign_test in Hs. destruct (b =? 43); [exfalso; apply Hs; reflexivity|].
      destruct (b =? 45); [exfalso; apply Hs; reflexivity|]. reflexivity. }
    rewrite P. clear P.
    assert (EV : exponent_value (c :: ds) = valueZ 10 0 ds).
    { unfold exponent_value. destruct ds as [|d ds]; [reflexivity|].
      rewrite exponent_digits_unsigned by exact Hs'.
      rewrite head_is_cons, sign_test in Hs'. destruct (d =? 45); [rewrite orb_true_r in Hs'; congruence|].
      rewrite digits_value_Z. change (Z.of_N 10) with 10%Z. lia. }
    rewrite EV. pose proof (digits_value_Z 10 ds) as DV. change (Z.of_N 10) with 10%Z in DV.
    pose proof (valueZ_ge 10 0 ds ltac:(lia) ltac:(lia)) as VG.
    destruct (exponent_loop_ok E ds r Hds Hr 0%Z 1%nat) as (X1 & X2 & X3).
    split; [|split].
    + intros C. destruct (X1 C) as [v' ->]. cbn [tbind]. destruct (i32_nopanic E (1 * v') C) as [y ->].
      cbn [tbind]. exists y. reflexivity.
    + intros F. rewrite X2 by lia. cbn [tbind]. rewrite i32_in by lia. cbn [tbind]. do 2 f_equal. lia.
    + intros C F. rewrite X3 by (assumption || lia). reflexivity.
  - rewrite exponent_digits_signed by exact Hs.
    set (sg := if s =? 45 then (-1)%Z else 1%Z).
    assert (P : parse_exponent E ((c :: s :: ds) ++ r) =
                tdo (value, i) <- parse_exponent_loop E (ds ++ r) 0 2 ;;
                tdo v <- i32 E (sg * value)%Z ;; TOk (v, i)).
    { unfold parse_exponent. cbn [app].
      replace (Nat.leb 2 (length (c :: s :: ds ++ r))) with true by reflexivity.
      unfold at_. cbn [nth]. rewrite (proj1 (exp_test c) Hc). unfold sg.
      destruct Hs as [-> | ->]; reflexivity. }
    rewrite P. clear P.
    assert (EV : exponent_value (c :: s :: ds) = (sg * valueZ 10 0 ds)%Z).
    { unfold exponent_value. rewrite exponent_digits_signed by exact Hs.
      rewrite digits_value_Z. reflexivity. }
    rewrite EV. pose proof (digits_value_Z 10 ds) as DV. change (Z.of_N 10) with 10%Z in DV.
    pose proof (valueZ_ge 10 0 ds ltac:(lia) ltac:(lia)) as VG.
    destruct (exponent_loop_ok E ds r Hds Hr 0%Z 2%nat) as (X1 & X2 & X3).
    split; [|split].
    + intros C. destruct (X1 C) as [v' ->]. cbn [tbind]. destruct (i32_nopanic E (sg * v') C) as [y ->].
      cbn [tbind]. exists y. reflexivity.
    + intros F. rewrite X2 by lia. cbn [tbind]. unfold sg. destruct (s =? 45).
      * rewrite i32_neg by lia. cbn [tbind]. try (do 2 f_equal; lia).
      * rewrite i32_in by lia. cbn [tbind]. do 2 f_equal.
    + intros C F. rewrite X3 by (assumption || lia). reflexivity.
Qed.

Lemma exponent_ascii x r : exponent_part x r -> Forall (fun b => b < 128) x.
Proof.
  assert (D : forall ds, Forall digit ds -> Forall (fun b => b < 128) ds).
  { intros ds. apply Forall_impl. unfold digit. intros; lia. }
  intros H; destruct H; repeat constructor; auto;
    unfold exp_letter, sign_char in *; lia.
Qed.

Lemma exponent_exists s : exists x r, s = x ++ r /\ exponent_part x r.
Proof.
  destruct s as [|c s].
  { exists [], []. split; [reflexivity|]. constructor. left. apply head_is_nil. }
  destruct s as [|d s].
  { exists [], [c]. split; [reflexivity|]. constructor. right. reflexivity. }
  assert (De : exp_letter c \/ ~ exp_letter c) by (unfold exp_letter; lia).
  destruct De as [De|De].
  2: { exists [], (c :: d :: s). split; [reflexivity|]. constructor. left. rewrite head_is_cons. exact De. }
  assert (Ds : sign_char d \/ ~ sign_char d) by (unfold sign_char; lia).
  destruct Ds as [Ds|Ds].
  - destruct (span_exists digit digit_dec s) as (ds & r & -> & Hds & Hr).
    exists (c :: d :: ds), r. split; [reflexivity|]. apply ep_signed; assumption.
  - destruct (span_exists digit digit_dec (d :: s)) as (ds & r & E & Hds & Hr).
    exists (c :: ds), r. split; [cbn; congruence|].
    apply ep_unsigned; try assumption; rewrite <- E; [|discriminate].
    rewrite head_is_cons. exact Ds.
Qed.

Lemma exponent_fits_dec x : exponent_fits x \/ ~ exponent_fits x.
Proof. unfold exponent_fits. lia. Qed.

(** ** Decimal literals *)

Lemma digits_ascii ds : Forall digit ds -> Forall (fun b => b < 128) ds.
Proof. apply Forall_impl. unfold digit. intros; lia. Qed.

Lemma decimal_text_ascii m x r : decimal_text m x r -> Forall (fun b => b < 128) m.
Proof.
  intros H; destruct H; repeat constructor; try lia; try (apply digits_ascii; assumption).
  - apply Forall_app. split; [apply digits_ascii; assumption|]. constructor; [lia|apply digits_ascii; assumption].
  - inversion H; subst. unfold digit in *. lia.
  - inversion H; subst. apply digits_ascii. assumption.
Qed.

Lemma decimal_text_exponent m x r : decimal_text m x r -> m = [48] \/ exponent_part x r.
Proof. intros H; destruct H; auto. Qed.

Lemma utf8_rest_ascii w r : Forall (fun b => b < 128) w -> utf8 (w ++ r) -> utf8 r.
Proof. intros Hw. apply utf8_app_inv. apply utf8_ascii, Hw. Qed.

(** The common end of the three functions. *)
(** Which function reads a decimal literal, by its first byte. *)
Definition tok_decimal (E : env) (code : bytes) : tres (token * nat) :=
  let b := at_ code 0 in
  if b =? 46 then tok_fractional E code
  else if b =? 48 then tok_zero_num E code
  else tok_num E code.

Lemma int_literal_ext d ds r : 49 <= d <= 57 -> Forall digit ds -> ~ head_is digit r ->
  parse_int_literal (d :: ds ++ r) = (integer_part (d :: ds), S (length ds)).
Proof.
  intros Hd Hds Hr.
  assert (X : forall ds, Forall digit ds -> forall v i j, big v ->
    fst (parse_int_literal_loop (ds ++ r) v i) = fst (parse_int_literal_loop ds v j)).
  { induction 1 as [|c cs Hc Hcs IH]; intros v i j Hv; cbn [app].
    - destruct r as [|b r]; [reflexivity|]. rewrite head_is_cons in Hr. unfold digit in Hr.
      cbn [parse_int_literal_loop]. destruct (N.eqb_spec b 48); [exfalso; lia|].
      destruct (in_range 49 57 b) eqn:E; [apply in_range_iff in E; exfalso; lia | reflexivity].
    - cbn [parse_int_literal_loop]. destruct (N.eqb_spec c 48) as [->|N].
      + rewrite big_nonzero by exact Hv. apply IH. apply big_mul; [exact Hv|apply ten_big].
      + rewrite (proj2 (in_range_iff 49 57 c)) by (unfold digit in Hc; lia). apply IH.
        apply big_add; [apply big_mul; [exact Hv|apply ten_big]|apply of_Z_nonneg; lia]. }
  destruct (int_literal d ds r Hd Hds Hr) as (v & E & _). rewrite E. f_equal.
  unfold integer_part, parse_int_literal in *. cbn [parse_int_literal_loop] in *.
  destruct (N.eqb_spec d 48); [lia|]. rewrite (proj2 (in_range_iff 49 57 d)) in * by lia.
  rewrite add_mul_zero in * by (apply of_Z_nonneg; lia).
  rewrite <- (X ds Hds _ 1%nat 1%nat) by (apply of_Z_big; lia). rewrite E. reflexivity.
Qed.

Lemma no_dot ds : Forall digit ds -> existsb (N.eqb 46) ds = false.
Proof.
  induction 1 as [|d ds Hd H IH]; [reflexivity|]. cbn [existsb]. rewrite IH.
  replace (46 =? d) with false; [reflexivity|]. symmetry. apply N.eqb_neq. unfold digit in Hd. lia.
Qed.

Lemma at_dot ds fs : Forall digit ds ->
  existsb (N.eqb 46) (ds ++ 46 :: fs) = true /\ before_dot (ds ++ 46 :: fs) = ds /\ after_dot (ds ++ 46 :: fs) = fs.
Proof.
  induction 1 as [|d ds Hd H IH]; [repeat split|]. destruct IH as (A & B & C). cbn [app existsb before_dot after_dot].
  replace (d =? 46) with false by (symmetry; apply N.eqb_neq; unfold digit in Hd; lia).
  rewrite A, B, C, orb_true_r. auto.
Qed.

Lemma mantissa_nonzero d m : 49 <= d <= 57 -> mantissa (d :: m) =
  if existsb (N.eqb 46) (d :: m) then f64_add (integer_part (before_dot (d :: m))) (fraction (after_dot (d :: m)))
  else integer_part (d :: m).
Proof.
  intros Hd.
  assert (C : d = 49 \/ d = 50 \/ d = 51 \/ d = 52 \/ d = 53 \/ d = 54 \/ d = 55 \/ d = 56 \/ d = 57) by lia.
  destruct C as [->|[->|[->|[->|[->|[->|[->|[->| ->]]]]]]]]; reflexivity.
Qed.

Lemma mantissa_integer d ds : 49 <= d <= 57 -> Forall digit ds -> mantissa (d :: ds) = integer_part (d :: ds).
Proof.
  intros Hd Hds. rewrite mantissa_nonzero by exact Hd. rewrite no_dot; [reflexivity|].
  constructor; [unfold digit; lia|exact Hds].
Qed.

Lemma mantissa_fraction d ds fs : 49 <= d <= 57 -> Forall digit ds ->
  mantissa (d :: ds ++ 46 :: fs) = f64_add (integer_part (d :: ds)) (fraction fs).
Proof.
  intros Hd Hds. rewrite mantissa_nonzero by exact Hd.
  destruct (at_dot (d :: ds) fs) as (A & B & C); [constructor; [unfold digit; lia|exact Hds]|].
  cbn [app] in *. rewrite A, B, C. reflexivity.
Qed.

(** The value of a decimal literal, in terms of what [parse_exponent] returns. *)
Definition scaled (E : env) (v : f64) (e : Z) (num : nat) : f64 :=
  if Nat.eqb num 0 then v else f64_mul v (powi10 E e).

Lemma tok_decimal_eq E m x r : decimal_text m x r -> utf8 (m ++ x ++ r) ->
  (m = [48] /\ x = [] /\ tok_decimal E (m ++ x ++ r) = TOk (TNumeric f64_zero, 1%nat)) \/
  (exponent_part x r /\ tok_decimal E (m ++ x ++ r) =
     tdo (e, num) <- parse_exponent E (x ++ r) ;; TOk (TNumeric (scaled E (mantissa m) e num), length (m ++ x))).
Proof.
  intros H Hu. assert (Ha := decimal_text_ascii _ _ _ H).
  assert (G : forall v m x r, v = mantissa m -> exponent_part x r -> Forall (fun b => b < 128) m -> utf8 (m ++ x ++ r) ->
    (tdo (val, off) <- apply_exponent E (m ++ x ++ r) v (length m) ;;
     tdo _ <- slice (m ++ x ++ r) 0 off ;; TOk (TNumeric val, off)) =
    tdo (e, num) <- parse_exponent E (x ++ r) ;; TOk (TNumeric (scaled E (mantissa m) e num), length (m ++ x))).
  { clear. intros v m x r -> Hx Hm Hu.
    assert (Hr : utf8 r).
    { apply (utf8_rest_ascii (m ++ x)); [|rewrite <- app_assoc; exact Hu].
      apply Forall_app. split; [exact Hm | eapply exponent_ascii, Hx]. }
    unfold apply_exponent. rewrite skipn_length_app.
    assert (L : forall e num, parse_exponent E (x ++ r) = TOk (e, num) -> num = length x).
    { destruct (exponent_spec E x r Hx) as (X1 & X2 & X3). intros e num Q.
      destruct (overflow_checks E) eqn:C.
      - destruct (exponent_fits_dec x) as [F|F]; [rewrite (X2 F) in Q|rewrite (X3 eq_refl F) in Q]; congruence.
      - destruct (X1 eq_refl) as [v1 Q1]. congruence. }
    destruct (parse_exponent E (x ++ r)) as [[e num]|p]; [|reflexivity].
    specialize (L e num eq_refl). subst num. cbn [tbind]. unfold scaled.
    assert (Q : (length m + length x)%nat = length (m ++ x)) by (symmetry; apply app_length).
    destruct (Nat.eqb_spec (length x) 0) as [Z|Z]; cbn [tbind].
    - destruct x; [|discriminate]. rewrite app_nil_r. rewrite slice_0_app by exact Hr. reflexivity.
    - rewrite Q, app_assoc, slice_0_app by exact Hr. reflexivity. }
  destruct H as [d ds x r Hd Hds Hn Hdot Hx|d ds fs x r Hd Hds Hfs Hn Hx|f fs x r Hfs Hn Hx|fs x r Hfs Hn Hne Hx|r Hz].
  - (* integer *)
    assert (T : tok_decimal E ((d :: ds) ++ x ++ r) = tok_num E ((d :: ds) ++ x ++ r)).
    { unfold tok_decimal, at_. cbn [app nth]. destruct (N.eqb_spec d 46); [lia|].
      destruct (N.eqb_spec d 48); [lia|]. reflexivity. }
    rewrite T. clear T. unfold tok_num.
    assert (Ev := int_literal_ext d ds (x ++ r) Hd Hds Hn). cbn [app] in *. rewrite Ev.
    replace (Nat.ltb (S (length ds)) (length (d :: ds ++ x ++ r)) && (at_ (d :: ds ++ x ++ r) (S (length ds)) =? 46))
      with false; cycle 1.
    { symmetry. apply andb_false_iff. right. apply N.eqb_neq. unfold at_. cbn [nth].
      rewrite app_nth2, Nat.sub_diag by lia. destruct (x ++ r) as [|b t]; [discriminate|].
      cbn [nth]. rewrite head_is_cons in Hdot. congruence. }
    right. split; [assumption|]. apply (G _ (d :: ds) x r); try assumption. symmetry. apply mantissa_integer; assumption.
  - (* fraction *)
    rewrite <- app_comm_cons, <- app_assoc in *. cbn [app] in *.
    set (code := d :: ds ++ 46 :: fs ++ x ++ r) in *.
    assert (T : tok_decimal E code = tok_num E code).
    { unfold tok_decimal, at_, code. cbn [nth]. destruct (N.eqb_spec d 46); [lia|].
      destruct (N.eqb_spec d 48); [lia|]. reflexivity. }
    rewrite T. clear T. unfold tok_num.
    assert (Ev : parse_int_literal (d :: ds ++ 46 :: fs ++ x ++ r) = (integer_part (d :: ds), S (length ds))).
    { apply int_literal_ext; auto.
      rewrite head_is_cons. unfold digit. lia. }
    fold code in Ev. rewrite Ev.
    replace (Nat.ltb (S (length ds)) (length code) && (at_ code (S (length ds)) =? 46)) with true; cycle 1.
    { symmetry. apply andb_true_iff. split.
      - apply Nat.ltb_lt. unfold code. cbn [length]. rewrite app_length. cbn. lia.
      - unfold at_, code. cbn [nth]. rewrite app_nth2, Nat.sub_diag by lia. reflexivity. }
    replace (skipn (S (length ds) + 1) code) with (fs ++ x ++ r); cycle 1.
    { unfold code. symmetry.
      replace (d :: ds ++ 46 :: fs ++ x ++ r) with ((d :: ds ++ [46]) ++ fs ++ x ++ r)
        by (cbn [app]; rewrite <- app_assoc; reflexivity).
      replace (S (length ds) + 1)%nat with (length (d :: ds ++ [46]))
        by (cbn [length]; rewrite app_length; cbn; lia).
      apply skipn_length_app. }
    rewrite (decimal_digits fs (x ++ r) Hfs Hn).
    replace (S (length ds) + (length fs + 1))%nat with (length (d :: ds ++ 46 :: fs))
      by (cbn [length]; rewrite app_length; cbn [length]; lia).
    replace code with ((d :: ds ++ 46 :: fs) ++ x ++ r) in *
      by (unfold code; cbn [app]; rewrite <- app_assoc; reflexivity).
    replace (d :: (ds ++ 46 :: fs) ++ x) with ((d :: ds ++ 46 :: fs) ++ x) by reflexivity.
    right. split; [assumption|]. apply G; try assumption. symmetry. apply mantissa_fraction; assumption.
  - (* .5 *)
    assert (T : tok_decimal E ((46 :: f :: fs) ++ x ++ r) = tok_fractional E ((46 :: f :: fs) ++ x ++ r))
      by reflexivity.
    rewrite T. clear T. unfold tok_fractional.
    change (skipn 1 ((46 :: f :: fs) ++ x ++ r)) with ((f :: fs) ++ x ++ r).
    rewrite (decimal_digits (f :: fs) (x ++ r) Hfs Hn).
    change (1 + length (f :: fs))%nat with (length (46 :: f :: fs)).
    right. split; [assumption|]. apply G; try assumption. reflexivity.
  - (* 0.5 *)
    assert (T : tok_decimal E ((48 :: 46 :: fs) ++ x ++ r) = tok_zero_num E ((48 :: 46 :: fs) ++ x ++ r))
      by reflexivity.
    rewrite T. clear T. unfold tok_zero_num.
    replace (Nat.ltb 2 (length ((48 :: 46 :: fs) ++ x ++ r))) with true; cycle 1.
    { symmetry. apply Nat.ltb_lt. cbn [app length]. destruct (fs ++ x ++ r); [congruence|cbn; lia]. }
    change (at_ ((48 :: 46 :: fs) ++ x ++ r) 1) with 46.
    change (46 =? 120) with false. change (46 =? 88) with false. change (46 =? 111) with false.
    change (46 =? 79) with false. change (46 =? 98) with false. change (46 =? 66) with false.
    change (46 =? 46) with true. cbn [orb]. cbv iota.
    change (skipn 2 ((48 :: 46 :: fs) ++ x ++ r)) with (fs ++ x ++ r).
    rewrite (decimal_digits fs (x ++ r) Hfs Hn).
    destruct (Nat.eqb_spec (length fs) 0) as [L|L].
    + destruct fs; [|discriminate]. change 2%nat with (length [48; 46]).
      right. split; [assumption|]. apply (G _ [48; 46] x r); try assumption. reflexivity.
    + change (2 + length fs)%nat with (length (48 :: 46 :: fs)).
      right. split; [assumption|]. apply (G _ (48 :: 46 :: fs) x r); try assumption. destruct fs; [cbn in L; lia|reflexivity].
  - (* 0 *)
    left. cbn [app length]. split; [reflexivity|]. split; [reflexivity|].
    assert (T : tok_decimal E (48 :: r) = tok_zero_num E (48 :: r)) by reflexivity.
    rewrite T. clear T. unfold tok_zero_num.
    set (b := if Nat.ltb 2 (length (48 :: r)) then at_ (48 :: r) 1 else 0).
    assert (Hb : ~ In b (s2b "xXoObB.")).
    { unfold b. destruct (Nat.ltb 2 (length (48 :: r))) eqn:L.
      - apply Nat.ltb_lt in L. cbn [length] in L. destruct Hz as [Hz|Hz]; [lia|].
        destruct r as [|c r]; [cbn in L; lia|]. rewrite head_is_cons in Hz. exact Hz.
      - intros X. vm_compute in X. intuition discriminate. }
    cbn [app] in Hu.
    change (s2b "xXoObB.") with [120; 88; 111; 79; 98; 66; 46] in Hb. cbn [In] in Hb.
    destruct (N.eqb_spec b 120); [exfalso; auto|]. destruct (N.eqb_spec b 88); [exfalso; auto|].
    destruct (N.eqb_spec b 111); [exfalso; auto|]. destruct (N.eqb_spec b 79); [exfalso; auto 10|].
    destruct (N.eqb_spec b 98); [exfalso; auto 10|]. destruct (N.eqb_spec b 66); [exfalso; auto 10|].
    destruct (N.eqb_spec b 46); [exfalso; auto 10|]. cbn [orb].
    rewrite exponent_none by (left; rewrite head_is_cons; intros [|]; discriminate).
    cbn [tbind]. change (0 + 1)%nat with (length [48]).
    change (48 :: r) with ([48] ++ r). rewrite slice_0_app; [reflexivity|].
    apply (utf8_ascii_tail 48); [lia|exact Hu].
Qed.


Lemma tok_decimal_spec E m x r : decimal_text m x r -> utf8 (m ++ x ++ r) ->
  ((overflow_checks E = true -> exponent_fits x) ->
     exists v, tok_decimal E (m ++ x ++ r) = TOk (TNumeric v, length (m ++ x)) /\
     (x = [] -> v = mantissa m) /\
     (x <> [] -> exponent_fits x -> v = f64_mul (mantissa m) (powi10 E (exponent_value x)))) /\
  (overflow_checks E = true -> ~ exponent_fits x ->
     tok_decimal E (m ++ x ++ r) = TPanic P_overflow).
Proof.
  intros H Hu. destruct (tok_decimal_eq E m x r H Hu) as [(-> & -> & ->)|(Hx & ->)].
  - split; [intros _|intros _ N; exfalso; apply N; unfold exponent_fits; cbn; lia].
    eexists. split; [reflexivity|]. split; [reflexivity|congruence].
  - destruct (exponent_spec E x r Hx) as (X1 & X2 & X3). split.
    + intros F.
      assert (D : (exists e, parse_exponent E (x ++ r) = TOk (e, length x) /\ (exponent_fits x -> e = exponent_value x))).
      { destruct (overflow_checks E).
        - exists (exponent_value x). split; [apply X2, F; reflexivity | reflexivity].
        - destruct (X1 eq_refl) as [e He]. exists e. split; [exact He|].
          intros G. rewrite (X2 G) in He. congruence. }
      destruct D as (e & -> & He). cbn [tbind]. eexists. split; [reflexivity|]. unfold scaled.
      destruct x as [|c x]; cbn [length Nat.eqb]; split; try congruence. intros _ G. rewrite He by exact G. reflexivity.
    + intros C F. rewrite X3 by assumption. reflexivity.
Qed.

(** ** Radix literals *)

Lemma hex_iff b : hex_digit b <-> in_range 48 57 b || in_range 97 102 b || in_range 65 70 b = true.
Proof. unfold hex_digit, digit. rewrite !orb_true_iff, !in_range_iff. tauto. Qed.

Lemma hex_loop_spec ds r : Forall hex_digit ds -> ~ head_is hex_digit r -> forall v i,
  exists v', hex_loop (ds ++ r) v i = (v', i + length ds)%nat.
Proof.
  intros Hds Hr. induction Hds as [|d ds Hd Hds IH]; intros v i; cbn [app length].
  - exists v. rewrite Nat.add_0_r. destruct r as [|b r]; [reflexivity|].
    rewrite head_is_cons, hex_iff in Hr. cbn [hex_loop].
    destruct (in_range 48 57 b); [contradiction Hr; reflexivity|].
    destruct (in_range 97 102 b); [contradiction Hr; reflexivity|].
    destruct (in_range 65 70 b); [contradiction Hr; reflexivity|]. reflexivity.
  - cbn [hex_loop]. apply hex_iff in Hd.
    replace (i + S (length ds))%nat with (S i + length ds)%nat by lia.
    destruct (in_range 48 57 d); [apply IH|].
    destruct (in_range 97 102 d); [apply IH|].
    destruct (in_range 65 70 d); [apply IH|discriminate].
Qed.

Lemma octal_loop_spec ds r : Forall octal_digit ds -> ~ head_is octal_digit r -> forall v i,
  (~ head_is (radix_refused Octal) r -> exists v', octal_loop (ds ++ r) v i = TOk (v', i + length ds)%nat) /\
  (head_is (radix_refused Octal) r -> exists p, octal_loop (ds ++ r) v i = TPanic p).
Proof.
  intros Hds Hr. induction Hds as [|d ds Hd Hds IH]; intros v i; cbn [app length].
  - rewrite Nat.add_0_r. destruct r as [|b r].
    { split; [exists v; reflexivity|]. intros X. destruct (head_is_nil _ X). }
    rewrite head_is_cons in *. cbn [octal_loop radix_refused].
    unfold octal_digit in Hr. apply in_range_not in Hr. rewrite Hr.
    destruct ((b =? 56) || (b =? 57)) eqn:E.
    + rewrite orb_true_iff, !N.eqb_eq in E. split; [intros X; exfalso; apply X; lia|eauto].
    + rewrite orb_false_iff, !N.eqb_neq in E. split; [eauto|intros X; exfalso; lia].
  - cbn [octal_loop]. unfold octal_digit in Hd. apply in_range_iff in Hd. rewrite Hd.
    replace (i + S (length ds))%nat with (S i + length ds)%nat by lia. apply IH.
Qed.

Lemma binary_loop_spec ds r : Forall binary_digit ds -> ~ head_is binary_digit r -> forall v i,
  (~ head_is (radix_refused Binary) r -> exists v', binary_loop (ds ++ r) v i = TOk (v', i + length ds)%nat) /\
  (head_is (radix_refused Binary) r -> exists p, binary_loop (ds ++ r) v i = TPanic p).
Proof.
  intros Hds Hr. induction Hds as [|d ds Hd Hds IH]; intros v i; cbn [app length].
  - rewrite Nat.add_0_r. destruct r as [|b r].
    { split; [exists v; reflexivity|]. intros X. destruct (head_is_nil _ X). }
    rewrite head_is_cons in *. cbn [binary_loop radix_refused].
    unfold binary_digit in Hr. apply in_range_not in Hr. rewrite Hr.
    destruct (in_range 50 57 b) eqn:E.
    + apply in_range_iff in E. split; [intros X; exfalso; apply X; lia|eauto].
    + apply in_range_not in E. split; [eauto|intros X; exfalso; lia].
  - cbn [binary_loop]. unfold binary_digit in Hd. apply in_range_iff in Hd. rewrite Hd.
    replace (i + S (length ds))%nat with (S i + length ds)%nat by lia. apply IH.
Qed.

Lemma u8_sub_ok E d : first_digit (overflow_checks E) d -> exists v, u8_sub E d 48 = TOk v.
Proof.
  intros [_ H]. unfold u8_sub. destruct (N.leb_spec 48 d); [eauto|].
  destruct (overflow_checks E); [specialize (H eq_refl); lia|eauto].
Qed.

(** The digit loops behind one name. *)
Definition radix_loop (k : radix) (rest : bytes) (v : f64) (i : nat) : tres (f64 * nat) :=
  match k with
  | Hex => TOk (hex_loop rest v i)
  | Octal => octal_loop rest v i
  | Binary => binary_loop rest v i
  end.

Lemma radix_loop_spec k ds r : Forall (radix_digit k) ds -> ~ head_is (radix_digit k) r -> forall v i,
  (~ head_is (radix_refused k) r -> exists v', radix_loop k (ds ++ r) v i = TOk (v', i + length ds)%nat) /\
  (head_is (radix_refused k) r -> exists p, radix_loop k (ds ++ r) v i = TPanic p).
Proof.
  destruct k; cbn [radix_loop radix_digit]; intros Hds Hr v i.
  - split.
    + intros _. destruct (hex_loop_spec ds r Hds Hr v i) as [v' ->]. eauto.
    + intros (b & t & _ & []).
  - apply octal_loop_spec; assumption.
  - apply binary_loop_spec; assumption.
Qed.

Lemma tok_zero_radix E k l d r : radix_letter k l ->
  tok_zero_num E (48 :: l :: d :: r) =
  tdo v <- u8_sub E d 48 ;;
  tdo (val, i) <- radix_loop k r (f64_of_u8 v) 3 ;;
  tdo _ <- slice (48 :: l :: d :: r) 0 i ;;
  TOk (TNumeric val, i).
Proof.
  intros H. unfold tok_zero_num. change (Nat.ltb 2 (length (48 :: l :: d :: r))) with true. cbv iota.
  unfold at_. cbn [nth skipn].
  destruct k; cbn [radix_letter] in H; destruct H as [-> | ->]; cbn [radix_loop];
    destruct (u8_sub E d 48) as [v|p]; cbn [tbind N.eqb orb Pos.eqb]; try reflexivity;
    destruct (hex_loop _ _ _); reflexivity.
Qed.

Lemma radix_digit_dec k b : radix_digit k b \/ ~ radix_digit k b.
Proof. destruct k; cbn; unfold hex_digit, octal_digit, binary_digit, digit; lia. Qed.
Lemma radix_refused_dec k b : radix_refused k b \/ ~ radix_refused k b.
Proof. destruct k; cbn; lia. Qed.
Lemma radix_digit_ascii k ds : Forall (radix_digit k) ds -> Forall (fun b => b < 128) ds.
Proof.
  apply Forall_impl. intros b. destruct k; cbn; unfold hex_digit, octal_digit, binary_digit, digit; lia.
Qed.
Lemma radix_letter_ascii k l : radix_letter k l -> l < 128.
Proof. destruct k; cbn; lia. Qed.

Lemma tok_radix_ok E k l d ds r :
  radix_letter k l -> first_digit (overflow_checks E) d -> Forall (radix_digit k) ds ->
  ~ head_is (radix_digit k) r -> ~ head_is (radix_refused k) r ->
  utf8 (48 :: l :: d :: ds ++ r) ->
  exists v, tok_zero_num E (48 :: l :: d :: ds ++ r) = TOk (TNumeric v, S (S (S (length ds)))).
Proof.
  intros Hl Hd Hds Hr1 Hr2 Hu. rewrite (tok_zero_radix E k) by exact Hl.
  destruct (u8_sub_ok E d Hd) as [v0 ->]. cbn [tbind].
  destruct (proj1 (radix_loop_spec k ds r Hds Hr1 (f64_of_u8 v0) 3%nat) Hr2) as [v ->]. cbn [tbind].
  change (48 :: l :: d :: ds ++ r) with ((48 :: l :: d :: ds) ++ r) in *.
  change (3 + length ds)%nat with (length (48 :: l :: d :: ds)).
  rewrite slice_0_app; [cbn [tbind]; eauto|].
  apply (utf8_rest_ascii (48 :: l :: d :: ds)); [|exact Hu].
  repeat constructor; [eapply radix_letter_ascii, Hl | apply Hd | eapply radix_digit_ascii, Hds].
Qed.

Lemma tok_radix_bad_digit E k l d ds r :
  radix_letter k l -> first_digit (overflow_checks E) d -> Forall (radix_digit k) ds ->
  head_is (radix_refused k) r ->
  exists p, tok_zero_num E (48 :: l :: d :: ds ++ r) = TPanic p.
Proof.
  intros Hl Hd Hds Hr2. rewrite (tok_zero_radix E k) by exact Hl.
  destruct (u8_sub_ok E d Hd) as [v0 ->]. cbn [tbind].
  assert (Hr1 : ~ head_is (radix_digit k) r).
  { destruct Hr2 as (b & t & -> & Hb). rewrite head_is_cons.
    destruct k; cbn in *; unfold octal_digit, binary_digit; lia. }
  destruct (proj2 (radix_loop_spec k ds r Hds Hr1 (f64_of_u8 v0) 3%nat) Hr2) as [p ->].
  cbn [tbind]. eauto.
Qed.

Lemma tok_radix_bad_first E k l d r :
  radix_letter k l -> ~ first_digit (overflow_checks E) d -> utf8 (48 :: l :: d :: r) ->
  exists p, tok_zero_num E (48 :: l :: d :: r) = TPanic p.
Proof.
  intros Hl Hd Hu. rewrite (tok_zero_radix E k) by exact Hl. unfold u8_sub.
  destruct (N.leb_spec 48 d) as [L|L].
  - assert (D : 128 <= d) by (unfold first_digit in Hd; lia). cbn [tbind].
    apply utf8_ascii_tail in Hu; [|lia].
    apply utf8_ascii_tail in Hu; [|eapply radix_letter_ascii, Hl].
    assert (C : exists c t, r = c :: t /\ is_cont c = true).
    { inversion Hu; subst; [lia|eauto|eauto|eauto]. }
    destruct C as (c & t & -> & Hc).
    assert (Hc1 := Hc). apply is_cont_iff in Hc1.
    destruct (radix_loop_spec k [] (c :: t) (Forall_nil _)) with (v := f64_of_u8 (d - 48)) (i := 3%nat) as [X _].
    { rewrite head_is_cons. destruct k; cbn; unfold hex_digit, octal_digit, binary_digit, digit; lia. }
    destruct X as [v E']. { rewrite head_is_cons. destruct k; cbn; lia. }
    cbn [app] in E'. rewrite E'. cbn [tbind length]. change (3 + 0)%nat with 3%nat.
    unfold slice.
    assert (B : is_char_boundary (48 :: l :: d :: c :: t) 3 = false)
      by (apply (not_boundary_inside [48; l]); exact Hc).
    rewrite B, andb_false_r. cbn [tbind]. eauto.
  - destruct (overflow_checks E) eqn:C; cbn [tbind]; [eauto|].
    exfalso. apply Hd. split; [lia|discriminate].
Qed.
