(** Error bounds for binary64 addition and multiplication of nonnegative numbers, in
    rational arithmetic. *)
From Coq Require Import List NArith ZArith QArith Qabs Qpower Lqa Lia Bool Floats.SpecFloat.
From Verif Require Import Base SpecTokens SpecNumbers FloatFacts.
Import ListNotations.
Local Open Scope Z_scope.

(** ** Integer part: what shifting and rounding do to a mantissa *)

Definition shifted (m0 n : Z) (r : shr_record) : Prop :=
  exists rem, 0 <= shr_m r /\ 0 <= rem < 2 ^ n /\ m0 = shr_m r * 2 ^ n + rem /\
    match shr_r r, shr_s r with
    | false, false => rem = 0
    | false, true => 0 < rem /\ 2 * rem < 2 ^ n
    | true, false => 2 * rem = 2 ^ n
    | true, true => 2 ^ n < 2 * rem
    end.

Lemma shifted_step m0 n r : 0 <= n -> shifted m0 n r -> shifted m0 (n + 1) (shr_1 r).
Proof.
  intros Hn (rem & Hm & Hr & -> & C). destruct r as [m b s]. cbn [shr_m shr_r shr_s] in *.
  assert (P : 2 ^ (n + 1) = 2 * 2 ^ n) by (rewrite Z.pow_add_r by lia; lia).
  assert (P0 := pow2_pos n Hn). unfold shifted. rewrite P.
  destruct m as [|p|p]; [| |lia].
  - exists rem. cbn [shr_1 shr_m shr_r shr_s]. destruct b, s; cbn [orb]; repeat split; lia.
  - destruct p as [p|p|]; cbn [shr_1 shr_m shr_r shr_s].
    + exists (rem + 2 ^ n). destruct b, s; cbn [orb]; repeat split; try lia; nia.
    + exists rem. destruct b, s; cbn [orb]; repeat split; try lia; nia.
    + exists (rem + 2 ^ n). destruct b, s; cbn [orb]; repeat split; try lia; nia.
Qed.

Lemma shifted_iter m0 p : 0 <= m0 -> shifted m0 (Zpos p) (iter_pos shr_1 p (Build_shr_record m0 false false)).
Proof.
  intros H. rewrite iter_pos_iter. induction p using Pos.peano_ind.
  - cbn [Pos.iter]. change 1 with (0 + 1). apply shifted_step; [lia|].
    exists 0. cbn [shr_m shr_r shr_s]. change (2 ^ 0) with 1. repeat split; lia.
  - rewrite Pos.iter_succ, Pos2Z.inj_succ. apply shifted_step; [lia|exact IHp].
Qed.

Lemma shifted_round m0 n r : 0 < n -> shifted m0 n r ->
  2 * Z.abs (round_nearest_even (shr_m r) (loc_of_shr_record r) * 2 ^ n - m0) <= 2 ^ n.
Proof.
  intros Hn (rem & Hm & Hr & -> & C). assert (P0 := pow2_pos n ltac:(lia)). destruct r as [m b s].
  cbn [shr_m shr_r shr_s loc_of_shr_record] in *.
  destruct b, s; cbn [round_nearest_even]; try destruct (Z.even m); nia.
Qed.

(** Rounding a positive number, not too large. *)
Lemma round_aux_int p e : Z.log2 (Zpos p) + e < 965 ->
  let E := fexp64 (Z.log2 (Zpos p) + 1 + e) in
  exists m1 e1, binary_round_aux 53 1024 false (Zpos p) e loc_Exact =
      match m1 with Z0 => S754_zero false | Zpos q => S754_finite false q e1 | Zneg _ => S754_nan end /\
    0 <= m1 /\
    ((E <= e /\ m1 = Zpos p /\ e1 = e) \/
     (exists n m, 0 < n /\ E = e + n /\ 2 * Z.abs (m * 2 ^ n - Zpos p) <= 2 ^ n /\
        ((m1 = m /\ e1 = e + n) \/ (m = 2 * m1 /\ e1 = e + n + 1)))).
Proof.
  intros L E. unfold binary_round_aux. unfold shr_fexp at 1. cbn [Zdigits2 shr_record_of_loc].
  rewrite digits2_log2. fold E. assert (L0 := Z.log2_nonneg (Zpos p)). unfold E in *. clear E. rewrite fexp64_eq in *.
  unfold shr at 1. destruct (Z.max (Z.log2 (Z.pos p) + 1 + e - 53) (-1074) - e) as [|n|n] eqn:En.
  1, 3: cbn [shr_m loc_of_shr_record round_nearest_even]; unfold shr_fexp; cbn [Zdigits2 shr_record_of_loc];
    rewrite digits2_log2, fexp64_eq; unfold shr; rewrite En; cbn [shr_m]; exists (Zpos p), e;
    replace (e <=? 1024 - 53) with true by (symmetry; apply Z.leb_le; lia); repeat split; try lia; left; repeat split; lia.
  set (r := iter_pos shr_1 n _). assert (Sh := shifted_iter (Zpos p) n ltac:(lia)). fold r in Sh.
  assert (R := shifted_round _ (Zpos n) _ ltac:(lia) Sh).
  assert (Mb : 0 <= shr_m r < 2 ^ 53).
  { destruct Sh as (rem & H1 & H2 & H3 & _). split; [exact H1|].
    destruct (Z.lt_ge_cases (shr_m r) (2 ^ 53)) as [|G]; [assumption|exfalso].
    assert (X : Zpos p < 2 ^ (Z.log2 (Zpos p) + 1)) by (apply Z.log2_spec; lia).
    assert (Y : 2 ^ (Z.log2 (Zpos p) + 1) <= 2 ^ 53 * 2 ^ Zpos n).
    { rewrite <- Z.pow_add_r by lia. apply Z.pow_le_mono_r; lia. }
    assert (2 ^ 53 * 2 ^ Zpos n <= shr_m r * 2 ^ Zpos n) by (apply Z.mul_le_mono_nonneg_r; [apply Z.pow_nonneg|]; lia). lia. }
  set (m := round_nearest_even (shr_m r) (loc_of_shr_record r)) in *.
  assert (Mm : 0 <= m <= 2 ^ 53) by (pose proof (round_nearest_even_ge (shr_m r) (loc_of_shr_record r)); lia).
  assert (En' : e + Zpos n = Z.max (Z.log2 (Zpos p) + 1 + e - 53) (-1074)) by lia.
  assert (Le : (e + Zpos n) + 1 <= 971) by lia.
  unfold shr_fexp.
  destruct (Z.eq_dec m (2 ^ 53)) as [Em|Nm].
  - rewrite Em. change (Zdigits2 (2 ^ 53)) with 54. rewrite fexp64_eq.
    replace (Z.max (54 + (e + Z.pos n) - 53) (-1074) - (e + Z.pos n)) with 1 by lia.
    exists (2 ^ 52), (e + Zpos n + 1). unfold shr. change (iter_pos shr_1 1 (shr_record_of_loc (2 ^ 53) loc_Exact)) with (Build_shr_record (2 ^ 52) false false).
    cbn [shr_m]. change (2 ^ 52) with (Zpos 4503599627370496).
    replace (e + Zpos n + 1 <=? 1024 - 53) with true by (symmetry; apply Z.leb_le; lia).
    split; [reflexivity|]. split; [lia|]. right. exists (Zpos n), m. split; [lia|]. split; [lia|]. split; [exact R|]. right. rewrite Em. lia.
  - exists m, (e + Zpos n).
    assert (Z0 : fexp64 (Zdigits2 m + (e + Zpos n)) - (e + Zpos n) <= 0).
    { rewrite fexp64_eq. assert (Zdigits2 m <= 53); [|lia].
      destruct m as [|q|q]; [cbn; lia| |lia]. cbn [Zdigits2]. rewrite digits2_log2.
      assert (Z.log2 (Zpos q) < 53) by (apply Z.log2_lt_pow2; lia). lia. }
    assert (Sx : shr (shr_record_of_loc m loc_Exact) (e + Zpos n) (fexp64 (Zdigits2 m + (e + Zpos n)) - (e + Zpos n)) = (Build_shr_record m false false, e + Zpos n)).
    { unfold shr. destruct (fexp64 _ - _) eqn:X; try lia; reflexivity. }
    rewrite Sx. cbn [shr_m].
    replace (e + Zpos n <=? 1024 - 53) with true by (symmetry; apply Z.leb_le; lia).
    split; [reflexivity|]. split; [lia|]. right. exists (Zpos n), m. split; [lia|]. split; [lia|]. split; [exact R|]. left. lia.
Qed.

(** ** Powers of two *)

Local Open Scope Q_scope.

Lemma two_pos e : 0 < 2 ^ e.
Proof. apply Qpower_0_lt. reflexivity. Qed.
Lemma two_add a b : 2 ^ (a + b) == 2 ^ a * 2 ^ b.
Proof. apply Qpower_plus. discriminate. Qed.
Lemma two_Z n : (0 <= n)%Z -> inject_Z (2 ^ n) == 2 ^ n.
Proof. intros H. rewrite Zpower_Qpower by exact H. reflexivity. Qed.
Lemma two_mono a b : (a <= b)%Z -> 2 ^ a <= 2 ^ b.
Proof.
  intros H. replace b with (a + (b - a))%Z by lia. rewrite two_add, <- (two_Z (b - a)) by lia.
  assert (X := two_pos a). assert (Y : (1 <= 2 ^ (b - a))%Z) by (pose proof (pow2_pos (b - a)); lia).
  rewrite Zle_Qle in Y. change (inject_Z 1) with 1 in Y. nra.
Qed.

Definition u : Q := 2 ^ (-53).
Definition eta : Q := 2 ^ (-1075).
Lemma u_pos : 0 < u. Proof. apply two_pos. Qed.
Lemma eta_pos : 0 < eta. Proof. apply two_pos. Qed.
Lemma u_small : u < 1. Proof. reflexivity. Qed.
Global Opaque u eta.

(** ** Rounding *)

Definition nonnegative (x : f64) : Prop :=
  match x with S754_zero false | S754_finite false _ _ => True | _ => False end.
Definition num (m e : Z) : Q := inject_Z m * 2 ^ e.

Lemma num_finite m e : value (S754_finite false m e) = num (Zpos m) e.
Proof. reflexivity. Qed.
Lemma num_pos m e : (0 <= m)%Z -> 0 <= num m e.
Proof.
  intros H. unfold num. assert (X := two_pos e). rewrite Zle_Qle in H. change (inject_Z 0) with 0 in H. nra.
Qed.
Lemma value_nonneg x : nonnegative x -> 0 <= value x.
Proof.
  destruct x as [[]|[]| |[] m e]; cbn [nonnegative]; try tauto; intros _; [apply Qle_refl|].
  rewrite num_finite. apply num_pos. lia.
Qed.

(** [y] is [v] rounded. *)
Definition rounded (v y : Q) : Prop :=
  v - (v * u + eta) <= y <= v + (v * u + eta) /\
  (2 ^ (-1021) <= v -> v - v * u <= y <= v + v * u).

Lemma rounded_refl v y : 0 <= v -> y == v -> rounded v y.
Proof. intros H E. unfold rounded. rewrite E. pose proof u_pos. pose proof eta_pos. repeat split; nra. Qed.

Lemma rounded_eq v w y : v == w -> rounded v y -> rounded w y.
Proof. unfold rounded. intros E H. rewrite E in H. exact H. Qed.

Lemma round_aux_err p e : (Z.log2 (Zpos p) + e < 965)%Z ->
  nonnegative (binary_round_aux 53 1024 false (Zpos p) e loc_Exact) /\
  rounded (num (Zpos p) e) (value (binary_round_aux 53 1024 false (Zpos p) e loc_Exact)).
Proof.
  intros L. destruct (round_aux_int p e L) as (m1 & e1 & -> & Hm & C).
  assert (V : forall m1 e1, (0 <= m1)%Z ->
    let z := match m1 with Z0 => S754_zero false | Zpos q => S754_finite false q e1 | Zneg _ => S754_nan end in
    nonnegative z /\ value z == num m1 e1).
  { clear. intros m1 e1 H. destruct m1 as [|q|q]; [| |lia]; split; try exact I.
    - unfold num. cbn [value]. change (inject_Z 0) with 0. ring.
    - reflexivity. }
  destruct (V m1 e1 Hm) as [V1 V2]. cbv zeta in V1, V2. split; [exact V1|]. clear V V1.
  destruct C as [(_ & -> & ->)|(n & m & Hn & E & D & C)].
  { apply rounded_refl; [apply num_pos; lia|exact V2]. }
  assert (X : num m1 e1 == inject_Z m * 2 ^ n * 2 ^ e).
  { unfold num. destruct C as [[-> ->]|[-> ->]].
    - rewrite two_add. ring.
    - rewrite !two_add, inject_Z_mult. change (2 ^ 1) with 2. ring. }
  unfold rounded. rewrite V2, X. clear V2 X C.
  rewrite fexp64_eq in E.
  assert (B : 2 ^ (e + n - 1) <= num (Zpos p) e * u + eta /\
              (2 ^ (-1021) <= num (Zpos p) e -> 2 ^ (e + n - 1) <= num (Zpos p) e * u)).
  { assert (Y' : num (Zpos p) e < 2 ^ (Z.log2 (Zpos p) + e + 1)).
    { unfold num. replace (Z.log2 (Zpos p) + e + 1)%Z with (Z.succ (Z.log2 (Zpos p)) + e)%Z by lia.
      rewrite two_add. assert (Z := two_pos e). rewrite <- (two_Z (Z.succ (Z.log2 (Zpos p)))) by (pose proof (Z.log2_nonneg (Zpos p)); lia).
      assert (W : (Zpos p < 2 ^ Z.succ (Z.log2 (Zpos p)))%Z) by (apply Z.log2_spec; lia). rewrite Zlt_Qlt in W. nra. }
    assert (Y : 2 ^ (Z.log2 (Zpos p) + e) <= num (Zpos p) e).
    { unfold num. rewrite two_add. assert (Z := two_pos e). rewrite <- two_Z by apply Z.log2_nonneg.
      assert (W : (2 ^ Z.log2 (Zpos p) <= Zpos p)%Z) by (apply Z.log2_spec; lia). rewrite Zle_Qle in W. nra. }
    assert (U := u_pos). assert (T := eta_pos).
    assert (Z0 := num_pos (Zpos p) e ltac:(lia)).
    destruct (Z.le_gt_cases (Z.log2 (Zpos p) + e - 53) (-1075)) as [G|G].
    - replace (e + n - 1)%Z with (-1075)%Z by lia. change (2 ^ (-1075)) with eta.
      split; [nra|]. intros K. exfalso. assert (M := two_mono (Z.log2 (Zpos p) + e + 1) (-1021) ltac:(lia)). lra.
    - replace (e + n - 1)%Z with (Z.log2 (Zpos p) + e + -53)%Z by lia. rewrite two_add. change (2 ^ (-53)) with u. split; [nra|]. intros _. nra. }
  replace (e + n - 1)%Z with (e + (n + -1))%Z in B by lia. rewrite !two_add in B. change (2 ^ (-1)) with (1 # 2) in B.
  assert (D1 : (2 * (m * 2 ^ n - Zpos p) <= 2 ^ n)%Z) by lia.
  assert (D2 : (- 2 ^ n <= 2 * (m * 2 ^ n - Zpos p))%Z) by lia.
  assert (N0 : (0 <= n)%Z) by lia.
  rewrite Zle_Qle in D1, D2. unfold Zminus in D1, D2.
  rewrite !inject_Z_mult, inject_Z_plus, inject_Z_mult, !inject_Z_opp, !two_Z in D1, D2 by exact N0.
  repeat rewrite inject_Z_opp in D2. rewrite ?two_Z in D2 by exact N0.
  change (inject_Z 2) with 2 in *. unfold num in *.
  assert (Te := two_pos e). assert (Tn := two_pos n).
  revert B D1 D2 Te Tn. generalize (2 ^ e) (2 ^ n) (inject_Z m) (inject_Z (Zpos p)) (2 ^ (-1021)). clear. intros a b x y w [B1 B2] D1 D2 A0 B0.
  apply (Qmult_le_compat_r _ _ a) in D1; [|lra]. apply (Qmult_le_compat_r _ _ a) in D2; [|lra].
  split; [split; lra|]. intros K. specialize (B2 K). split; lra.
Qed.

Lemma shl_num m e e' : (e' <= e)%Z -> num (Zpos (fst (shl_align m e e'))) e' == num (Zpos m) e.
Proof.
  intros L. unfold shl_align. destruct (e' - e)%Z as [|k|k] eqn:E; cbn [fst]; try lia.
  - replace e' with e by lia. reflexivity.
  - unfold num. rewrite shift_pos_eq, inject_Z_mult, two_Z by lia. replace e with (Zpos k + e')%Z by lia.
    rewrite two_add. ring.
Qed.

Lemma num_log p e n : num (Zpos p) e < 2 ^ n -> (Z.log2 (Zpos p) + e < n)%Z.
Proof.
  intros H. apply Z.nle_gt. intros G. apply two_mono in G. rewrite two_add in G.
  assert (W : (2 ^ Z.log2 (Zpos p) <= Zpos p)%Z) by (apply Z.log2_spec; lia).
  rewrite Zle_Qle, two_Z in W by apply Z.log2_nonneg. unfold num in H. assert (X := two_pos e). nra.
Qed.

Lemma binary_round_err p e : num (Zpos p) e < 2 ^ 965 ->
  nonnegative (binary_round 53 1024 false p e) /\
  rounded (num (Zpos p) e) (value (binary_round 53 1024 false p e)).
Proof.
  intros L. unfold binary_round. rewrite digits2_log2. set (e' := fexp64 _). unfold shl_align.
  destruct (e' - e)%Z as [|k|k] eqn:E.
  1, 2: apply round_aux_err, num_log, L.
  assert (X := shl_num p e e' ltac:(lia)). unfold shl_align in X. rewrite E in X. cbn [fst] in X.
  destruct (round_aux_err (shift_pos k p) e') as [A B].
  { apply num_log. rewrite X. exact L. }
  split; [exact A|]. eapply rounded_eq; [exact X|exact B].
Qed.

Theorem mul_err x y : nonnegative x -> nonnegative y -> value x * value y < 2 ^ 965 ->
  nonnegative (f64_mul x y) /\ rounded (value x * value y) (value (f64_mul x y)).
Proof.
  intros Hx Hy L. assert (X0 := value_nonneg x Hx). assert (Y0 := value_nonneg y Hy).
  destruct x as [[]|[]| |[] mx ex]; cbn [nonnegative] in Hx; try tauto.
  { destruct y as [[]|[]| |[] my ey]; cbn [nonnegative] in Hy; try tauto;
      (split; [exact I|apply rounded_refl; [nra|cbn [f64_mul SFmul value]; ring]]). }
  destruct y as [[]|[]| |[] my ey]; cbn [nonnegative] in Hy; try tauto.
  { split; [exact I|apply rounded_refl; [nra|cbn [f64_mul SFmul value]; ring]]. }
  unfold f64_mul, SFmul. cbn [xorb]. rewrite !num_finite in *.
  assert (E : num (Zpos (mx * my)) (ex + ey) == num (Zpos mx) ex * num (Zpos my) ey).
  { unfold num. rewrite Pos2Z.inj_mul, inject_Z_mult, two_add. ring. }
  destruct (round_aux_err (mx * my) (ex + ey)) as [A B].
  { apply num_log. rewrite E. exact L. }
  split; [exact A|]. eapply rounded_eq; [exact E|exact B].
Qed.

Theorem add_err x y : nonnegative x -> nonnegative y -> value x + value y < 2 ^ 965 ->
  nonnegative (f64_add x y) /\ rounded (value x + value y) (value (f64_add x y)).
Proof.
  intros Hx Hy L. assert (X0 := value_nonneg x Hx). assert (Y0 := value_nonneg y Hy).
  destruct x as [[]|[]| |[] mx ex]; cbn [nonnegative] in Hx; try tauto.
  { destruct y as [[]|[]| |[] my ey]; cbn [nonnegative] in Hy; try tauto;
      (split; [exact I|apply rounded_refl; [nra|cbn [f64_add SFadd value Bool.eqb]; ring]]). }
  destruct y as [[]|[]| |[] my ey]; cbn [nonnegative] in Hy; try tauto.
  { split; [exact I|apply rounded_refl; [nra|cbn [f64_add SFadd value Bool.eqb]; ring]]. }
  unfold f64_add, SFadd. cbn [cond_Zopp]. set (ez := Z.min ex ey).
  assert (A := shl_num mx ex ez ltac:(lia)). assert (B := shl_num my ey ez ltac:(lia)).
  rewrite <- Pos2Z.inj_add. cbn [binary_normalize]. rewrite !num_finite in *.
  assert (E : num (Zpos (fst (shl_align mx ex ez) + fst (shl_align my ey ez))) ez == num (Zpos mx) ex + num (Zpos my) ey).
  { rewrite <- A, <- B. unfold num. rewrite Pos2Z.inj_add, inject_Z_plus. ring. }
  destruct (binary_round_err (fst (shl_align mx ex ez) + fst (shl_align my ey ez)) ez) as [R1 R2].
  { rewrite E. exact L. }
  split; [exact R1|]. eapply rounded_eq; [exact E|exact R2].
Qed.
