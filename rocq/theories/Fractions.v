(** How accurate the values of fractions and whole literals are. *)
From Coq Require Import List NArith ZArith QArith Qabs Qpower Lqa Lia Bool Floats.SpecFloat.
From Verif Require Import Base Tokens SpecTokens Tokenizer SpecNumbers ByteFacts FloatFacts NumberFacts Rounding Accuracy.
Import ListNotations.
Local Open Scope Q_scope.

(** ** The factors *)

Fixpoint fac (k : nat) : f64 := match k with O => f64_tenth | S k' => f64_div (fac k') (f64_of_Z 10) end.
Fixpoint factors (n : nat) (f : f64) : list f64 :=
  match n with O => [] | S n' => f :: factors n' (f64_div f (f64_of_Z 10)) end.

Fixpoint fac_from (f : f64) (k : nat) : f64 := match k with O => f | S k' => fac_from (f64_div f (f64_of_Z 10)) k' end.
Lemma fac_from_S f k : fac_from f (S k) = f64_div (fac_from f k) (f64_of_Z 10).
Proof. revert f. induction k as [|k IH]; intros f; [reflexivity|]. change (fac_from f (S (S k))) with (fac_from (f64_div f (f64_of_Z 10)) (S k)). rewrite IH. reflexivity. Qed.
Lemma fac_from_fac k : fac_from f64_tenth k = fac k.
Proof. induction k as [|k IH]; [reflexivity|]. rewrite fac_from_S, IH. reflexivity. Qed.
Lemma factors_nth n f k : (k < n)%nat -> nth k (factors n f) S754_nan = fac_from f k.
Proof.
  revert f k. induction n as [|n IH]; intros f k H; [lia|]. destruct k as [|k]; [reflexivity|]. cbn [factors nth fac_from]. apply IH. lia.
Qed.

(** Bounds checked by computation, in integers: [f] is [m / 2^p]; either it is close to
    [1 / ten] in proportion to it, or the difference is at most [theta]. *)
Definition good (k : nat) (ten : positive) (f : f64) : bool :=
  match f with
  | S754_zero false => Z.leb (2 ^ 1050) (Zpos ten)
  | S754_finite false m (Zneg p) =>
    let two := Pos.shiftl 1 (Npos p) in
    let product := Zpos (m * ten) in
    Z.leb (Zpos (two * (9007199254740992000 - 999 * Pos.of_succ_nat k))) (product * 9007199254740992000) &&
    Z.leb (product * 9007199254740992) (Zpos (two * (9007199254740992 + Pos.of_succ_nat k))) ||
    Pos.leb 1050 p &&
    Z.leb (Z.abs (product - Zpos two)) (Zpos (Pos.shiftl ten (Npos p - 1050)))
  | _ => false
  end.
Fixpoint all_good (k : nat) (ten : positive) (l : list f64) : bool :=
  match l with
  | [] => true
  | f :: l' => good k ten f && all_good (S k) (ten * 10) l'
  end.

Lemma factors_good : all_good 0 10 (factors 330 f64_tenth) = true.
Proof. vm_cast_no_check (eq_refl true). Qed.

Lemma up_bernoulli_ge k : 1 + qn k * u <= up k.
Proof.
  induction k as [|k IH]; [change (qn 0) with 0; change (up 0) with 1; lra|].
  rewrite up_S, qn_S. pose proof u_pos. pose proof (qn_nonneg k).
  assert (0 <= qn k * u * u) by (apply Qmult_le_0_compat; [apply Qmult_le_0_compat|]; lra). nra.
Qed.
Lemma dn_upper k : (k <= 4096)%nat -> dn k <= 1 - qn k * u * (999 # 1000).
Proof.
  induction k as [|k IH]; intros H; [change (qn 0) with 0; change (dn 0) with 1; lra|].
  specialize (IH ltac:(lia)). rewrite dn_S, qn_S. pose proof u_pos. pose proof u_small.
  assert (K := small_k k ltac:(lia)).
  assert (A : dn k * (1 - u) <= (1 - qn k * u * (999 # 1000)) * (1 - u)) by (apply Qmult_le_compat_r; lra).
  assert (B : qn k * u * u <= (1 # 1000) * u) by (apply Qmult_le_compat_r; lra). lra.
Qed.

Definition tenth (k : nat) : Q := qpow (1 # 10) k.
Lemma tenth_nonneg k : 0 <= tenth k.
Proof. apply qpow_nonneg. lra. Qed.
Lemma tenth_S k : tenth (S k) == tenth k * (1 # 10).
Proof. unfold tenth. cbn [qpow]. ring. Qed.

Lemma scale_le a b z : 0 < z -> a * z <= b * z -> a <= b.
Proof. intros Z. apply Qmult_le_r. exact Z. Qed.
Lemma shiftl_two (q p : positive) : inject_Z (Zpos (Pos.shiftl q (Npos p))) == inject_Z (Zpos q) * 2 ^ Zpos p.
Proof.
  rewrite <- two_Z by lia. rewrite <- inject_Z_mult.
  assert (E : Zpos (Pos.shiftl q (Npos p)) = (Zpos q * 2 ^ Zpos p)%Z).
  { cbn [Pos.shiftl]. induction p as [|p IH] using Pos.peano_ind; [cbn; lia|].
    rewrite Pos.iter_succ, Pos2Z.inj_succ, Z.pow_succ_r by lia. rewrite Pos2Z.inj_xO, IH. lia. }
  rewrite E. reflexivity.
Qed.
Lemma neg_two p : 2 ^ Zneg p * 2 ^ Zpos p == 1.
Proof. rewrite <- two_add. change (Zneg p) with (- Zpos p)%Z. rewrite Z.add_opp_diag_l. reflexivity. Qed.
Lemma one_over ten : (1 # ten) * inject_Z (Zpos ten) == 1.
Proof. unfold Qeq, inject_Z. cbn. lia. Qed.
Lemma succ_qn k : inject_Z (Zpos (Pos.of_succ_nat k)) == qn (S k).
Proof. unfold qn. rewrite Zpos_P_of_succ_nat, Nat2Z.inj_succ. reflexivity. Qed.
Lemma u_53 : u * inject_Z 9007199254740992 == 1.
Proof. vm_compute. reflexivity. Qed.

Lemma good_sound k ten f : (k < 4096)%nat -> good k ten f = true ->
  nonnegative f /\ (1 # ten) * (1 - qn (S k) * u * (999 # 1000)) - theta <= value f <= (1 # ten) * (1 + qn (S k) * u) + theta.
Proof.
  intros K H. assert (T := theta_pos). assert (Up := u_pos). assert (KN := qn_nonneg (S k)). assert (Sk := small_k (S k) ltac:(lia)).
  assert (X0 : 0 < 1 # ten) by reflexivity.
  assert (Uk : 0 <= qn (S k) * u) by (apply Qmult_le_0_compat; lra).
  assert (M1 : (1 # ten) * (1 - qn (S k) * u * (999 # 1000)) <= 1 # ten).
  { rewrite <- (Qmult_1_r (1 # ten)) at 2. rewrite !(Qmult_comm (1 # ten)). apply Qmult_le_compat_r; lra. }
  assert (M2 : 1 # ten <= (1 # ten) * (1 + qn (S k) * u)).
  { rewrite <- (Qmult_1_r (1 # ten)) at 1. rewrite !(Qmult_comm (1 # ten)). apply Qmult_le_compat_r; lra. }
  assert (TN : 0 < inject_Z (Zpos ten)) by reflexivity.
  assert (O1 := one_over ten).
  destruct f as [[]|[]| |[] m [|q|p]]; try discriminate; unfold good in H.
  - split; [exact I|]. cbn [value]. apply Z.leb_le in H. rewrite Zle_Qle in H.
    rewrite two_Z in H by lia.
    assert (E : theta * 2 ^ 1050 == 1) by (change theta with (2 ^ Zneg 1050); apply neg_two).
    assert (L : 1 # ten <= theta).
    { apply (scale_le _ _ (inject_Z (Zpos ten) * 2 ^ 1050)); [apply Qmult_lt_0_compat; [exact TN|apply two_pos]|].
      rewrite Qmult_assoc, O1. rewrite (Qmult_comm (inject_Z (Zpos ten))), Qmult_assoc, E. rewrite !Qmult_1_l. exact H. }
    split; lra.
  - split; [exact I|]. cbn [value]. cbv zeta in H.
    assert (P0 := two_pos (Zpos p)). assert (NT := neg_two p).
    set (v := inject_Z (Zpos m) * 2 ^ Zneg p) in *. set (P := 2 ^ Zpos p) in *. set (D := inject_Z (Zpos ten)) in *.
    set (x := 1 # ten) in *.
    assert (VP : v * P == inject_Z (Zpos m)) by (unfold v; rewrite <- Qmult_assoc, NT; ring).
    assert (PD : 0 < P * D) by (apply Qmult_lt_0_compat; assumption).
    assert (VD : v * (P * D) == inject_Z (Zpos m) * D) by (rewrite Qmult_assoc, VP; reflexivity).
    assert (XD : forall c, x * c * (P * D) == P * c).
    { intros c. setoid_replace (x * c * (P * D)) with (x * D * (P * c)) by ring. rewrite O1. ring. }
    assert (Pr : inject_Z (Zpos (m * ten)) == inject_Z (Zpos m) * D) by (rewrite Pos2Z.inj_mul, inject_Z_mult; reflexivity).
    assert (TP : inject_Z (Zpos (Pos.shiftl 1 (Npos p))) == P) by (rewrite shiftl_two; unfold P; change (inject_Z 1) with 1; ring).
    apply orb_true_iff in H as [H|H]; apply andb_true_iff in H as [H1 H2].
    + apply Z.leb_le in H1, H2. rewrite Zle_Qle in H1, H2.
      rewrite (Pos2Z.inj_mul (Pos.shiftl 1 (Npos p))), !inject_Z_mult, TP, Pr in H1.
      rewrite (Pos2Z.inj_mul (Pos.shiftl 1 (Npos p))), !inject_Z_mult, TP, Pr in H2.
      rewrite Pos2Z.inj_sub in H1 by lia. rewrite Pos2Z.inj_mul in H1. rewrite Pos2Z.inj_add in H2.
      unfold Z.sub in H1. rewrite inject_Z_plus in H1, H2. rewrite inject_Z_opp, inject_Z_mult, succ_qn in H1. rewrite succ_qn in H2.
      set (M := inject_Z (Zpos m) * D) in *. set (n := qn (S k)) in *.
      assert (U := u_53).
      assert (L1 : x * (1 - n * u * (999 # 1000)) <= v).
      { apply (scale_le _ _ (P * D)); [exact PD|]. rewrite XD, VD.
        apply (scale_le _ _ (inject_Z 9007199254740992000)); [reflexivity|].
        setoid_replace (P * (1 - n * u * (999 # 1000)) * inject_Z 9007199254740992000)
          with (P * (inject_Z 9007199254740992000 - 999 * n * (u * inject_Z 9007199254740992))).
        2: { setoid_replace (inject_Z 9007199254740992000) with (1000 * inject_Z 9007199254740992) by reflexivity. ring. }
        rewrite U. setoid_replace (999 * n * 1) with (inject_Z 999 * n) by (change (inject_Z 999) with 999; ring). exact H1. }
      assert (L2 : v <= x * (1 + n * u)).
      { apply (scale_le _ _ (P * D)); [exact PD|]. rewrite XD, VD.
        apply (scale_le _ _ (inject_Z 9007199254740992)); [reflexivity|].
        setoid_replace (P * (1 + n * u) * inject_Z 9007199254740992)
          with (P * (inject_Z 9007199254740992 + n * (u * inject_Z 9007199254740992))) by ring.
        rewrite U, Qmult_1_r. exact H2. }
      split; lra.
    + apply Pos.leb_le in H1. apply Z.leb_le in H2.
      assert (L : (Zpos (m * ten) - Zpos (Pos.shiftl 1 (Npos p)) <= Zpos (Pos.shiftl ten (Npos p - 1050)) /\
                   Zpos (Pos.shiftl 1 (Npos p)) - Zpos (m * ten) <= Zpos (Pos.shiftl ten (Npos p - 1050)))%Z) by lia.
      clear H2. destruct L as [L1 L2]. rewrite Zle_Qle in L1, L2. unfold Z.sub in L1, L2.
      rewrite inject_Z_plus, inject_Z_opp, TP, Pr in L1, L2.
      assert (TS : inject_Z (Zpos (Pos.shiftl ten (Npos p - 1050))) == theta * (P * D)).
      { change theta with (2 ^ (-1050)). unfold P. rewrite Qmult_assoc, <- two_add.
        destruct (Npos p - 1050)%N as [|q] eqn:Q.
        - assert (Zpos p = 1050%Z) by lia. rewrite H. cbn [Pos.shiftl]. change (2 ^ (-1050 + 1050)) with 1. unfold D. ring.
        - rewrite shiftl_two. replace (-1050 + Zpos p)%Z with (Zpos q) by lia. unfold D. ring. }
      rewrite TS in L1, L2.
      assert (A1 : v - x <= theta).
      { apply (scale_le _ _ (P * D)); [exact PD|].
        setoid_replace ((v - x) * (P * D)) with (v * (P * D) - x * 1 * (P * D)) by ring. rewrite XD, VD. lra. }
      assert (A2 : x - v <= theta).
      { apply (scale_le _ _ (P * D)); [exact PD|].
        setoid_replace ((x - v) * (P * D)) with (x * 1 * (P * D) - v * (P * D)) by ring. rewrite XD, VD. lra. }
      split; lra.
Qed.

Lemma good_approx k ten f : (k < 4096)%nat -> good k ten f = true -> 1 # ten == tenth (S k) ->
  nonnegative f /\ approx (S k) 1 (tenth (S k)) (value f).
Proof.
  intros K H E. destruct (good_sound k ten f K H) as [NN [H1 H2]]. rewrite E in H1, H2.
  split; [exact NN|].
  assert (T := tenth_nonneg (S k)). split; [exact T|].
  assert (A := up_bernoulli_ge (S k)). assert (B := dn_upper (S k) ltac:(lia)). change (qn 1) with 1.
  assert (A' : (1 + qn (S k) * u) * tenth (S k) <= up (S k) * tenth (S k)) by (apply Qmult_le_compat_r; assumption).
  assert (B' : dn (S k) * tenth (S k) <= (1 - qn (S k) * u * (999 # 1000)) * tenth (S k)) by (apply Qmult_le_compat_r; assumption).
  split; lra.
Qed.

Lemma all_good_nth l : forall k ten i, (k + length l <= 4096)%nat -> all_good k ten l = true -> 1 # ten == tenth (S k) -> (i < length l)%nat ->
  nonnegative (nth i l S754_nan) /\ approx (S (k + i)) 1 (tenth (S (k + i))) (value (nth i l S754_nan)).
Proof.
  induction l as [|f l IH]; intros k ten i K H E L; cbn [length] in *; [lia|].
  cbn [all_good] in H. apply andb_true_iff in H as [H1 H2]. destruct i as [|i].
  - rewrite Nat.add_0_r. cbn [nth]. apply (good_approx k ten); [lia|assumption|exact E].
  - cbn [nth]. replace (k + S i)%nat with (S k + i)%nat by lia. apply (IH (S k) (ten * 10)%positive); [lia|exact H2| |lia].
    rewrite tenth_S, <- E. reflexivity.
Qed.

Lemma factors_length n f : length (factors n f) = n.
Proof. revert f. induction n as [|n IH]; intros f; cbn; [reflexivity|]. now rewrite IH. Qed.

Lemma fac_approx k : (k < 330)%nat -> nonnegative (fac k) /\ approx (S k) 1 (tenth (S k)) (value (fac k)).
Proof.
  intros H. rewrite <- fac_from_fac, <- (factors_nth 330) by exact H.
  apply (all_good_nth (factors 330 f64_tenth) 0 10 k); rewrite ?factors_length.
  - lia.
  - apply factors_good.
  - reflexivity.
  - exact H.
Qed.

Lemma fac_zero k : (330 <= k)%nat -> fac k = S754_zero false.
Proof.
  induction 1 as [|k _ IH].
  - rewrite <- fac_from_fac. vm_compute. reflexivity.
  - cbn [fac]. rewrite IH. reflexivity.
Qed.

(** ** The sum *)

(** The number that the digits [ds] stand for behind [k] other digits. *)
Fixpoint tail (k : nat) (ds : bytes) : Q :=
  match ds with
  | [] => 0
  | d :: ds' => qn (N.to_nat (d - 48)) * tenth (S k) + tail (S k) ds'
  end.

Lemma tail_bound ds : Forall digit ds -> forall k, 0 <= tail k ds <= tenth k.
Proof.
  induction 1 as [|d ds Hd _ IH]; intros k; cbn [tail].
  - split; [lra|apply tenth_nonneg].
  - specialize (IH (S k)). rewrite tenth_S in *. unfold digit in Hd. assert (T := tenth_nonneg k).
    assert (A := qn_nonneg (N.to_nat (d - 48))). assert (B : qn (N.to_nat (d - 48)) <= 9) by (change 9 with (qn 9); apply qn_le; lia).
    revert A B. generalize (qn (N.to_nat (d - 48))). intros q A B.
    assert (0 <= q * (tenth k * (1 # 10))) by (apply Qmult_le_0_compat; lra).
    assert (q * (tenth k * (1 # 10)) <= 9 * (tenth k * (1 # 10))) by (apply Qmult_le_compat_r; lra). lra.
Qed.

Lemma valueZ_acc a ds : (valueZ 10 a ds = a * 10 ^ Z.of_nat (length ds) + valueZ 10 0 ds)%Z.
Proof.
  revert a. induction ds as [|d ds IH]; intros a; cbn [length]; [unfold valueZ; cbn [fold_left]; lia|].
  change (valueZ 10 a (d :: ds)) with (valueZ 10 (a * 10 + Z.of_N (d - 48)) ds).
  change (valueZ 10 0 (d :: ds)) with (valueZ 10 (Z.of_N (d - 48)) ds).
  rewrite IH, (IH (Z.of_N (d - 48))), Nat2Z.inj_succ, Z.pow_succ_r by lia. ring.
Qed.

Lemma ten_tenth n : inject_Z (10 ^ Z.of_nat n) * tenth n == 1.
Proof.
  induction n as [|n IH]; [reflexivity|]. rewrite tenth_S, Nat2Z.inj_succ, Z.pow_succ_r, inject_Z_mult by lia.
  change (inject_Z 10) with 10. setoid_replace (10 * inject_Z (10 ^ Z.of_nat n) * (tenth n * (1 # 10))) with (inject_Z (10 ^ Z.of_nat n) * tenth n) by ring. exact IH.
Qed.
Lemma tenth_add a b : tenth (a + b) == tenth a * tenth b.
Proof. induction a as [|a IH]; cbn [Nat.add]; [change (tenth 0) with 1; ring|]. rewrite !tenth_S, IH. ring. Qed.

Lemma tail_value ds : forall k, tail k ds == inject_Z (valueZ 10 0 ds) * tenth (k + length ds).
Proof.
  induction ds as [|d ds IH]; intros k; cbn [tail length].
  - change (inject_Z (valueZ 10 0 [])) with 0. ring.
  - rewrite IH. change (valueZ 10 0 (d :: ds)) with (valueZ 10 (Z.of_N (d - 48)) ds).
    rewrite (valueZ_acc (Z.of_N (d - 48))), inject_Z_plus, inject_Z_mult.
    replace (k + S (length ds))%nat with (S k + length ds)%nat by lia.
    unfold qn. rewrite N_nat_Z. rewrite (tenth_add (S k) (length ds)).
    setoid_replace ((inject_Z (Z.of_N (d - 48)) * inject_Z (10 ^ Z.of_nat (length ds)) + inject_Z (valueZ 10 0 ds)) * (tenth (S k) * tenth (length ds)))
      with (inject_Z (Z.of_N (d - 48)) * tenth (S k) * (inject_Z (10 ^ Z.of_nat (length ds)) * tenth (length ds)) + inject_Z (valueZ 10 0 ds) * (tenth (S k) * tenth (length ds))) by ring.
    rewrite ten_tenth. ring.
Qed.

Lemma frac_step k s v d : (k < 330)%nat -> (48 <= d <= 57)%N -> nonnegative v -> s <= 1 ->
  approx (k + 2) (11 * k) s (value v) ->
  let w := f64_add v (f64_mul (fac k) (f64_of_u8 (d - 48))) in
  nonnegative w /\ approx (S k + 2) (11 * S k) (s + qn (N.to_nat (d - 48)) * tenth (S k)) (value w).
Proof.
  intros K Hd Nv Sb A w. destruct (digit_value_u8 d Hd) as (D1 & D2 & D3).
  destruct (fac_approx k K) as [F1 F2]. set (q := N.to_nat (d - 48)) in *.
  assert (T := theta_pos). assert (T1 : theta <= 1 # 10000) by (vm_compute; discriminate).
  assert (Q9 : qn q <= 9) by (change 9 with (qn 9); apply qn_le; lia). assert (Q0 := qn_nonneg q).
  assert (V0 := value_nonneg v Nv). assert (F0 := value_nonneg _ F1).
  assert (Tb : tenth (S k) <= 1).
  { rewrite tenth_S. assert (X : tenth k <= 1); [|pose proof (tenth_nonneg k); lra]. clear. induction k as [|k IH]; [apply Qle_refl|]. rewrite tenth_S. pose proof (tenth_nonneg k). lra. }
  assert (Big : 100 <= 2 ^ 965) by (vm_compute; discriminate).
  assert (Fb : value (fac k) <= 3).
  { destruct F2 as (_ & _ & X). change (qn 1) with 1 in X. pose proof (up_two (S k) ltac:(lia)). pose proof (tenth_nonneg (S k)). nra. }
  assert (Vb : value v <= 3).
  { destruct A as (S0 & _ & X). pose proof (up_two (k + 2) ltac:(lia)).
    assert (qn (11 * k) <= 4000) by (change 4000 with (qn 4000); apply qn_le; lia).
    assert (qn (11 * k) * theta <= 4000 * theta) by (apply Qmult_le_compat_r; lra).
    assert (s * up (k + 2) <= 1 * 2) by (apply Qmult_le_compat_nonneg; pose proof (up_ge (k + 2)); lra). lra. }
  destruct (mul_err (fac k) (f64_of_u8 (d - 48)) F1 D1) as [M1 M2].
  { rewrite D2. assert (value (fac k) * qn q <= 3 * 9) by (apply Qmult_le_compat_nonneg; lra). lra. }
  set (t := f64_mul (fac k) (f64_of_u8 (d - 48))) in *.
  assert (At : approx (S (S k)) 10 (tenth (S k) * qn q) (value t)).
  { apply (approx_weaken (S (S k)) (S (q * 1))); [|lia|lia].
    eapply approx_round; [apply (approx_scale _ _ _ _ q F2)|nra| |lia].
    eapply rounded_eq; [|exact M2]. rewrite D2. reflexivity. }
  assert (T0 := value_nonneg t M1).
  assert (Tb2 : value t <= 27).
  { destruct At as (X0 & _ & X). pose proof (up_two (S (S k)) ltac:(lia)). change (qn 10) with 10 in X.
    assert (tenth (S k) * qn q <= 1 * 9) by (apply Qmult_le_compat_nonneg; pose proof (tenth_nonneg (S k)); lra).
    assert (tenth (S k) * qn q * up (S (S k)) <= 9 * 2) by (apply Qmult_le_compat_nonneg; pose proof (up_ge (S (S k))); lra). lra. }
  destruct (add_err v t Nv M1) as [S1 S2]; [lra|].
  split; [exact S1|].
  apply (approx_weaken (S (k + 2)) (S (11 * k + 10))); [|lia|lia].
  eapply approx_round; [|  |exact S2|lia]; [|lra].
  eapply approx_eq; [apply (approx_add (k + 2) (11 * k) _ _ 10 (tenth (S k) * qn q) (value t) A)| |reflexivity].
  - eapply approx_weaken; [exact At|lia|lia].
  - ring.
Qed.

Lemma add_zero v : nonnegative v -> f64_add v (S754_zero false) = v.
Proof. destruct v as [[]|[]| |[] m e]; cbn [nonnegative]; tauto || reflexivity. Qed.
Lemma zero_digit d : (48 <= d <= 57)%N -> f64_mul (S754_zero false) (f64_of_u8 (d - 48)) = S754_zero false.
Proof.
  intros H. destruct (digit_value_u8 d H) as (D & _). destruct (f64_of_u8 (d - 48)) as [[]|[]| |[] m e]; cbn [nonnegative] in D; tauto || reflexivity.
Qed.

Lemma frac_loop_zero ds : Forall digit ds -> forall k v i, (330 <= k)%nat -> nonnegative v ->
  fst (parse_decimal_digits_loop ds v (fac k) i) = v.
Proof.
  induction 1 as [|d ds Hd _ IH]; intros k v i K Nv; [reflexivity|]. cbn [parse_decimal_digits_loop].
  rewrite (proj2 (in_range_iff 48 57 d)) by (unfold digit in Hd; exact Hd).
  change b0 with 48%N. change (f64_div (fac k) (f64_of_Z 10)) with (fac (S k)).
  rewrite (fac_zero k K), zero_digit, add_zero by (unfold digit in Hd; assumption). apply IH; [lia|exact Nv].
Qed.

Lemma frac_loop ds : Forall digit ds -> forall k s v i, (k <= 330)%nat -> nonnegative v -> 0 <= s -> s + tenth k <= 1 ->
  approx (k + 2) (11 * k) s (value v) ->
  let w := fst (parse_decimal_digits_loop ds v (fac k) i) in
  nonnegative w /\ approx (Nat.min 330 (k + length ds) + 2) 3631 (s + tail k ds) (value w).
Proof.
  induction 1 as [|d ds Hd Hds IH]; intros k s v i K Nv S0 Sb A.
  { cbn [parse_decimal_digits_loop fst tail length]. split; [exact Nv|]. eapply approx_eq; [|symmetry; apply Qplus_0_r|reflexivity].
    eapply approx_weaken; [exact A|lia|lia]. }
  assert (Ht := tenth_nonneg k).
  destruct (Nat.eq_dec k 330) as [->|Nk].
  { cbv zeta. rewrite frac_loop_zero by (auto || constructor; assumption). split; [exact Nv|].
    assert (B := tail_bound (d :: ds) (Forall_cons _ Hd Hds) 330).
    assert (T : tenth 330 <= theta * (1 # 100)) by (vm_compute; discriminate). assert (T0 := theta_pos).
    destruct A as (_ & A1 & A2). split; [lra|]. replace (Nat.min 330 (330 + length (d :: ds)) + 2)%nat with 332%nat by lia.
    assert (U := up_ge 332). assert (Dn := dn_le 332). assert (Dn0 := dn_nonneg 332).
    change (330 + 2)%nat with 332%nat in *. change 3631%nat with (S (11 * 330)). rewrite qn_S.
    set (j := qn (11 * 330)) in *. set (t := tail 330 (d :: ds)) in *.
    assert (t * dn 332 <= t * 1) by (rewrite !(Qmult_comm t); apply Qmult_le_compat_r; lra).
    assert (0 <= t * up 332) by (apply Qmult_le_0_compat; lra). split; lra. }
  cbn [parse_decimal_digits_loop length tail]. unfold digit in Hd.
  rewrite (proj2 (in_range_iff 48 57 d)) by exact Hd. change b0 with 48%N.
  change (f64_div (fac k) (f64_of_Z 10)) with (fac (S k)).
  destruct (frac_step k s v d ltac:(lia) Hd Nv ltac:(lra) A) as [S1 S2].
  assert (Q9 : qn (N.to_nat (d - 48)) <= 9) by (change 9 with (qn 9); apply qn_le; lia). assert (Q0 := qn_nonneg (N.to_nat (d - 48))).
  assert (Ht' := tenth_nonneg (S k)).
  assert (X1 : qn (N.to_nat (d - 48)) * tenth (S k) <= 9 * tenth (S k)) by (apply Qmult_le_compat_r; lra).
  assert (X0 : 0 <= qn (N.to_nat (d - 48)) * tenth (S k)) by (apply Qmult_le_0_compat; lra).
  destruct (IH (S k) (s + qn (N.to_nat (d - 48)) * tenth (S k)) _ (S i) ltac:(lia) S1) as [R1 R2].
  - lra.
  - rewrite (tenth_S k) in *. lra.
  - exact S2.
  - split; [exact R1|]. replace (k + S (length ds))%nat with (S k + length ds)%nat by lia.
    eapply approx_eq; [exact R2| |reflexivity]. ring.
Qed.

Lemma fraction_approx fs : Forall digit fs ->
  nonnegative (fraction fs) /\
  approx (Nat.min 330 (length fs) + 2) 3631 (inject_Z (Z.of_N (digits_value 10 fs)) * (1 # 10) ^ Z.of_nat (length fs)) (value (fraction fs)).
Proof.
  intros H. destruct (frac_loop fs H 0 0 f64_zero 0) as [A B].
  - lia.
  - exact I.
  - lra.
  - change (tenth 0) with 1. lra.
  - apply (approx_weaken 0 0); [|lia|lia]. apply approx_exact; [lra|reflexivity].
  - split; [exact A|]. eapply approx_eq; [exact B| |reflexivity].
    rewrite tail_value, <- qpow_spec by discriminate. rewrite digits_value_Z. change (Z.of_N 10) with 10%Z. unfold tenth. cbn [Nat.add]. ring.
Qed.

(** ** Whole literals *)

Lemma sum_near k1 k2 j x y v w n : nonnegative v -> nonnegative w ->
  approx k1 0 x (value v) -> approx k2 j y (value w) -> (k1 <= n)%nat -> (k2 <= n)%nat -> (n <= 4000)%nat -> (j <= 4000)%nat ->
  x <= inject_Z (10 ^ 280) -> y <= 1 ->
  near (n + 2) (f64_add v w) (x + y).
Proof.
  intros Nv Nw A B K1 K2 K J Xb Yb.
  assert (V0 := value_nonneg v Nv). assert (W0 := value_nonneg w Nw).
  assert (T := theta_pos). assert (T1 : theta <= 1 # 10000) by (vm_compute; discriminate). assert (Hh := huge).
  assert (H1 : 1 <= inject_Z (10 ^ 280)) by (vm_compute; discriminate).
  assert (Vb : value v <= inject_Z (10 ^ 280) * 2).
  { destruct A as (X0 & _ & X). change (qn 0) with 0 in X. pose proof (up_two k1 ltac:(lia)). pose proof (up_ge k1).
    assert (x * up k1 <= inject_Z (10 ^ 280) * 2) by (apply Qmult_le_compat_nonneg; lra). lra. }
  assert (Wb : value w <= 3).
  { destruct B as (X0 & _ & X). pose proof (up_two k2 ltac:(lia)). pose proof (up_ge k2).
    assert (qn j <= 4000) by (change 4000 with (qn 4000); apply qn_le; lia).
    assert (qn j * theta <= 4000 * theta) by (apply Qmult_le_compat_r; lra).
    assert (y * up k2 <= 1 * 2) by (apply Qmult_le_compat_nonneg; lra). lra. }
  destruct (add_err v w Nv Nw) as [S1 S2].
  { revert Hh Vb H1. generalize (inject_Z (10 ^ 280)) (2 ^ 965). intros. lra. }
  split; [destruct (f64_add v w) as [[]|[]| |[] m e]; cbn [nonnegative] in S1; tauto|].
  replace (n + 2)%nat with (S (S n)) by lia. eapply (approx_near (S n) (S j)); [|lia|lia].
  apply (approx_round n j _ (value v + value w)); [|lra|exact S2|lia].
  apply (approx_add n 0 _ _ j).
  - eapply approx_weaken; [exact A|lia|lia].
  - eapply approx_weaken; [exact B|lia|lia].
Qed.


Lemma dot_split a b c d : Forall digit a -> Forall digit c -> a ++ 46%N :: b = c ++ 46%N :: d -> a = c /\ b = d.
Proof.
  intros H. revert c. induction H as [|x a Hx _ IH]; intros c Hc E.
  - destruct c as [|y c]; [injection E as <-; auto|]. injection E as <- _. inversion Hc as [|? ? Q _]. unfold digit in Q. lia.
  - destruct c as [|y c]; [injection E as -> _; unfold digit in Hx; lia|]. injection E as -> E.
    inversion Hc; subst. destruct (IH c) as [-> ->]; auto.
Qed.
Lemma no_dot_in ds a b : Forall digit ds -> ds <> a ++ 46%N :: b.
Proof.
  intros H ->. apply Forall_app in H as [_ H]. inversion H as [|? ? Q _]. unfold digit in Q. lia.
Qed.


Lemma digits_below ds : Forall digit ds -> (length ds <= 280)%nat -> inject_Z (Z.of_N (digits_value 10 ds)) <= inject_Z (10 ^ 280).
Proof.
  intros H L. rewrite <- Zle_Qle, digits_value_Z. pose proof (valueZ_bound 0 ds H ltac:(lia)).
  assert (10 ^ Z.of_nat (length ds) <= 10 ^ 280)%Z by (apply Z.pow_le_mono_r; lia). change (Z.of_N 10) with 10%Z. lia.
Qed.

Lemma fraction_below fs : Forall digit fs -> inject_Z (Z.of_N (digits_value 10 fs)) * (1 # 10) ^ Z.of_nat (length fs) <= 1.
Proof.
  intros H. destruct (tail_bound fs H 0) as [_ B]. change (tenth 0) with 1 in B.
  rewrite tail_value in B. rewrite <- qpow_spec by discriminate. rewrite digits_value_Z. exact B.
Qed.

Lemma near_weaken k x q l : near k x q -> 0 <= q -> (k <= l)%nat -> near l x q.
Proof.
  intros [F H] Q L. split; [exact F|]. eapply Qle_trans; [exact H|].
  assert (A := qn_le k l L). unfold qn in A.
  assert (B : inject_Z (Z.of_nat k) * q <= inject_Z (Z.of_nat l) * q) by (apply Qmult_le_compat_r; assumption).
  assert (C : inject_Z (Z.of_nat k) * q * (1 # 2) ^ 53 <= inject_Z (Z.of_nat l) * q * (1 # 2) ^ 53).
  { apply Qmult_le_compat_r; [exact B|]. vm_compute. discriminate. }
  revert C. generalize (inject_Z (Z.of_nat k) * q * (1 # 2) ^ 53) (inject_Z (Z.of_nat l) * q * (1 # 2) ^ 53) ((1 # 2) ^ 1000). intros. lra.
Qed.
Lemma near_eq k x q q' : near k x q -> q == q' -> near k x q'.
Proof. intros [F H] E. split; [exact F|]. rewrite <- E. exact H. Qed.

Lemma written_nonneg ds fs : 0 <= number_written ds fs.
Proof.
  unfold number_written. assert (A : 0 <= inject_Z (Z.of_N (digits_value 10 ds))) by (change 0 with (inject_Z 0); rewrite <- Zle_Qle; lia).
  assert (B : 0 <= inject_Z (Z.of_N (digits_value 10 fs))) by (change 0 with (inject_Z 0); rewrite <- Zle_Qle; lia).
  assert (C : 0 <= (1 # 10) ^ Z.of_nat (length fs)) by (apply Qpower_0_le; discriminate).
  assert (D := Qmult_le_0_compat _ _ B C). lra.
Qed.

Lemma zero_sum fs : Forall digit fs -> near (Nat.min 330 (length fs) + 4) (f64_add f64_zero (fraction fs)) (number_written [48%N] fs) /\
  near (Nat.min 330 (length fs) + 4) (f64_add f64_zero (fraction fs)) (number_written [] fs).
Proof.
  intros H. destruct (fraction_approx fs H) as [F1 F2].
  assert (A : near (Nat.min 330 (length fs) + 4) (f64_add f64_zero (fraction fs)) (0 + inject_Z (Z.of_N (digits_value 10 fs)) * (1 # 10) ^ Z.of_nat (length fs))).
  { replace (Nat.min 330 (length fs) + 4)%nat with (Nat.min 330 (length fs) + 2 + 2)%nat by lia.
    eapply (sum_near 0); [exact I|exact F1|apply approx_exact; [lra|reflexivity]|exact F2|lia|lia|lia|lia|vm_compute; discriminate|apply fraction_below, H]. }
  split; exact A.
Qed.

Lemma fraction_near ds fs r : Forall digit ds -> Forall digit fs -> decimal_text (ds ++ 46%N :: fs) [] r -> (length ds <= 280)%nat ->
  near (2 * length ds + Nat.min 330 (length fs) + 4) (mantissa (ds ++ 46%N :: fs)) (number_written ds fs).
Proof.
  intros Hd Hf H L. remember (ds ++ 46%N :: fs) as m eqn:Em. destruct H as [d ds' x r H1 H2 H3 H4 H5|d ds' fs' x r H1 H2 H3 H4 H5|f fs' x r H1 H2 H3|fs' x r H1 H2 H3 H4|r H1].
  - exfalso. apply (no_dot_in (d :: ds') ds fs); [|exact Em]. constructor; [unfold digit; lia|assumption].
  - destruct (dot_split (d :: ds') fs' ds fs) as [<- <-]; [constructor; [unfold digit; lia|assumption]|assumption|exact Em|].
    rewrite mantissa_fraction by assumption.
    destruct (integer_part_approx d ds' H1 H2 L) as [I1 I2]. destruct (fraction_approx fs' H3) as [F1 F2].
    apply (near_weaken (2 * length ds' + Nat.min 330 (length fs') + 2 + 2)); [|apply written_nonneg|cbn [length]; lia].
    unfold number_written. cbn [length] in L.
    eapply sum_near; [exact I1|exact F1|exact I2|exact F2|lia|lia|lia|lia|apply digits_below; [constructor; [unfold digit; lia|assumption]|cbn [length]; lia]|apply fraction_below, H3].
  - destruct (dot_split [] (f :: fs') ds fs) as [<- <-]; [constructor|assumption|exact Em|].
    apply (near_weaken (Nat.min 330 (length (f :: fs')) + 4)); [|apply written_nonneg|lia]. apply (zero_sum (f :: fs') Hf).
  - destruct (dot_split [48%N] fs' ds fs) as [<- <-]; [constructor; [unfold digit; lia|constructor]|assumption|exact Em|].
    apply (near_weaken (Nat.min 330 (length fs') + 4)); [|apply written_nonneg|lia].
    destruct fs' as [|f fs']; [|apply (zero_sum (f :: fs') Hf)].
    split; [exact I|]. vm_compute. discriminate.
  - exfalso. destruct ds as [|d [|e ds]]; discriminate.
Qed.

Lemma integer_near ds r : Forall digit ds -> decimal_text ds [] r -> (length ds <= 280)%nat ->
  near (2 * length ds) (mantissa ds) (number_written ds []).
Proof.
  intros Hd H L. remember (@nil N) as z eqn:Ez in H. destruct H as [d ds' x r H1 H2 H3 H4 H5|d ds' fs' x r H1 H2 H3 H4 H5|f fs' x r H1 H2 H3|fs' x r H1 H2 H3 H4|r H1].
  - rewrite mantissa_integer by assumption. destruct (integer_part_approx d ds' H1 H2 L) as [I1 I2].
    assert (E : number_written (d :: ds') [] == inject_Z (Z.of_N (digits_value 10 (d :: ds')))).
    { unfold number_written. change (inject_Z (Z.of_N (digits_value 10 []))) with 0. ring. }
    apply (near_eq _ _ (inject_Z (Z.of_N (digits_value 10 (d :: ds'))))); [|symmetry; exact E].
    split; [destruct (integer_part (d :: ds')) as [[]|[]| |[] m e]; cbn [nonnegative] in I1; tauto|].
    cbn [length] in *. replace (2 * S (length ds'))%nat with (S (S (2 * length ds'))) by lia.
    apply (approx_near (S (2 * length ds')) 0); [|lia|lia]. eapply approx_weaken; [exact I2|lia|lia].
  - exfalso. apply (no_dot_in _ (d :: ds') fs' Hd). reflexivity.
  - exfalso. apply (no_dot_in _ [] (f :: fs') Hd). reflexivity.
  - exfalso. apply (no_dot_in _ [48%N] fs' Hd). reflexivity.
  - split; [exact I|]. vm_compute. discriminate.
Qed.
