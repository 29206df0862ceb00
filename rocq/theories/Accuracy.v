(** How accurate the values of decimal literals are. *)
From Coq Require Import List NArith ZArith QArith Qabs Qpower Lqa Lia Bool Floats.SpecFloat.
From Verif Require Import Base Tokens SpecTokens Tokenizer SpecNumbers ByteFacts FloatFacts NumberFacts Rounding.
Import ListNotations.
Local Open Scope Q_scope.

(** ** Powers *)

Fixpoint qpow (q : Q) (k : nat) : Q := match k with O => 1 | S k' => q * qpow q k' end.

Lemma qpow_spec q k : ~ q == 0 -> qpow q k == q ^ Z.of_nat k.
Proof.
  intros H. induction k as [|k IH]; [reflexivity|]. cbn [qpow]. rewrite IH.
  replace (Z.of_nat (S k)) with (1 + Z.of_nat k)%Z by lia. rewrite Qpower_plus by exact H.
  rewrite Qpower_1_r. reflexivity.
Qed.
Lemma qpow_nonneg q k : 0 <= q -> 0 <= qpow q k.
Proof. intros H. induction k as [|k IH]; cbn [qpow]; [lra|nra]. Qed.

Definition up (k : nat) : Q := qpow (1 + u) k.
Definition dn (k : nat) : Q := qpow (1 - u) k.

Lemma up_S k : up (S k) == up k * (1 + u). Proof. unfold up. cbn [qpow]. ring. Qed.
Lemma dn_S k : dn (S k) == dn k * (1 - u). Proof. unfold dn. cbn [qpow]. ring. Qed.
Lemma up_ge k : 1 <= up k.
Proof. induction k as [|k IH]; [apply Qle_refl|]. rewrite up_S. pose proof u_pos. nra. Qed.
Lemma dn_nonneg k : 0 <= dn k.
Proof. apply qpow_nonneg. pose proof u_small. lra. Qed.
Lemma dn_le k : dn k <= 1.
Proof.
  induction k as [|k IH]; [apply Qle_refl|]. rewrite dn_S. pose proof u_pos. pose proof u_small.
  pose proof (dn_nonneg k). nra.
Qed.
Lemma up_mono k l : (k <= l)%nat -> up k <= up l.
Proof.
  induction 1 as [|l _ IH]; [apply Qle_refl|]. rewrite up_S. pose proof u_pos. pose proof (up_ge l). nra.
Qed.
Lemma dn_mono k l : (k <= l)%nat -> dn l <= dn k.
Proof.
  induction 1 as [|l _ IH]; [apply Qle_refl|]. rewrite dn_S. pose proof u_pos. pose proof u_small.
  pose proof (dn_nonneg l). nra.
Qed.

Definition qn (k : nat) : Q := inject_Z (Z.of_nat k).
Lemma qn_S k : qn (S k) == qn k + 1.
Proof. unfold qn. rewrite Nat2Z.inj_succ. unfold Z.succ. rewrite inject_Z_plus. reflexivity. Qed.
Lemma qn_nonneg k : 0 <= qn k.
Proof. unfold qn. change 0 with (inject_Z 0). rewrite <- Zle_Qle. lia. Qed.
Lemma qn_le k l : (k <= l)%nat -> qn k <= qn l.
Proof. intros H. unfold qn. rewrite <- Zle_Qle. lia. Qed.
Lemma qn_add k l : qn (k + l) == qn k + qn l.
Proof. unfold qn. rewrite Nat2Z.inj_add, inject_Z_plus. reflexivity. Qed.
Lemma qn_mul k l : qn (k * l) == qn k * qn l.
Proof. unfold qn. rewrite Nat2Z.inj_mul, inject_Z_mult. reflexivity. Qed.

Lemma dn_bernoulli k : 1 - qn k * u <= dn k.
Proof.
  induction k as [|k IH]; [change (qn 0) with 0; change (dn 0) with 1; lra|].
  rewrite dn_S, qn_S. pose proof u_pos. pose proof u_small. pose proof (qn_nonneg k).
  assert (0 <= qn k * u * u) by (apply Qmult_le_0_compat; [nra|lra]). nra.
Qed.
Lemma up_bernoulli k : up k * (1 - qn k * u) <= 1.
Proof.
  induction k as [|k IH]; [change (qn 0) with 0; change (up 0) with 1; lra|].
  rewrite up_S, qn_S. pose proof u_pos. pose proof (up_ge k). pose proof (qn_nonneg k).
  assert (A : (1 + u) * (1 - (qn k + 1) * u) <= 1 - qn k * u) by nra.
  assert (B : up k * ((1 + u) * (1 - (qn k + 1) * u)) <= up k * (1 - qn k * u)) by nra. lra.
Qed.

Lemma small_k k : (k <= 4096)%nat -> qn k * u <= 1 # 1000.
Proof.
  intros H. apply (Qle_trans _ (qn 4096 * u)).
  - pose proof (qn_le k 4096 H). pose proof u_pos. nra.
  - vm_compute. discriminate.
Qed.
Lemma small_kk k : (k <= 4096)%nat -> qn k * (qn k * u) <= 1 # 1000.
Proof.
  intros H. apply (Qle_trans _ (qn 4096 * (qn 4096 * u))).
  - pose proof (qn_le k 4096 H). pose proof u_pos. pose proof (qn_nonneg k).
    assert (qn k * u <= qn 4096 * u) by nra. assert (0 <= qn k * u) by nra. nra.
  - vm_compute. discriminate.
Qed.
Lemma up_linear k : (k <= 4096)%nat -> up k <= 1 + qn (S k) * u.
Proof.
  intros H. assert (B := up_bernoulli k). assert (K := small_k k H). assert (K2 := small_kk k H).
  rewrite qn_S. pose proof u_pos. pose proof (qn_nonneg k). pose proof (up_ge k).
  (* up <= 2, so up <= 1 + up*k*u, and again *)
  set (x := qn k * u) in *. assert (X0 : 0 <= x) by (unfold x; nra).
  assert (U2 : up k <= 2) by nra.
  assert (U3 : up k <= 1 + x + 2 * (x * x)) by nra.
  assert (X2 : x * x <= (1 # 1000) * u).
  { replace (x * x) with (qn k * u * x) by reflexivity. setoid_replace (qn k * u * x) with (qn k * x * u) by ring.
    apply Qmult_le_compat_r; lra. }
  setoid_replace ((qn k + 1) * u) with (x + u) by (unfold x; ring). lra.
Qed.

(** ** Approximations *)

Definition theta : Q := 2 ^ (-1050).
Lemma theta_pos : 0 < theta. Proof. apply two_pos. Qed.
Lemma eta_theta : eta <= (1 # 1000) * theta.
Proof. vm_compute. discriminate. Qed.
Global Opaque theta.

Definition approx (k j : nat) (x v : Q) : Prop :=
  0 <= x /\ x * dn k - qn j * theta <= v <= x * up k + qn j * theta.

Lemma approx_weaken k j x v k' j' : approx k j x v -> (k <= k')%nat -> (j <= j')%nat -> approx k' j' x v.
Proof.
  intros (X & A & B) K J. split; [exact X|]. pose proof (up_mono _ _ K). pose proof (dn_mono _ _ K).
  pose proof (qn_le _ _ J). pose proof theta_pos. split; nra.
Qed.
Lemma approx_eq k j x v y w : approx k j x v -> x == y -> v == w -> approx k j y w.
Proof. intros (X & H) E F. unfold approx. rewrite <- E, <- F. split; assumption. Qed.
Lemma approx_exact x v : 0 <= x -> v == x -> approx 0 0 x v.
Proof.
  intros X E. split; [exact X|]. change (dn 0) with 1. change (up 0) with 1. change (qn 0) with 0. rewrite E. lra.
Qed.
Lemma approx_add k j x v j' y w : approx k j x v -> approx k j' y w -> approx k (j + j') (x + y) (v + w).
Proof. intros (X & A & B) (Y & C & D). split; [lra|]. rewrite qn_add. split; lra. Qed.
Lemma approx_scale k j x v c : approx k j x v -> approx k (c * j) (x * qn c) (v * qn c).
Proof.
  intros (X & A & B). assert (C := qn_nonneg c). split; [nra|]. rewrite qn_mul. split; nra.
Qed.
Lemma approx_round k j x v y : approx k j x v -> 0 <= v -> rounded v y -> (j <= 4096)%nat -> approx (S k) (S j) x y.
Proof.
  intros (X & A & B) V ((R1 & R2) & _) J. split; [exact X|]. rewrite up_S, dn_S, qn_S.
  assert (K := small_k j J). assert (T := theta_pos). assert (E := eta_theta). assert (U := u_pos). assert (U1 := u_small).
  assert (J0 := qn_nonneg j).
  assert (H : qn j * theta * u <= (1 # 1000) * theta).
  { setoid_replace (qn j * theta * u) with (qn j * u * theta) by ring. apply Qmult_le_compat_r; lra. }
  assert (A' : (x * dn k - qn j * theta) * (1 - u) <= v * (1 - u)) by (apply Qmult_le_compat_r; lra).
  assert (B' : v * (1 + u) <= (x * up k + qn j * theta) * (1 + u)) by (apply Qmult_le_compat_r; lra).
  assert (0 <= qn j * theta * u) by (apply Qmult_le_0_compat; [apply Qmult_le_0_compat|]; lra). split; lra.
Qed.
Lemma approx_round0 k x v y : approx k 0 x v -> rounded v y -> 2 ^ (-1021) <= v -> approx (S k) 0 x y.
Proof.
  intros (X & A & B) (_ & R) V. specialize (R V) as (R1 & R2). split; [exact X|]. rewrite up_S, dn_S.
  change (qn 0) with 0 in *. assert (U := u_pos). assert (U1 := u_small).
  assert (A' : (x * dn k) * (1 - u) <= v * (1 - u)) by (apply Qmult_le_compat_r; lra).
  assert (B' : v * (1 + u) <= (x * up k) * (1 + u)) by (apply Qmult_le_compat_r; lra). split; lra.
Qed.

Lemma approx_near k j x v : approx k j x v -> (k <= 4095)%nat -> (j <= 4096)%nat ->
  Qabs (v - x) <= inject_Z (Z.of_nat (S k)) * x * (1 # 2) ^ 53 + (1 # 2) ^ 1000.
Proof.
  intros (X & A & B) K J. assert (D := dn_bernoulli k). assert (L := up_linear k ltac:(lia)).
  change (inject_Z (Z.of_nat (S k))) with (qn (S k)). rewrite qn_S in *.
  assert (E1 : (1 # 2) ^ 53 == u) by (vm_compute; reflexivity). rewrite E1.
  assert (E2 : qn j * theta <= (1 # 2) ^ 1000).
  { apply (Qle_trans _ (qn 4096 * theta)); [|vm_compute; discriminate].
    apply Qmult_le_compat_r; [apply qn_le; exact J|pose proof theta_pos; lra]. }
  assert (U := u_pos). assert (N := qn_nonneg k).
  apply Qabs_Qle_condition. revert E2. generalize ((1 # 2) ^ 1000). intros w E2.
  assert (A' : (1 - qn k * u) * x <= dn k * x) by (apply Qmult_le_compat_r; lra).
  assert (B' : up k * x <= (1 + (qn k + 1) * u) * x) by (apply Qmult_le_compat_r; lra).
  assert (0 <= x * u) by nra. split; lra.
Qed.

(** ** Integers *)

Lemma ten_value : value (f64_of_Z 10) == qn 10. Proof. vm_compute. reflexivity. Qed.
Lemma ten_nonneg : nonnegative (f64_of_Z 10). Proof. exact I. Qed.
Lemma digit_value_u8 d : (48 <= d <= 57)%N ->
  nonnegative (f64_of_u8 (d - 48)) /\ value (f64_of_u8 (d - 48)) == qn (N.to_nat (d - 48)) /\ (N.to_nat (d - 48) <= 9)%nat.
Proof.
  intros H. assert (X : (d - 48 <= 9)%N) by lia. revert X. generalize (d - 48)%N. clear. intros n H.
  assert (In n [0; 1; 2; 3; 4; 5; 6; 7; 8; 9]%N) by (cbn; lia).
  cbn [In] in H0. repeat (destruct H0 as [<-|H0]; [split; [exact I|split; [vm_compute; reflexivity|lia]]|]). destruct H0.
Qed.

Lemma huge : inject_Z (10 ^ 280) * 2 <= (1 # 100) * 2 ^ 965.
Proof. vm_compute. discriminate. Qed.
Lemma tiny : 2 ^ (-1021) <= 1 # 2.
Proof. vm_compute. discriminate. Qed.

Lemma up_two k : (k <= 4096)%nat -> up k <= 2.
Proof.
  intros H. pose proof (up_linear k H). pose proof (small_k k H). rewrite qn_S in *. pose proof u_small.
  assert (u <= 1 # 1000) by (vm_compute; discriminate). lra.
Qed.
Lemma dn_half k : (k <= 4096)%nat -> 1 # 2 <= dn k.
Proof. intros H. pose proof (dn_bernoulli k). pose proof (small_k k H). lra. Qed.

Lemma int_step k z v d : (48 <= d <= 57)%N -> nonnegative v -> approx k 0 (inject_Z z) (value v) -> (k <= 4000)%nat ->
  (1 <= z)%Z -> (z * 10 + Z.of_N (d - 48) < 10 ^ 280)%Z ->
  let w := f64_add (f64_mul v (f64_of_Z 10)) (f64_of_u8 (d - 48)) in
  nonnegative w /\ approx (S (S k)) 0 (inject_Z (z * 10 + Z.of_N (d - 48))) (value w).
Proof.
  intros Hd Nv A K Hz Hb w. destruct (digit_value_u8 d Hd) as (D1 & D2 & D3).
  assert (V0 := value_nonneg v Nv).
  assert (Z1 : 1 <= inject_Z z) by (change 1 with (inject_Z 1); rewrite <- Zle_Qle; lia).
  assert (Zb : inject_Z z * 10 + qn (N.to_nat (d - 48)) <= inject_Z (10 ^ 280)).
  { change 10 with (inject_Z 10). unfold qn. rewrite <- inject_Z_mult, <- inject_Z_plus, <- Zle_Qle. lia. }
  assert (Q0 := qn_nonneg (N.to_nat (d - 48))).
  assert (Vb : value v <= inject_Z z * 2).
  { destruct A as (X & _ & B). change (qn 0) with 0 in B. pose proof (up_two k ltac:(lia)). nra. }
  assert (Vl : 1 # 2 <= value v).
  { destruct A as (X & B & _). change (qn 0) with 0 in B. pose proof (dn_half k ltac:(lia)). nra. }
  assert (Hh := huge). assert (Ht := tiny).
  assert (Tn : qn 10 == 10) by reflexivity.
  destruct (mul_err v (f64_of_Z 10) Nv ten_nonneg) as [M1 M2].
  { rewrite ten_value, Tn. lra. }
  set (p := f64_mul v (f64_of_Z 10)) in *.
  assert (Ap : approx (S k) 0 (inject_Z z * qn 10) (value p)).
  { eapply approx_round0; [apply (approx_scale _ _ _ _ 10 A)| |].
    - eapply rounded_eq; [|exact M2]. rewrite ten_value. reflexivity.
    - rewrite Tn. lra. }
  assert (P0 := value_nonneg p M1).
  assert (Pb : value p <= inject_Z z * 10 * 2).
  { destruct Ap as (X & _ & B). change (qn 0) with 0 in B. rewrite Tn in B. pose proof (up_two (S k) ltac:(lia)). nra. }
  assert (Pl : 1 # 2 <= value p).
  { destruct Ap as (X & B & _). change (qn 0) with 0 in B. rewrite Tn in B. pose proof (dn_half (S k) ltac:(lia)). nra. }
  assert (Q9 : qn (N.to_nat (d - 48)) <= 9) by (change 9 with (qn 9); apply qn_le; lia).
  destruct (add_err p (f64_of_u8 (d - 48)) M1 D1) as [S1 S2].
  { rewrite D2. lra. }
  split; [exact S1|]. eapply approx_eq; [|symmetry|reflexivity].
  - eapply approx_round0; [|exact S2|rewrite D2; lra].
    eapply (approx_eq (S k) 0); [apply (approx_add (S k) 0 _ _ 0 (qn (N.to_nat (d - 48))) (qn (N.to_nat (d - 48))) Ap)| |].
    + eapply approx_weaken; [apply approx_exact; [exact Q0|reflexivity]|lia|lia].
    + reflexivity.
    + rewrite D2. reflexivity.
  - rewrite inject_Z_plus, inject_Z_mult. unfold qn. rewrite N_nat_Z. reflexivity.
Qed.

Lemma int_step0 k z v : nonnegative v -> approx k 0 (inject_Z z) (value v) -> (k <= 4000)%nat ->
  (1 <= z)%Z -> (z * 10 < 10 ^ 280)%Z ->
  let w := f64_mul v (f64_of_Z 10) in
  nonnegative w /\ approx (S (S k)) 0 (inject_Z (z * 10)) (value w).
Proof.
  intros Nv A K Hz Hb w.
  assert (V0 := value_nonneg v Nv).
  assert (Z1 : 1 <= inject_Z z) by (change 1 with (inject_Z 1); rewrite <- Zle_Qle; lia).
  assert (Zb : inject_Z z * 10 <= inject_Z (10 ^ 280)).
  { change 10 with (inject_Z 10). rewrite <- inject_Z_mult, <- Zle_Qle. lia. }
  assert (Vb : value v <= inject_Z z * 2).
  { destruct A as (X & _ & B). change (qn 0) with 0 in B. pose proof (up_two k ltac:(lia)). nra. }
  assert (Vl : 1 # 2 <= value v).
  { destruct A as (X & B & _). change (qn 0) with 0 in B. pose proof (dn_half k ltac:(lia)). nra. }
  assert (Hh := huge). assert (Ht := tiny).
  assert (Tn : qn 10 == 10) by reflexivity.
  destruct (mul_err v (f64_of_Z 10) Nv ten_nonneg) as [M1 M2].
  { rewrite ten_value, Tn. lra. }
  split; [exact M1|]. apply (approx_eq _ _ (inject_Z z * qn 10) (value w)); [|rewrite inject_Z_mult; reflexivity|reflexivity].
  apply (approx_weaken (S k) 0); [|lia|lia].
  eapply approx_round0; [apply (approx_scale _ _ _ _ 10 A)| |].
  - eapply rounded_eq; [|exact M2]. rewrite ten_value. reflexivity.
  - rewrite Tn. lra.
Qed.

Lemma nonzero_eqb v : nonnegative v -> 1 # 2 <= value v -> f64_eqb v f64_zero = false.
Proof.
  destruct v as [[]|[]| |[] m e]; cbn [nonnegative]; try tauto; intros _ H; try reflexivity.
  exfalso. cbn [value] in H. lra.
Qed.

Lemma int_loop_approx ds : Forall digit ds -> forall k z v i, nonnegative v -> approx k 0 (inject_Z z) (value v) ->
  (k + 2 * length ds <= 4000)%nat -> (1 <= z)%Z -> (valueZ 10 z ds < 10 ^ 280)%Z ->
  let w := fst (parse_int_literal_loop ds v i) in
  nonnegative w /\ approx (k + 2 * length ds) 0 (inject_Z (valueZ 10 z ds)) (value w).
Proof.
  induction 1 as [|d ds Hd Hds IH]; intros k z v i Nv A K Hz Hb.
  { cbn [parse_int_literal_loop fst length valueZ fold_left]. rewrite Nat.mul_0_r, Nat.add_0_r. auto. }
  cbn [length] in *. change (valueZ 10 z (d :: ds)) with (valueZ 10 (z * 10 + Z.of_N (d - 48)) ds) in *.
  unfold digit in Hd. pose proof (valueZ_ge 10 (z * 10 + Z.of_N (d - 48)) ds ltac:(lia) ltac:(lia)).
  replace (k + 2 * S (length ds))%nat with (S (S k) + 2 * length ds)%nat by lia.
  cbn [parse_int_literal_loop]. destruct (N.eqb_spec d 48) as [->|N].
  - rewrite nonzero_eqb; [|exact Nv|].
    2:{ destruct A as (X & B & _). change (qn 0) with 0 in B. pose proof (dn_half k ltac:(lia)).
        assert (Z1 : 1 <= inject_Z z) by (change 1 with (inject_Z 1); rewrite <- Zle_Qle; lia). nra. }
    change (Z.of_N (48 - 48)) with 0%Z in *. rewrite Z.add_0_r in *.
    destruct (int_step0 k z v Nv A ltac:(lia) Hz ltac:(lia)) as [S1 S2]. apply IH; auto; lia.
  - rewrite (proj2 (in_range_iff 49 57 d)) by lia.
    destruct (int_step k z v d ltac:(lia) Nv A ltac:(lia) Hz ltac:(lia)) as [S1 S2]. apply IH; auto; lia.
Qed.

Lemma valueZ_bound acc ds : Forall digit ds -> (0 <= acc)%Z -> (valueZ 10 acc ds < (acc + 1) * 10 ^ Z.of_nat (length ds))%Z.
Proof.
  intros H. revert acc. induction H as [|d ds Hd _ IH]; intros acc A; cbn [length valueZ fold_left]; [lia|].
  change (valueZ 10 (acc * 10 + Z.of_N (d - 48)) ds < (acc + 1) * 10 ^ Z.of_nat (S (length ds)))%Z.
  unfold digit in Hd. specialize (IH (acc * 10 + Z.of_N (d - 48))%Z ltac:(lia)).
  rewrite Nat2Z.inj_succ, Z.pow_succ_r by lia.
  assert (0 < 10 ^ Z.of_nat (length ds))%Z by (apply Z.pow_pos_nonneg; lia). nia.
Qed.

Lemma integer_part_approx d ds : (49 <= d <= 57)%N -> Forall digit ds -> (length (d :: ds) <= 280)%nat ->
  nonnegative (integer_part (d :: ds)) /\
  approx (2 * length ds) 0 (inject_Z (Z.of_N (digits_value 10 (d :: ds)))) (value (integer_part (d :: ds))).
Proof.
  intros Hd Hds L. unfold integer_part, parse_int_literal. cbn [parse_int_literal_loop].
  destruct (N.eqb_spec d 48); [lia|]. rewrite (proj2 (in_range_iff 49 57 d)) by lia.
  rewrite add_mul_zero by (apply of_Z_nonneg; lia).
  destruct (digit_value_u8 d ltac:(lia)) as (D1 & D2 & D3).
  rewrite digits_value_Z. change (valueZ (Z.of_N 10) 0 (d :: ds)) with (valueZ 10 (Z.of_N (d - 48)) ds).
  apply (int_loop_approx ds Hds 0 (Z.of_N (d - 48)) _ 1 D1).
  - apply approx_exact; [change 0 with (inject_Z 0); rewrite <- Zle_Qle; lia|].
    rewrite D2. unfold qn. rewrite N_nat_Z. reflexivity.
  - cbn [length] in L. lia.
  - lia.
  - pose proof (valueZ_bound (Z.of_N (d - 48)) ds Hds ltac:(lia)). cbn [length] in L.
    assert (10 ^ Z.of_nat (length ds) <= 10 ^ 279)%Z by (apply Z.pow_le_mono_r; lia).
    change (10 ^ 280)%Z with (10 * 10 ^ 279)%Z. revert H H0. generalize (10 ^ 279)%Z. intros. nia.
Qed.
