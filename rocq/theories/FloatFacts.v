(** Facts about binary64 arithmetic on integers: results stay nonzero, and are exact
    below 2^53.  No real numbers are involved. *)
From Coq Require Import ZArith NArith Bool Lia Floats.SpecFloat.
From Verif Require Import Base SpecTokens.
Local Open Scope Z_scope.

Lemma digits2_log2 p : Zpos (digits2_pos p) = Z.log2 (Zpos p) + 1.
Proof.
  assert (H : forall p, digits2_pos p = Pos.size p).
  { clear. induction p; cbn; congruence. }
  rewrite H. destruct p; cbn [Pos.size Z.log2]; lia.
Qed.

(** ** Right shifts *)

Lemma iter_pos_iter (A : Type) (f : A -> A) p x : iter_pos f p x = Pos.iter f x p.
Proof.
  revert x. induction p; intros x; cbn.
  - rewrite !IHp, !Pos.iter_swap. reflexivity.
  - rewrite !IHp. reflexivity.
  - reflexivity.
Qed.

Lemma shr_1_m r : 0 <= shr_m r -> shr_m (shr_1 r) = shr_m r / 2.
Proof.
  destruct r as [m rr s]. cbn [shr_m]. intros H. destruct m as [|p|p]; [reflexivity| |lia].
  destruct p as [p|p|]; cbn [shr_1 shr_m]; [| |reflexivity].
  - rewrite Pos2Z.inj_xI. replace (2 * Zpos p + 1) with (1 + Zpos p * 2) by lia.
    rewrite Z.div_add by lia. reflexivity.
  - rewrite Pos2Z.inj_xO, Z.mul_comm, Z.div_mul by lia. reflexivity.
Qed.

Lemma iter_shr_m p r : 0 <= shr_m r -> shr_m (iter_pos shr_1 p r) = shr_m r / 2 ^ Zpos p.
Proof.
  rewrite iter_pos_iter. intros H. induction p using Pos.peano_ind.
  - cbn [Pos.iter]. rewrite shr_1_m by exact H. reflexivity.
  - rewrite Pos.iter_succ, shr_1_m, IHp.
    + rewrite Z.div_div by (try apply Z.pow_nonzero; lia). f_equal.
      rewrite Pos2Z.inj_succ, Z.pow_succ_r by lia. lia.
    + rewrite IHp. apply Z.div_pos; [exact H|]. apply Z.pow_pos_nonneg; lia.
Qed.

Lemma iter_shr_exact p k : 0 <= k ->
  iter_pos shr_1 p (Build_shr_record (k * 2 ^ Zpos p) false false) = Build_shr_record k false false.
Proof.
  rewrite iter_pos_iter. revert k. induction p using Pos.peano_ind; intros k Hk.
  - cbn [Pos.iter]. change (2 ^ 1) with 2. destruct k as [|q|q]; [reflexivity| |lia].
    rewrite Z.mul_comm. reflexivity.
  - rewrite Pos.iter_succ. rewrite Pos2Z.inj_succ, Z.pow_succ_r by lia.
    replace (k * (2 * 2 ^ Zpos p)) with ((2 * k) * 2 ^ Zpos p) by ring.
    rewrite IHp by lia. destruct k as [|q|q]; [reflexivity|reflexivity|lia].
Qed.

(** ** The rounding steps *)

Notation fexp64 := (fexp 53 1024).

Lemma fexp64_eq e : fexp64 e = Z.max (e - 53) (-1074).
Proof. reflexivity. Qed.

Lemma round_nearest_even_ge m l : m <= round_nearest_even m l <= m + 1.
Proof. destruct l as [|[]]; cbn; try lia. destruct (Z.even m); lia. Qed.

(** One shift keeps the magnitude. *)
Lemma shr_fexp_magnitude m e l mrs e' :
  0 < m -> 0 <= Z.log2 m + e -> shr_fexp 53 1024 m e l = (mrs, e') ->
  0 < shr_m mrs /\ 0 <= Z.log2 (shr_m mrs) + e'.
Proof.
  intros Hm Hme. unfold shr_fexp. destruct m as [|p|p]; try lia.
  cbn [Zdigits2]. rewrite digits2_log2.
  set (n := fexp64 (Z.log2 (Zpos p) + 1 + e) - e).
  assert (Hn : n <= Z.log2 (Zpos p)).
  { unfold n. rewrite fexp64_eq. lia. }
  assert (S0 : shr_m (shr_record_of_loc (Zpos p) l) = Zpos p) by (destruct l as [|[]]; reflexivity).
  unfold shr. destruct n as [|k|k] eqn:En; intros H; injection H as <- <-.
  - rewrite S0. lia.
  - rewrite iter_shr_m by (rewrite S0; lia). rewrite S0.
    assert (P : 0 < 2 ^ Zpos k) by (apply Z.pow_pos_nonneg; lia).
    split.
    + apply Z.div_str_pos. split; [exact P|].
      apply Z.log2_le_pow2; lia.
    + rewrite <- Z.shiftr_div_pow2, Z.log2_shiftr by lia. lia.
  - rewrite S0. lia.
Qed.

(** Positive and at least one. *)
Definition big (x : f64) : Prop :=
  match x with
  | S754_infinity false => True
  | S754_finite false m e => 0 <= Z.log2 (Zpos m) + e
  | _ => False
  end.

Lemma big_nonzero x : big x -> f64_eqb x f64_zero = false.
Proof. destruct x as [[]|[]| |[]]; cbn; tauto || reflexivity. Qed.

Lemma round_aux_big m e l : 0 < m -> 0 <= Z.log2 m + e -> big (binary_round_aux 53 1024 false m e l).
Proof.
  intros Hm Hme. unfold binary_round_aux.
  destruct (shr_fexp 53 1024 m e l) as [mrs e'] eqn:E1.
  destruct (shr_fexp_magnitude _ _ _ _ _ Hm Hme E1) as [H1 H2].
  set (m1 := round_nearest_even _ _).
  assert (R : shr_m mrs <= m1) by apply round_nearest_even_ge.
  assert (L : Z.log2 (shr_m mrs) <= Z.log2 m1) by (apply Z.log2_le_mono; exact R).
  destruct (shr_fexp 53 1024 m1 e' loc_Exact) as [mrs2 e2] eqn:E2.
  destruct (shr_fexp_magnitude m1 e' _ _ _ ltac:(lia) ltac:(lia) E2) as [H3 H4].
  destruct (shr_m mrs2) as [|q|q]; try lia.
  destruct (_ <=? _)%Z; cbn [big]; [exact H4 | exact I].
Qed.

Lemma log2_mul_below a b : 0 < a -> 0 < b -> Z.log2 a + Z.log2 b <= Z.log2 (a * b).
Proof. intros. apply Z.log2_mul_below; lia. Qed.

Lemma big_mul x y : big x -> big y -> big (f64_mul x y).
Proof.
  destruct x as [[]|[]| |[] mx ex]; cbn [big]; try tauto;
  destruct y as [[]|[]| |[] my ey]; cbn [big]; try tauto; intros Hx Hy; try exact I.
  unfold f64_mul, SFmul. cbn [xorb]. apply round_aux_big; [lia|].
  rewrite Pos2Z.inj_mul. pose proof (log2_mul_below (Zpos mx) (Zpos my) ltac:(lia) ltac:(lia)). lia.
Qed.

Lemma shift_pos_eq d m : Zpos (shift_pos d m) = Zpos m * 2 ^ Zpos d.
Proof. rewrite shift_pos_correct. rewrite Z.mul_comm. reflexivity. Qed.

Lemma shl_align_log mx ex ez : 
  0 <= Z.log2 (Zpos mx) + ex -> ez <= ex ->
  Z.log2 (Zpos mx) + ex = Z.log2 (Zpos (fst (shl_align mx ex ez))) + ez.
Proof.
  intros H L. unfold shl_align. destruct (ez - ex) as [|k|k] eqn:E; cbn [fst]; try lia.
  rewrite shift_pos_eq, Z.log2_mul_pow2 by lia. lia.
Qed.

Lemma binary_round_big m e : 0 <= Z.log2 (Zpos m) + e -> big (binary_round 53 1024 false m e).
Proof.
  intros H. unfold binary_round. rewrite digits2_log2.
  set (e' := fexp64 _). unfold shl_align. destruct (e' - e) as [|k|k] eqn:E.
  - apply round_aux_big; lia.
  - apply round_aux_big; lia.
  - apply round_aux_big; [lia|]. rewrite shift_pos_eq, Z.log2_mul_pow2 by lia. lia.
Qed.

(** A nonnegative number: zero or at least one. *)
Definition nonneg (x : f64) : Prop := x = S754_zero false \/ big x.

Lemma big_add x y : big x -> nonneg y -> big (f64_add x y).
Proof.
  intros Hx [->|Hy].
  - destruct x as [[]|[]| |[] mx ex]; cbn [big] in *; tauto.
  - destruct x as [[]|[]| |[] mx ex]; cbn [big] in Hx; try tauto;
    destruct y as [[]|[]| |[] my ey]; cbn [big] in Hy; try tauto; try exact I.
    unfold f64_add, SFadd. cbn [cond_Zopp].
    set (ez := Z.min ex ey). rewrite <- Pos2Z.inj_add. cbn [binary_normalize].
    apply binary_round_big. rewrite (shl_align_log mx ex ez) in Hx by lia.
    set (a := fst (shl_align mx ex ez)) in *. set (b := fst (shl_align my ey ez)) in *.
    assert (Z.log2 (Zpos a) <= Z.log2 (Zpos (a + b))) by (apply Z.log2_le_mono; lia). lia.
Qed.

Lemma of_Z_nonneg z : 0 <= z -> nonneg (f64_of_Z z).
Proof.
  intros H. destruct z as [|p|p]; [left; reflexivity| |lia]. right.
  unfold f64_of_Z. cbn [binary_normalize]. apply binary_round_big.
  pose proof (Z.log2_nonneg (Zpos p)). lia.
Qed.

Lemma of_Z_big z : 0 < z -> big (f64_of_Z z).
Proof.
  intros H. destruct z as [|p|p]; try lia.
  unfold f64_of_Z. cbn [binary_normalize]. apply binary_round_big.
  pose proof (Z.log2_nonneg (Zpos p)). lia.
Qed.

(** ** Exactness *)


Lemma pow2_pos k : 0 <= k -> 0 < 2 ^ k.
Proof. intros; apply Z.pow_pos_nonneg; lia. Qed.

(** The witness [k] is arbitrary. *)
Lemma integer_any m e z k : (exists k, 0 <= k /\ 0 <= e + k /\ m * 2 ^ (e + k) = z * 2 ^ k) ->
  0 <= k -> 0 <= e + k -> m * 2 ^ (e + k) = z * 2 ^ k.
Proof.
  intros (j & Hj & Hej & E) Hk Hek.
  destruct (Z.le_ge_cases j k) as [L|L].
  - replace (2 ^ k) with (2 ^ j * 2 ^ (k - j)) by (rewrite <- Z.pow_add_r by lia; f_equal; lia).
    replace (e + k) with ((e + j) + (k - j)) by lia. rewrite (Z.pow_add_r 2 (e + j)) by lia.
    rewrite !Z.mul_assoc, E. reflexivity.
  - assert (P := pow2_pos (j - k) ltac:(lia)).
    apply (Z.mul_reg_r _ _ (2 ^ (j - k))); [lia|].
    rewrite <- !Z.mul_assoc, <- !Z.pow_add_r by lia.
    replace (e + k + (j - k)) with (e + j) by lia. replace (k + (j - k)) with j by lia. exact E.
Qed.

Lemma integer_log m e z k : 0 < m -> 0 < z -> 0 <= k -> 0 <= e + k ->
  m * 2 ^ (e + k) = z * 2 ^ k -> Z.log2 m + e = Z.log2 z.
Proof.
  intros Hm Hz Hk Hek E. assert (L := f_equal Z.log2 E).
  rewrite !Z.log2_mul_pow2 in L by lia. lia.
Qed.

(** Rounding an integer below 2^53 changes nothing. *)
Lemma round_aux_exact m e z : 0 < z < 2 ^ 53 ->
  is_integer (S754_finite false m e) z -> is_integer (binary_round_aux 53 1024 false (Zpos m) e loc_Exact) z.
Proof.
  intros Hz Hi. cbn [is_integer] in Hi.
  set (k := Z.max 0 (- e)).
  assert (Hk : 0 <= k) by lia. assert (Hek : 0 <= e + k) by lia.
  assert (E := integer_any _ _ _ k Hi Hk Hek).
  assert (L := integer_log (Zpos m) e z k ltac:(lia) ltac:(lia) Hk Hek E).
  assert (Lz : Z.log2 z < 53) by (apply Z.log2_lt_pow2; lia).
  assert (Lz0 := Z.log2_nonneg z).
  assert (A : exists m1 e1, shr_fexp 53 1024 (Zpos m) e loc_Exact = (Build_shr_record (Zpos m1) false false, e1)
              /\ fexp64 (Z.log2 z + 1) <= e1 /\ is_integer (S754_finite false m1 e1) z
              /\ Z.log2 (Zpos m1) + e1 = Z.log2 z).
  { unfold shr_fexp. cbn [Zdigits2 shr_record_of_loc]. rewrite digits2_log2.
    replace (Z.log2 (Zpos m) + 1 + e) with (Z.log2 z + 1) by lia.
    unfold shr. destruct (fexp64 (Z.log2 z + 1) - e) as [|n|n] eqn:En.
    - exists m, e. repeat split; auto; lia.
    - rewrite fexp64_eq in En.
      (* m is divisible by 2^n *)
      assert (Hne : Zpos n <= - e) by lia.
      assert (E0 : Zpos m = (z * 2 ^ (- e - Zpos n)) * 2 ^ Zpos n).
      { unfold k in E. replace (Z.max 0 (- e)) with (- e) in E by lia.
        replace (e + - e) with 0 in E by lia. rewrite Z.pow_0_r, Z.mul_1_r in E.
        rewrite E, <- Z.mul_assoc, <- Z.pow_add_r by lia. f_equal. f_equal. lia. }
      set (q := z * 2 ^ (- e - Zpos n)) in *.
      assert (Hq : 0 < q) by (unfold q; pose proof (pow2_pos (- e - Zpos n) ltac:(lia)); nia).
      destruct q as [|m1|m1] eqn:Eq; try lia. exists m1, (e + Zpos n).
      rewrite E0, iter_shr_exact by lia.
      assert (I1 : is_integer (S754_finite false m1 (e + Zpos n)) z).
      { cbn [is_integer]. exists (- e). repeat split; try lia.
        rewrite <- Eq. unfold q. rewrite <- Z.mul_assoc, <- Z.pow_add_r by lia. f_equal. f_equal. lia. }
      split; [reflexivity|]. split; [rewrite fexp64_eq; lia|]. split; [exact I1|].
      apply (integer_log _ _ _ (Z.max 0 (- (e + Zpos n)))); try lia.
      apply integer_any; try lia. exact I1.
    - exists m, e. repeat split; auto; lia. }
  destruct A as (m1 & e1 & A1 & F1 & I1 & L1).
  unfold binary_round_aux. rewrite A1. cbn [shr_m loc_of_shr_record round_nearest_even].
  unfold shr_fexp. cbn [Zdigits2 shr_record_of_loc]. rewrite digits2_log2.
  replace (Z.log2 (Zpos m1) + 1 + e1) with (Z.log2 z + 1) by lia.
  unfold shr. destruct (fexp64 (Z.log2 z + 1) - e1) as [|n|n] eqn:En; try lia; cbn [shr_m];
    (replace (e1 <=? 1024 - 53) with true; [exact I1|]; symmetry; apply Z.leb_le;
     pose proof (Z.log2_nonneg (Zpos m1)); lia).
Qed.

Lemma binary_round_exact m e z : 0 < z < 2 ^ 53 ->
  is_integer (S754_finite false m e) z -> is_integer (binary_round 53 1024 false m e) z.
Proof.
  intros Hz Hi. unfold binary_round. set (e' := fexp64 _). unfold shl_align.
  destruct (e' - e) as [|k|k] eqn:E; try (apply round_aux_exact; assumption).
  apply round_aux_exact; [assumption|]. cbn [is_integer] in *.
  exists (Z.max 0 (- e')). repeat split; try lia.
  rewrite shift_pos_eq, <- Z.mul_assoc, <- Z.pow_add_r by lia.
  replace (Zpos k + (e' + Z.max 0 (- e'))) with (e + Z.max 0 (- e')) by lia.
  apply integer_any; [exact Hi | lia | lia].
Qed.

Lemma of_Z_exact z : 0 <= z < 2 ^ 53 -> is_integer (f64_of_Z z) z.
Proof.
  intros H. destruct z as [|p|p]; [reflexivity| |lia].
  unfold f64_of_Z. cbn [binary_normalize]. apply binary_round_exact; [lia|].
  exists 0. repeat split; try lia. 
Qed.

Lemma mul_exact x y a b : is_integer x a -> is_integer y b -> 0 <= a -> 0 <= b -> a * b < 2 ^ 53 ->
  is_integer (f64_mul x y) (a * b).
Proof.
  intros Hx Hy Ha Hb Hab.
  destruct x as [sx|sx| |sx mx ex]; try contradiction.
  { cbn [is_integer] in Hx. subst a. destruct y as [sy|sy| |sy my ey]; try contradiction; reflexivity. }
  destruct y as [sy|sy| |sy my ey]; try contradiction.
  { cbn [is_integer] in Hy. subst b. rewrite Z.mul_0_r. reflexivity. }
  assert (Px : sx = false /\ 0 < a).
  { destruct Hx as (k & Hk & Hek & E). assert (P1 := pow2_pos _ Hk). assert (P2 := pow2_pos _ Hek).
    destruct sx; [exfalso; nia|]. split; [reflexivity|nia]. }
  assert (Py : sy = false /\ 0 < b).
  { destruct Hy as (k & Hk & Hek & E). assert (P1 := pow2_pos _ Hk). assert (P2 := pow2_pos _ Hek).
    destruct sy; [exfalso; nia|]. split; [reflexivity|nia]. }
  destruct Px as [-> Pa], Py as [-> Pb].
  unfold f64_mul, SFmul. cbn [xorb]. apply round_aux_exact; [nia|].
  destruct Hx as (k & Hk & Hek & E1), Hy as (j & Hj & Hej & E2).
  exists (k + j). repeat split; try lia.
  rewrite Pos2Z.inj_mul. replace (ex + ey + (k + j)) with ((ex + k) + (ey + j)) by lia.
  rewrite (Z.pow_add_r 2 (ex + k)), (Z.pow_add_r 2 k) by lia.
  transitivity ((Zpos mx * 2 ^ (ex + k)) * (Zpos my * 2 ^ (ey + j))); [ring|].
  rewrite E1, E2. ring.
Qed.

Lemma shl_align_integer m e e' z : e' <= e -> is_integer (S754_finite false m e) z ->
  is_integer (S754_finite false (fst (shl_align m e e')) e') z.
Proof.
  intros L Hi. unfold shl_align. destruct (e' - e) as [|k|k] eqn:E; cbn [fst]; try lia.
  - replace e' with e by lia. exact Hi.
  - cbn [is_integer] in *. exists (Z.max 0 (- e')). repeat split; try lia.
    rewrite shift_pos_eq, <- Z.mul_assoc, <- Z.pow_add_r by lia.
    replace (Zpos k + (e' + Z.max 0 (- e'))) with (e + Z.max 0 (- e')) by lia.
    apply integer_any; [exact Hi | lia | lia].
Qed.

Lemma add_exact x y a b : is_integer x a -> is_integer y b -> 0 <= a -> 0 <= b -> a + b < 2 ^ 53 ->
  is_integer (f64_add x y) (a + b).
Proof.
  intros Hx Hy Ha Hb Hab.
  destruct x as [sx|sx| |sx mx ex]; try contradiction.
  { cbn [is_integer] in Hx. subst a. destruct y as [sy|sy| |sy my ey]; try contradiction.
    - cbn [is_integer] in Hy. subst b. destruct sx, sy; reflexivity.
    - exact Hy. }
  destruct y as [sy|sy| |sy my ey]; try contradiction.
  { cbn [is_integer] in Hy. subst b. rewrite Z.add_0_r. exact Hx. }
  assert (Px : sx = false /\ 0 < a).
  { destruct Hx as (k & Hk & Hek & E). assert (P1 := pow2_pos _ Hk). assert (P2 := pow2_pos _ Hek).
    destruct sx; [exfalso; nia|]. split; [reflexivity|nia]. }
  assert (Py : sy = false /\ 0 < b).
  { destruct Hy as (k & Hk & Hek & E). assert (P1 := pow2_pos _ Hk). assert (P2 := pow2_pos _ Hek).
    destruct sy; [exfalso; nia|]. split; [reflexivity|nia]. }
  destruct Px as [-> Pa], Py as [-> Pb].
  unfold f64_add, SFadd. cbn [cond_Zopp]. set (ez := Z.min ex ey).
  apply (shl_align_integer mx ex ez) in Hx; [|lia].
  apply (shl_align_integer my ey ez) in Hy; [|lia].
  rewrite <- Pos2Z.inj_add. cbn [binary_normalize]. apply binary_round_exact; [lia|].
  cbn [is_integer] in *.
  exists (Z.max 0 (- ez)). repeat split; try lia.
  rewrite Pos2Z.inj_add, !Z.mul_add_distr_r.
  f_equal; apply integer_any; lia || assumption.
Qed.
