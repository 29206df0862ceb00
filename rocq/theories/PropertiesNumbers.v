(** The accuracy of numeric literals (C42). *)
From Coq Require Import String List NArith ZArith QArith Qabs Arith Lia Floats.SpecFloat.
From Verif Require Import Base Tokens SpecTokens SpecStream SpecNumbers Tokenizer TokenProps3 Fractions PropertiesTokenizer.
Import ListNotations.
Local Open Scope N_scope.

(** ** C42 Decimal literals are close to the number that is written *)

Lemma reads_near k E t h g m r q : stands t (g ++ m ++ r) -> blanks g -> decimal_text m [] r ->
  near k (NumberFacts.mantissa m) q -> exists n, reads E t h g m (TNumeric n) r /\ near k n q.
Proof.
  intros St Bg H N. destruct (reads_decimal E t h g m [] r St Bg H) as (v & R & V & _).
  { intros _. unfold exponent_fits. cbn. lia. }
  rewrite app_nil_r in R. exists v. split; [exact R|]. rewrite (V eq_refl). exact N.
Qed.

Theorem C42_fraction : forall E t h g ds fs r,
  stands t (g ++ (ds ++ s2b "." ++ fs) ++ r) -> blanks g ->
  Forall digit ds -> Forall digit fs -> decimal_text (ds ++ s2b "." ++ fs) [] r -> (length ds <= 280)%nat ->
  exists n, reads E t h g (ds ++ s2b "." ++ fs) (TNumeric n) r /\
    near (2 * length ds + Nat.min 330 (length fs) + 4) n (number_written ds fs).
Proof. intros E t h g ds fs r St Bg Hd Hf H L. apply reads_near; auto. apply (fraction_near ds fs r); assumption. Qed.

Theorem C42_integer : forall E t h g ds r,
  stands t (g ++ ds ++ r) -> blanks g -> Forall digit ds -> decimal_text ds [] r -> (length ds <= 280)%nat ->
  exists n, reads E t h g ds (TNumeric n) r /\ near (2 * length ds) n (number_written ds []).
Proof. intros E t h g ds r St Bg Hd H L. apply reads_near; auto. apply (integer_near ds r); assumption. Qed.

(** The value is not always the binary64 number nearest to what is written: [0.3] has a
    nearer one. *)
Theorem C42_nearest_refuted : exists t' rg n better,
  next_token debug_build (start "0.3") no_hint = TOk (TNumeric n, rg, t') /\ finite better /\
  (Qabs (value better - number_written (s2b "0") (s2b "3")) < Qabs (value n - number_written (s2b "0") (s2b "3")))%Q.
Proof.
  do 3 eexists. exists (S754_finite false 5404319552844595 (-54)). split; [vm_compute; reflexivity|]. split; [exact I|]. vm_compute. reflexivity.
Qed.
Print Assumptions C42_fraction.
Print Assumptions C42_integer.
Print Assumptions C42_nearest_refuted.

Example C42_case : stands (start " 12.375;") ([32] ++ (s2b "12" ++ s2b "." ++ s2b "375") ++ s2b ";") /\
  decimal_text (s2b "12" ++ s2b "." ++ s2b "375") [] (s2b ";") /\
  (number_written (s2b "12") (s2b "375") == 99 # 8)%Q.
Proof.
  split; [at_start|]. split; [|reflexivity].
  assert (D : Forall digit [50] /\ Forall digit (s2b "375")) by (split; repeat constructor; unfold digit; cbn; lia).
  apply (dt_fraction 49 [50] (s2b "375")); try apply D; try lia.
  - intros (b & x & Hb & X). injection Hb as <- <-. unfold digit in X. cbn in X. lia.
  - apply ep_none. right. reflexivity.
Qed.
