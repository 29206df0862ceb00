(** Specification: how far the value of a numeric literal may be from the number that
    is written, in exact rational arithmetic. *)
From Coq Require Import List NArith ZArith QArith Qabs Floats.SpecFloat.
From Verif Require Import Base SpecTokens.
Import ListNotations.
Local Open Scope Q_scope.

(** The rational number that a finite binary64 number stands for. *)
Definition finite (x : f64) : Prop :=
  match x with S754_zero _ | S754_finite _ _ _ => True | _ => False end.
Definition value (x : f64) : Q :=
  match x with
  | S754_finite s m e => inject_Z (if s then - Zpos m else Zpos m) * 2 ^ e
  | _ => 0
  end.

(** The number written [ds.fs]. *)
Definition number_written (ds fs : bytes) : Q :=
  inject_Z (Z.of_N (digits_value 10 ds)) +
  inject_Z (Z.of_N (digits_value 10 fs)) * (1 # 10) ^ Z.of_nat (length fs).

(** [x] is finite and at most [k] units of 2^-53 (in proportion to [q]) away from [q];
    the summand 2^-1000 only matters when [q] is smaller than 10^-285. *)
Definition near (k : nat) (x : f64) (q : Q) : Prop :=
  finite x /\ Qabs (value x - q) <= inject_Z (Z.of_nat k) * q * (1 # 2) ^ 53 + (1 # 2) ^ 1000.
