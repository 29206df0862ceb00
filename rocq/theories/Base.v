(** Shared vocabulary of the model: panics, results, byte strings, string
    slices and IEEE-754 binary64 arithmetic.  Nothing in this file is specific
    to jsparse-rs; each definition says which Rust or std notion it stands for. *)
From Coq Require Import String Ascii List NArith ZArith Bool.
From Coq Require Import Floats.SpecFloat.
Import ListNotations.
Local Open Scope N_scope.

(** ** Panics

    Every way in which the modelled code can unwind.  A panic is a value of the
    model, never a default. *)
Inductive panic : Set :=
| P_unimplemented (what : string)  (** [unimplemented!(..)] *)
| P_panic (what : string)          (** [panic!(..)] *)
| P_unreachable (what : string)    (** [unreachable!()] *)
| P_slice                          (** [&s[a..b]] out of range or off a char boundary *)
| P_overflow                       (** arithmetic overflow in a build with overflow checks *)
| P_underflow_count                (** [self.count -= 1] with [count = 0] (parser/mod.rs:274) *)
| P_flags_stack                    (** [self.flags_stack.pop().unwrap()] on an empty stack (parser/mod.rs:256) *).

(** The outcome of a piece of code that may panic. *)
Inductive tres (A : Type) : Type :=
| TOk (a : A)
| TPanic (p : panic).
Arguments TOk {A} a.
Arguments TPanic {A} p.

Definition tbind {A B} (r : tres A) (k : A -> tres B) : tres B :=
  match r with TOk a => k a | TPanic p => TPanic p end.
Notation "'tdo' x <- r ;; k" := (tbind r (fun x => k))
  (at level 200, x pattern, r at level 100, k at level 200, right associativity).

(** ** Byte strings

    A Rust [&str] is modelled by the list of its UTF-8 bytes. *)
Definition bytes := list N.

(** [s2b "if"] is the byte string of an ASCII string literal. *)
Fixpoint s2b (s : string) : bytes :=
  match s with
  | EmptyString => []
  | String c s' => N_of_ascii c :: s2b s'
  end.

Fixpoint beqb (a b : bytes) : bool :=
  match a, b with
  | [], [] => true
  | x :: a', y :: b' => N.eqb x y && beqb a' b'
  | _, _ => false
  end.

(** [code.starts_with(p)] of std, on bytes. *)
Fixpoint starts_with (p code : bytes) : bool :=
  match p, code with
  | [], _ => true
  | x :: p', y :: code' => N.eqb x y && starts_with p' code'
  | _ :: _, [] => false
  end.

(** [bytes[i]]; every use in the model is behind the code's own length test. *)
Definition at_ (code : bytes) (i : nat) : N := nth i code 0.

Definition in_range (lo hi b : N) : bool := N.leb lo b && N.leb b hi.

(** *** UTF-8 *)

(** A continuation byte. *)
Definition is_cont (b : N) : bool := in_range 128 191 b.

(** Well-formed UTF-8 (Unicode table 3-7); the invariant of every Rust [&str]. *)
Inductive utf8 : bytes -> Prop :=
| utf8_nil : utf8 []
| utf8_1 a r : a < 128 -> utf8 r -> utf8 (a :: r)
| utf8_2 a b r :
    194 <= a <= 223 -> is_cont b = true -> utf8 r -> utf8 (a :: b :: r)
| utf8_3 a b c r :
    224 <= a <= 239 -> is_cont b = true -> is_cont c = true ->
    (a = 224 -> 160 <= b) -> (a = 237 -> b < 160) ->
    utf8 r -> utf8 (a :: b :: c :: r)
| utf8_4 a b c d r :
    240 <= a <= 244 -> is_cont b = true -> is_cont c = true -> is_cont d = true ->
    (a = 240 -> 144 <= b) -> (a = 244 -> b < 144) ->
    utf8 r -> utf8 (a :: b :: c :: d :: r).

(** [s.chars()] of std: the code points of a well-formed string.  On ill-formed
    input (which a [&str] never holds) it just stops early. *)
Fixpoint chars (s : bytes) : list N :=
  match s with
  | [] => []
  | a :: r =>
    if a <? 128 then a :: chars r
    else if a <? 224 then
      match r with
      | b :: r1 => ((a - 192) * 64 + (b - 128)) :: chars r1
      | [] => []
      end
    else if a <? 240 then
      match r with
      | b :: c :: r2 => ((a - 224) * 4096 + (b - 128) * 64 + (c - 128)) :: chars r2
      | _ => []
      end
    else
      match r with
      | b :: c :: d :: r3 =>
        ((a - 240) * 262144 + (b - 128) * 4096 + (c - 128) * 64 + (d - 128)) :: chars r3
      | _ => []
      end
  end.

(** [s.is_char_boundary(i)] of std: [i] is 0, the length, or the index of a byte
    that is not a continuation byte. *)
Definition is_char_boundary (s : bytes) (i : nat) : bool :=
  Nat.eqb i 0 || Nat.eqb i (length s)
  || (Nat.ltb i (length s) && negb (is_cont (at_ s i))).

(** [&s[a..b]] of std: panics unless [a <= b <= len] and both ends are on char
    boundaries. *)
Definition slice (s : bytes) (a b : nat) : tres bytes :=
  if Nat.leb a b && is_char_boundary s a && is_char_boundary s b
  then TOk (firstn (b - a) (skipn a s))
  else TPanic P_slice.

(** [&s[a..]] of std. *)
Definition slice_from (s : bytes) (a : nat) : tres bytes :=
  if is_char_boundary s a then TOk (skipn a s) else TPanic P_slice.

(** ** f64

    IEEE-754 binary64 with round-to-nearest-even, from Coq's axiom-free
    [SpecFloat] (precision 53, maximal exponent 1024). *)
Definition f64 := spec_float.
Definition f64_mul (a b : f64) : f64 := SFmul 53 1024 a b.
Definition f64_add (a b : f64) : f64 := SFadd 53 1024 a b.
Definition f64_div (a b : f64) : f64 := SFdiv 53 1024 a b.
Definition f64_eqb (a b : f64) : bool := SFeqb a b.
(** [n as f64] for an integer. *)
Definition f64_of_Z (z : Z) : f64 := binary_normalize 53 1024 z 0 false.
Definition f64_of_u8 (n : N) : f64 := f64_of_Z (Z.of_N n).
Definition f64_zero : f64 := S754_zero false.
(** The literal [0.1]: the binary64 number nearest to one tenth. *)
Definition f64_tenth : f64 := S754_finite false 7205759403792794 (-56).

(** ** Build configuration

    What the language leaves to the build: whether integer overflow panics
    (debug) or wraps (release), and the platform's [10f64.powi(n)], whose
    precision std does not specify. *)
Record env : Type := {
  overflow_checks : bool;
  powi10 : Z -> f64
}.

(** [u8] subtraction. *)
Definition u8_sub (E : env) (a b : N) : tres N :=
  if N.leb b a then TOk (a - b)
  else if overflow_checks E then TPanic P_overflow
  else TOk (a + 256 - b).

(** An [i32] result computed in unbounded integers. *)
Definition i32_wrap (z : Z) : Z :=
  ((z + 2147483648) mod 4294967296 - 2147483648)%Z.
Definition i32_ok (z : Z) : bool :=
  (Z.leb (-2147483648) z && Z.leb z 2147483647)%Z.
Definition i32 (E : env) (z : Z) : tres Z :=
  if i32_ok z then TOk z
  else if overflow_checks E then TPanic P_overflow
  else TOk (i32_wrap z).
