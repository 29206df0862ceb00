(** The work of each parse function at the end of the input, by computation. *)
From Coq Require Import String List Arith NArith ZArith Bool Lia.
From Verif Require Import Base Tokens ParserCore ParserBody AbstractParser ParserExec ParserTerminates Work.
Import ListNotations.
Local Open Scope Z_scope.

(** The result and the work together, so that nothing is computed twice. *)
Fixpoint both (e : token) (call : fn -> grammar_flags -> input -> ares (option unit) * Z) {A : Set} (p : prog A)
  (g : grammar_flags) (i : input) : ares A * Z :=
  match p in prog A return ares A * Z with
  | Ret a => (AOk a i, 0)
  | Bind p k =>
    match both e call p g i with
    | (AOk a i', m) => let (r, m') := both e call (k a) g i' in (r, m + m')
    | (AErr x i', m) => (AErr x i', m)
    | (APanic w, m) => (APanic w, m)
    | (AFuel i', m) => (AFuel i', m)
    end
  | Act a => (aact e a g i, 1)
  | Throw x => (AErr x i, 0)
  | Crash w => (APanic (P_unreachable w), 0)
  | With f v p => both e call p (set_flag g f v) i
  | Call f => call f g i
  end.
Fixpoint both_fn (e : token) (n : nat) (f : fn) (g : grammar_flags) (i : input) : ares (option unit) * Z :=
  match n with
  | O => (AFuel i, 0)
  | S n' => let (r, m) := both e (both_fn e n') (body f) g i in (r, 1 + m)
  end.

Lemma both_eq e call (c : acall) (w : acost) : (forall f g i, call f g i = (c f g i, Z.of_nat (w f g i))) ->
  forall (A : Set) (p : prog A) g i, both e call p g i = (ainterp e c p g i, Z.of_nat (awork e c w p g i)).
Proof.
  intros H A p. induction p as [A a|A B p IHp k IHk|A a|A x|A ww|A f v p IHp|f]; intros g i; cbn [both ainterp awork]; auto.
  rewrite IHp. destruct (ainterp e c p g i); cbn [abind]; rewrite ?Nat.add_0_r; try reflexivity.
  rewrite IHk. rewrite Nat2Z.inj_add. reflexivity.
Qed.
Lemma both_fn_eq e n : forall f g i, both_fn e n f g i = (aexec e n f g i, Z.of_nat (awork_fn e n f g i)).
Proof.
  induction n as [|n IH]; intros f g i; [reflexivity|]. cbn [both_fn aexec awork_fn].
  rewrite (both_eq e _ _ _ IH). rewrite Nat2Z.inj_succ. f_equal. lia.
Qed.

Lemma idle_check e f : forallb (fun g => snd (both_fn e 20 f g []) <=? idle f) all_flags = true ->
  forall g, Z.of_nat (awork_fn e 20 f g []) <= idle f.
Proof.
  intros H g. rewrite forallb_forall in H. apply Z.leb_le. specialize (H g (all_flags_all g)).
  rewrite both_fn_eq in H. exact H.
Qed.
Lemma at_end_idle e f g : end_token e -> Z.of_nat (awork_fn e 20 f g []) <= idle f.
Proof.
  intros [->|[->| ->]]; apply idle_check; destruct f;
    repeat match goal with
    | h : method_head |- _ => destruct h as [[] [] []]
    | b : bool |- _ => destruct b
    | k : for_kind |- _ => destruct k
    end; vm_compute; reflexivity.
Qed.
