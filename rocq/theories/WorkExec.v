(** The work of the abstract parser is linear in the length of its input. *)
From Coq Require Import String List Arith NArith ZArith Bool Lia.
From Verif Require Import Base Tokens ParserCore ParserBody AbstractParser ParserExec ParserTerminates Work.
Import ListNotations.
Local Open Scope Z_scope.

Section Bound.
Context (e : token) (He : end_token e).
Hypothesis at_end : forall f g, Z.of_nat (awork_fn e 20 f g []) <= idle f.

Lemma end_bound n f g : work_bound f [] (aexec e n f g []) (awork_fn e n f g []).
Proof.
  assert (T := at_end_terminates e f g He). assert (I := at_end f g).
  assert (D : forall m r, consumption f [] r -> Z.of_nat m <= idle f -> work_bound f [] r m).
  { intros m r C L. destruct r as [a i'|? ?|?|?]; cbn [work_bound length]; rewrite ?Z.mul_0_r; try lia; auto.
    left. split; [|exact L].
    destruct a; cbn in C; [|destruct C as [-> _]; reflexivity]. destruct (consuming f); lia. }
  destruct (Nat.le_ge_cases 20 n) as [L|L].
  - rewrite (awork_fn_le e 20 n L f g [] T), (aexec_le e 20 n L f g [] T).
    apply D; [apply consumption_holds|exact I].
  - destruct (aexec e n f g []) as [a i'|x i'|p|i'] eqn:R; [| | |exact Logic.I].
    all: assert (N : not_fuel (aexec e n f g [])) by (rewrite R; exact Logic.I).
    all: rewrite (awork_fn_le e n 20 L f g [] N) in I.
    all: apply D; [rewrite <- R; apply consumption_holds|exact I].
Qed.

Ltac leaf := first [apply sat_fresh|apply sat_done|apply sat_error|apply sat_panic]; vm_compute; discriminate.

Theorem bounded n : forall f g i, work_bound f i (aexec e n f g i) (awork_fn e n f g i).
Proof.
  induction n as [|n IH]; intros f g i; [exact I|].
  destruct (Nat.eq_dec (length i) 0) as [Z|NE].
  { destruct i; [|discriminate]. apply end_bound. }
  cut (ws e (aexec e n) (awork_fn e n) i (body f) g i true 1 (work_bound f i)).
  { intros H. apply (H 1%nat). split; [lia|reflexivity]. }
  destruct f; cbn [body]; repeat (try exact I; wsstep NE IH); leaf.
Qed.
End Bound.
