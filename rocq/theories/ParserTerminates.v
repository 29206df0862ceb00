(** The abstract parser needs a number of nested calls at most linear in the length of
    the input; so it defines a total function [parse], which satisfies the equations of
    the parse functions. *)
From Coq Require Import String List Arith NArith Bool Lia.
From Verif Require Import Base Tokens ParserCore ParserBody AbstractParser ParserExec.
Import ListNotations.

Definition not_fuel {A : Set} (r : ares A) : Prop := match r with AFuel _ => False | _ => True end.

(** ** More fuel does not change a result *)
Definition le_call (c c' : acall) : Prop := forall f g i, not_fuel (c f g i) -> c' f g i = c f g i.

Lemma ainterp_le e c c' (H : le_call c c') {A : Set} (p : prog A) : forall g i,
  not_fuel (ainterp e c p g i) -> ainterp e c' p g i = ainterp e c p g i.
Proof.
  induction p as [A a|A B p IHp k IHk|A a|A x|A w|A f v p IHp|f]; intros g i N; try reflexivity.
  - cbn [ainterp abind] in *. assert (Np : not_fuel (ainterp e c p g i)).
    { destruct (ainterp e c p g i); first [exact I|exact N]. }
    rewrite (IHp g i Np). destruct (ainterp e c p g i) as [a i'|x i'|w|i']; try reflexivity.
    cbn [abind] in *. apply IHk. exact N.
  - cbn [ainterp] in *. apply IHp. exact N.
  - apply H. exact N.
Qed.

Lemma aexec_S e n : le_call (aexec e n) (aexec e (S n)).
Proof.
  induction n as [|n IH]; intros f g i N; [destruct N|]. cbn [aexec] in N.
  change (ainterp e (aexec e (S n)) (body f) g i = ainterp e (aexec e n) (body f) g i).
  apply ainterp_le; assumption.
Qed.

Lemma aexec_le e n m : n <= m -> le_call (aexec e n) (aexec e m).
Proof.
  induction 1 as [|m L IH]; intros f g i N; [reflexivity|].
  rewrite (aexec_S e m f g i); [exact (IH f g i N)|]. rewrite (IH f g i N). exact N.
Qed.

(** ** The depth of calls *)

(** A call made before anything has been consumed is to a function of lower rank. *)
Definition rank (f : fn) : nat :=
  match f with
  | F_method_tail _ | F_primary | F_binding_pattern | F_property_name | L_left_hand _
  | F_iteration | F_declaration | L_switch _ => 2
  | F_left_hand _ | F_object_property | F_binding_property | F_binding_element | F_var_declarator
  | F_lexical_declarator _ | L_function_params | F_class_item | F_breakable => 3
  | F_update | L_object_literal | L_object_binding_pattern | L_array_binding_pattern | L_class_body => 4
  | F_unary => 5
  | F_exponential => 6
  | F_fancy _ => 7
  | F_conditional => 8
  | F_assignment => 9
  | F_expression | F_reify_arrow | F_reify_assignment | L_call_arguments | F_array_item => 10
  | L_template_literal | L_array_literal | F_expression_statement => 11
  | F_statement => 12
  | F_statement_list_item | F_script_item => 13
  | L_statement_list | L_script | F_module_item => 14
  | L_module => 15
  | _ => 1
  end.

Lemma rank_le f : rank f <= 15.
Proof. destruct f; cbn; lia. Qed.

(** The end tokens considered: EOF, and the empty tokens that the tokenizer repeats at a
    character it cannot read. *)
Definition end_token (e : token) : Prop := e = TEOF \/ e = TIdent [] \/ e = TString [].

Definition bools : list bool := [true; false].
Definition all_flags : list grammar_flags :=
  flat_map (fun a => flat_map (fun b => flat_map (fun c => flat_map (fun d =>
  flat_map (fun x => flat_map (fun y => flat_map (fun z => map (fun w =>
    GFlags a b c d x y z w) bools) bools) bools) bools) bools) bools) bools) bools.
Lemma all_flags_all g : In g all_flags.
Proof.
  assert (B : forall b, In b bools) by (intros []; cbn; auto).
  destruct g as [a b c d x y z w]. unfold all_flags.
  repeat (apply in_flat_map; eexists; split; [apply B|]). apply in_map_iff. eexists. split; [reflexivity|apply B].
Qed.

Definition is_fuel {A : Set} (r : ares A) : bool := match r with AFuel _ => true | _ => false end.

Lemma at_end_check e f : forallb (fun g => negb (is_fuel (aexec e 20 f g []))) all_flags = true ->
  forall g, not_fuel (aexec e 20 f g []).
Proof.
  intros H g. rewrite forallb_forall in H. specialize (H g (all_flags_all g)).
  destruct (aexec e 20 f g []); try exact I. discriminate.
Qed.

Lemma at_end_terminates e f g : end_token e -> not_fuel (aexec e 20 f g []).
Proof.
  intros [->|[->| ->]]; apply at_end_check; destruct f;
    repeat match goal with
    | h : method_head |- _ => destruct h as [[] [] []]
    | b : bool |- _ => destruct b
    | k : for_kind |- _ => destruct k
    end; vm_compute; reflexivity.
Qed.

Section Termination.
Context (e : token) (He : end_token e).

Definition depth (f : fn) (i : input) : nat := rank f + 20 * length i + 20.

Ltac fin := exact I.

Ltac on_call IH :=
  match goal with
  | |- context [aexec ?e ?n ?f ?g ?i] =>
    let H := fresh "C" in let H0 := fresh in let N := fresh in
    assert (N : not_fuel (aexec e n f g i)) by (apply IH; unfold depth; cbn [rank]; rewrite ?length_tl; lia);
    generalize (consumption_holds e n f g i) N; clear N; destruct (aexec e n f g i) as [[[]|] ?|? ?|?|?];
      cbn [consumption consuming total negb];
      [intros H _; rewrite ?length_tl in H|intros [H H0] _; first [discriminate H0|clear H0; subst]|intros _ _|intros _ _|intros _ []]; hnf_kont
  end.

Lemma terminates n : forall f g i, depth f i <= n -> not_fuel (aexec e n f g i).
Proof.
  induction n as [|n IH]; intros f g i L; [unfold depth in L; lia|].
  destruct (Nat.eq_dec (length i) 0) as [Z|Z].
  { destruct i; [|discriminate]. unfold depth in L.
    rewrite (aexec_le e 20 (S n)); [apply at_end_terminates; exact He|lia|apply at_end_terminates; exact He]. }
  change (wpr e (aexec e n) (body f) g i not_fuel).
  unfold depth in L. 
  destruct f; cbn [body rank] in *; (repeat (try exact I; first [wstep|on_call IH])).
Qed.

(** ** The function defined by the parse functions *)

Definition parse (f : fn) (g : grammar_flags) (i : input) : ares (option unit) := aexec e (depth f i) f g i.

Lemma parse_not_fuel f g i : not_fuel (parse f g i).
Proof. apply terminates. lia. Qed.

Lemma exec_parse n f g i : depth f i <= n -> aexec e n f g i = parse f g i.
Proof. intros L. apply (aexec_le e (depth f i) n L). apply parse_not_fuel. Qed.

Lemma not_fuel_parse n f g i : not_fuel (aexec e n f g i) -> aexec e n f g i = parse f g i.
Proof.
  intros N. destruct (Nat.le_ge_cases (depth f i) n) as [L|L]; [apply exec_parse; exact L|].
  symmetry. unfold parse. apply (aexec_le e n _ L). exact N.
Qed.

Lemma parse_consumption f g i : consumption f i (parse f g i).
Proof. apply consumption_holds. Qed.

(** The input never grows, so a fixed large budget serves for all the calls. *)
Lemma ainterp_parse n {A : Set} (p : prog A) : forall g i, 35 + 20 * length i <= n ->
  ainterp e (aexec e n) p g i = ainterp e parse p g i /\
  forall a i', ainterp e parse p g i = AOk a i' -> length i' <= length i.
Proof.
  induction p as [A a|A B p IHp k IHk|A a|A x|A w|A f v p IHp|f]; intros g i L; cbn [ainterp].
  - split; [reflexivity|]. intros a' i' E. injection E as <- <-. lia.
  - destruct (IHp g i L) as [-> Hp]. destruct (ainterp e parse p g i) as [a i'|x i'|w|i'] eqn:Ep; cbn [abind];
      try (split; [reflexivity|discriminate]).
    specialize (Hp a i' eq_refl). destruct (IHk a g i') as [-> Hk]; [lia|]. split; [reflexivity|].
    intros b j E. specialize (Hk b j E). lia.
  - split; [reflexivity|]. intros r i'. destruct a; cbn [aact]; intros E; injection E as <- <-; rewrite ?length_tl; lia.
  - split; [reflexivity|discriminate].
  - split; [reflexivity|discriminate].
  - apply IHp. exact L.
  - assert (R := rank_le f). rewrite exec_parse by (unfold depth; lia). split; [reflexivity|].
    intros a i' E. assert (C := parse_consumption f g i). rewrite E in C. destruct a; cbn in C.
    + destruct (consuming f); lia.
    + destruct C as [-> _]. lia.
Qed.

Lemma parse_eq f g i : parse f g i = ainterp e parse (body f) g i.
Proof.
  assert (R := rank_le f).
  rewrite <- (exec_parse (S (35 + 20 * length i))) by (unfold depth; lia). cbn [aexec].
  apply ainterp_parse. lia.
Qed.
End Termination.
