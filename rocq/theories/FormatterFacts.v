(** Proofs about the formatter. *)
From Coq Require Import String List NArith Bool Arith Lia.
From Verif Require Import Base Tokens SpecTokens Formatter SpecFormatter.
Import ListNotations.

(** ** Settings are scoped and the text is the layout of the items *)
Definition state_after (f f' : formatter) (l : list item) (r : option restriction) : Prop :=
  scope_of f' = scope_of f /\ f_restriction f' = r /\
  f_output f' = f_output f ++ layout (f_keyword f) l /\ f_keyword f' = fold_left word_last l (f_keyword f).

Lemma layout_app k a b : layout k (a ++ b) = layout k a ++ layout (fold_left word_last a k) b.
Proof.
  revert k. induction a as [|i a IH]; intros k; [reflexivity|]. cbn [app layout fold_left]. rewrite IH, !app_assoc. reflexivity.
Qed.

Lemma write_flags flags f : fold_left (fun f c => write [c] f) flags f = write flags f.
Proof.
  revert f. induction flags as [|c l IH]; intros f; cbn [fold_left]; [unfold write; destruct f; cbn; rewrite app_nil_r; reflexivity|].
  rewrite IH. unfold write. cbn. rewrite <- app_assoc. reflexivity.
Qed.

Lemma print_one p f : state_after f (do_print p f) [item_of p] (after_item (item_of p) (f_restriction f)).
Proof.
  destruct f as [pr i o r n k out]. unfold state_after. destruct p as [kw|p|name raw|value raw|s|value flags|value raw|value raw];
    cbn [do_print item_of]; unfold fmt_keyword, fmt_identifier, before_word, fmt_string, fmt_number, fmt_regexp, fmt_jsx_string, fmt_verbatim, given;
    rewrite ?write_flags; try destruct raw; destruct k; cbn; rewrite ?app_nil_r; repeat (rewrite <- app_assoc; cbn [app]); repeat split.
Qed.

Lemma restricted_forbidden r q : restricted r q = if in_dec sequence_eq_dec q (forbidden r) then true else false.
Proof. destruct r as [[]|], q; reflexivity. Qed.

Lemma state_trans f f1 f2 a b r1 r2 : state_after f f1 a r1 -> state_after f1 f2 b r2 -> state_after f f2 (a ++ b) r2.
Proof.
  intros (A & _ & B & C) (D & E & F & G). unfold state_after. rewrite D, E, F, G, B, C, layout_app, fold_left_app, !app_assoc. repeat split. exact A.
Qed.

Lemma acquire_spec l f : let f1 := fst (acquire l f) in let drop := snd (acquire l f) in
  match brackets l (scope_of f) (f_restriction f) with
  | Some b =>
    scope_of f1 = between b (scope_of f) /\ f_restriction f1 = None /\ f_output f1 = f_output f ++ fpunct_text (fst b) /\ f_keyword f1 = false /\
    forall g, scope_of g = scope_of f1 -> scope_of (drop g) = scope_of f /\ f_restriction (drop g) = None /\
      f_output (drop g) = f_output g ++ fpunct_text (snd b) /\ f_keyword (drop g) = false
  | None =>
    scope_of f1 = within l (scope_of f) /\
    f_restriction f1 = match l with L_restrict_lookahead x => Some x | _ => f_restriction f end /\
    f_output f1 = f_output f /\ f_keyword f1 = f_keyword f /\
    forall g, scope_of g = scope_of f1 -> scope_of (drop g) = scope_of f /\
      f_restriction (drop g) = match l, f_restriction g with L_restrict_lookahead _, Some _ => f_restriction f | _, _ => f_restriction g end /\
      f_output (drop g) = f_output g /\ f_keyword (drop g) = f_keyword g
  end.
Proof.
  destruct f as [pr i o r n kw out].
  destruct l as [p|p|x|q| | | | | | | |]; cbn [brackets scope_of f_prec f_in f_orphan f_restriction s_prec s_in s_orphan acquire];
    unfold lock_precedence, lock_lookahead_wrap_parens, lock_in_wrap_parens, lock_wrap_orphan_if; cbn [f_prec f_in f_orphan f_restriction];
    rewrite ?restricted_forbidden;
    repeat match goal with |- context [if ?x then _ else _] => lazymatch x with negb _ => fail | _ => destruct x end end;
    cbn; do 4 (split; [reflexivity|]); let HH := fresh in intros [? ? ? [?|] ? ? ?] HH; cbn in *; inversion HH; subst; repeat split.
Qed.

Lemma perform_prints u : forall f,
  state_after f (perform u f) (fst (prints (scope_of f) (f_restriction f) u)) (snd (prints (scope_of f) (f_restriction f) u)).
Proof.
  induction u as [|p k IH|l body IHb k IHk]; intros f.
  - unfold state_after. cbn. rewrite app_nil_r. repeat split.
  - cbn [perform prints]. pose proof (print_one p f) as P. pose proof (IH (do_print p f)) as Q. pose proof P as (S & R & _ & _).
    rewrite S, R in Q. destruct (prints _ _ k) as [rest r']. cbn [fst snd] in *. exact (state_trans _ _ _ [_] _ _ _ P Q).
  - cbn [perform prints]. pose proof (acquire_spec l f) as A. destruct (acquire l f) as [f1 drop]. cbn [fst snd] in A.
    destruct (brackets l (scope_of f) (f_restriction f)) as [b|]; destruct A as (S1 & R1 & O1 & K1 & D); pose proof (IHb f1) as Q; rewrite S1, R1 in Q.
    + destruct (prints (between b (scope_of f)) None body) as [inner r1]. cbn [fst snd] in Q. destruct Q as (Qs & _ & Qo & _).
      destruct (D (perform body f1) Qs) as (Ds & Dr & Do & Dk). pose proof (IHk (drop (perform body f1))) as Z. rewrite Ds, Dr in Z.
      destruct (prints (scope_of f) None k) as [rest r']. cbn [fst snd] in *.
      change (Mark (fst b) :: inner ++ Mark (snd b) :: rest) with ([Mark (fst b)] ++ inner ++ [Mark (snd b)] ++ rest).
      rewrite !app_assoc. refine (state_trans _ _ _ _ _ None _ _ Z). split; [exact Ds|]. split; [exact Dr|]. split.
      * rewrite Do, Qo, O1, K1, !layout_app, !fold_left_app. cbn. rewrite !app_nil_r, !app_assoc. reflexivity.
      * rewrite Dk, !fold_left_app. reflexivity.
    + destruct (prints (within l (scope_of f)) _ body) as [inner r1]. cbn [fst snd] in Q. destruct Q as (Qs & Qr & Qo & Qk).
      destruct (D (perform body f1) Qs) as (Ds & Dr & Do & Dk). rewrite Qr in Dr.
      pose proof (IHk (drop (perform body f1))) as Z. rewrite Ds, Dr in Z.
      destruct (prints (scope_of f) _ k) as [rest r']. cbn [fst snd] in *.
      refine (state_trans _ _ _ _ _ _ _ _ Z). split; [exact Ds|]. split; [exact Dr|]. split.
      * rewrite Do, Qo, O1, K1. reflexivity.
      * rewrite Dk, Qk, K1. reflexivity.
Qed.

Theorem display_displayed u : display u = layout false (displayed u).
Proof. unfold display. destruct (perform_prints u formatter_new) as (_ & _ & O & _). exact O. Qed.

(** ** Brackets *)
Lemma balanced_app a b : balanced a -> balanced b -> balanced (a ++ b).
Proof.
  induction 1 as [|i l N A IH|o c l l' P A IH A' IH']; intros B; [exact B|constructor; auto|].
  rewrite <- app_comm_cons, <- app_assoc. cbn [app]. apply bal_pair; auto.
Qed.
Lemma brackets_pair l s r b : brackets l s r = Some b -> pair_of_brackets (fst b) (snd b).
Proof.
  destruct l; cbn; try discriminate; repeat match goal with |- context [if ?x then _ else _] => destruct x end; try discriminate;
    intros [= <-]; constructor.
Qed.
Lemma prints_balanced u : forall s r, no_bare_brackets u -> balanced (fst (prints s r u)).
Proof.
  induction u as [|p k IH|l body IHb k IHk]; intros s r N; cbn [prints].
  - constructor.
  - destruct N as [N1 N2]. specialize (IH s (after_item (item_of p) r) N2). destruct (prints _ _ k). constructor; assumption.
  - destruct N as [N1 N2]. destruct (brackets l s r) as [b|] eqn:B.
    + pose proof (IHb (between b s) None N1) as X. pose proof (IHk s None N2) as Y.
      destruct (prints (between b s) None body), (prints s None k). apply bal_pair; auto. eapply brackets_pair, B.
    + match goal with |- context [prints (within l s) ?x body] => pose proof (IHb (within l s) x N1) as X; destruct (prints (within l s) x body) as [inner r1] end.
      match goal with |- context [prints s ?x k] => pose proof (IHk s x N2) as Y; destruct (prints s x k) as [rest r'] end.
      apply balanced_app; assumption.
Qed.

Lemma nested_app a b : nested a -> nested b -> nested (a ++ b).
Proof.
  induction 1 as [|o c l l' P A IH A' IH']; intros B; [exact B|].
  rewrite <- app_comm_cons, <- app_assoc. cbn [app]. apply nest_pair; auto.
Qed.
Lemma filter_quiet w : Forall (fun c => bracket_byte c = false) w -> filter bracket_byte w = [].
Proof. induction 1 as [|c w C _ IH]; [reflexivity|]. cbn [filter]. rewrite C. exact IH. Qed.
Lemma filter_spaced k i : filter bracket_byte (spaced_item k i) = [].
Proof. destruct i, k; reflexivity. Qed.
Lemma pair_bytes o c : pair_of_brackets o c -> exists x y, In (x, y) [(40, 41); (91, 93); (123, 125)]%N /\
  filter bracket_byte (fpunct_text o) = [x] /\ filter bracket_byte (fpunct_text c) = [y].
Proof. destruct 1; eexists _, _; (split; [|split; vm_compute; reflexivity]); cbn; auto. Qed.
Lemma prints_nested u : forall s r k, quiet u -> nested (filter bracket_byte (layout k (fst (prints s r u)))).
Proof.
  induction u as [|p u IH|l body IHb u IHk]; intros s r k Q; cbn [prints].
  - constructor.
  - destruct Q as [Q1 Q2]. specialize (IH s (after_item (item_of p) r) (word_last k (item_of p)) Q2). destruct (prints _ _ u). cbn [fst layout].
    rewrite !filter_app, filter_spaced, (filter_quiet _ Q1). exact IH.
  - destruct Q as [Q1 Q2]. destruct (brackets l s r) as [b|] eqn:B.
    + destruct (pair_bytes _ _ (brackets_pair _ _ _ _ B)) as (x & y & P & X & Y).
      pose proof (fun k => IHb (between b s) None k Q1) as H. pose proof (fun k => IHk s None k Q2) as H'.
      destruct (prints (between b s) None body) as [inner r1], (prints s None u) as [rest r2]. cbn [fst] in *.
      cbn [layout spaced_item item_text]. rewrite layout_app. cbn [layout spaced_item item_text]. cbn [app]. rewrite !filter_app, X, Y. cbn [app].
      apply nest_pair; auto.
    + match goal with |- context [prints (within l s) ?x body] => pose proof (fun k => IHb (within l s) x k Q1) as H; destruct (prints (within l s) x body) as [inner r1] end.
      match goal with |- context [prints s ?x u] => pose proof (fun k => IHk s x k Q2) as H'; destruct (prints s x u) as [rest r'] end.
      cbn [fst] in *. rewrite layout_app, filter_app. apply nested_app; auto.
Qed.
Lemma display_nested u : quiet u -> nested (filter bracket_byte (display u)).
Proof. intros Q. rewrite display_displayed. apply prints_nested, Q. Qed.
