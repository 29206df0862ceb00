(** Nested parentheses make the parser call itself to a depth proportional to their number. *)
From Coq Require Import String List Arith NArith Bool Lia.
From Verif Require Import Base Tokens ParserCore ParserBody AbstractParser.
Import ListNotations.

Definition out {A : Set} (r : ares A) : Prop := match r with AFuel _ => True | _ => False end.
Definition opening : lookahead := (false, TPunctuator ParenOpen).

Section Depth.
Variable e : token.
Notation aexec := (aexec e).

Lemma out_bind {A B : Set} (r : ares A) (k : A -> input -> ares B) : out r -> out (abind r k).
Proof. destruct r; cbn; tauto. Qed.

Lemma yield_none n g i : out (aexec n F_yield g (opening :: i)) \/ aexec n F_yield g (opening :: i) = AOk None (opening :: i).
Proof. destruct n; [left; exact I|right; reflexivity]. Qed.
Lemma declaration_none n g i : out (aexec n F_declaration g (opening :: i)) \/ aexec n F_declaration g (opening :: i) = AOk None (opening :: i).
Proof. destruct n; [left; exact I|right; reflexivity]. Qed.
Lemma labelled_none n g i : out (aexec n F_labelled g (opening :: i)) \/ aexec n F_labelled g (opening :: i) = AOk None (opening :: i).
Proof. destruct n; [left; exact I|right; reflexivity]. Qed.

Ltac first_call T := let X := fresh in destruct T as [X|X];
  [repeat apply out_bind; exact X|rewrite X; cbn [abind]].

Lemma deep d : forall n g i,
  (n <= 9 * d -> out (aexec n F_assignment g (repeat opening d ++ i))) /\
  (n + 1 <= 9 * d -> out (aexec n F_conditional g (repeat opening d ++ i))) /\
  (n + 2 <= 9 * d -> out (aexec n (F_fancy 0) g (repeat opening d ++ i))) /\
  (n + 3 <= 9 * d -> out (aexec n F_exponential g (repeat opening d ++ i))) /\
  (n + 4 <= 9 * d -> out (aexec n F_unary g (repeat opening d ++ i))) /\
  (n + 5 <= 9 * d -> out (aexec n F_update g (repeat opening d ++ i))) /\
  (n + 6 <= 9 * d -> out (aexec n (F_left_hand true) g (repeat opening d ++ i))) /\
  (n + 7 <= 9 * d -> out (aexec n F_primary g (repeat opening d ++ i))) /\
  (n + 8 <= 9 * d -> out (aexec n F_cover_parenthesized g (repeat opening d ++ i))).
Proof.
  intros n. revert d. induction n as [|n IH]; intros d g i; [repeat split; intros; exact I|].
  destruct d as [|d]; [repeat split; intros; lia|]. cbn [repeat app].
  specialize (IH (S d)) as IH1. cbn [repeat app] in IH1. pose proof (IH d) as IH0. clear IH.
  repeat split; intros H; cbn [AbstractParser.aexec body].
  - unfold parse_assignment_expression. cbn [ainterp].
    first_call (yield_none n g (repeat opening d ++ i)).
    cbn. apply out_bind. apply IH1. lia.
  - unfold parse_conditional_expression. cbn [ainterp]. apply out_bind. apply IH1. lia.
  - unfold parse_fancy. cbn [ainterp]. apply out_bind. apply IH1. lia.
  - unfold parse_exponential_expression. cbn [ainterp]. apply out_bind. apply IH1. lia.
  - cbn. apply out_bind, IH1. lia.
  - cbn. apply out_bind, IH1. lia.
  - cbn. apply out_bind, out_bind, IH1. lia.
  - cbn. apply out_bind, IH1. lia.
  - cbn. apply out_bind, out_bind, IH0. lia.
Qed.

Lemma deep_module d n g i : n <= 9 * S d -> out (ainterp e (aexec n) parse_module g (repeat opening (S d) ++ i)).
Proof.
  intros H. unfold parse_module. cbn [ainterp]. apply out_bind.
  assert (X : forall n g, n <= 9 * S d + 1 -> out (aexec n F_expression g (repeat opening (S d) ++ i))).
  { intros m f Hm. destruct m as [|m]; [exact I|]. cbn [AbstractParser.aexec body]. unfold parse_expression. cbn [ainterp]. apply out_bind.
    apply (deep (S d)). lia. }
  assert (X1 : forall n g, n <= 9 * S d + 2 -> out (aexec n F_expression_statement g (repeat opening (S d) ++ i))).
  { intros m f Hm. destruct m as [|m]; [exact I|]. cbn [AbstractParser.aexec body]. unfold parse_expression_statement. cbn [ainterp]. apply out_bind.
    apply X. lia. }
  cbn [repeat app] in *.
  assert (X2 : forall n g, n <= 9 * S d + 3 -> out (aexec n F_statement g (opening :: repeat opening d ++ i))).
  { intros m f Hm. destruct m as [|m]; [exact I|]. cbn [AbstractParser.aexec body]. unfold parse_statement. cbn [ainterp token_ abind aact cur hd statement_type_of].
    cbn. first_call (labelled_none m f (repeat opening d ++ i)). apply out_bind. apply X1. lia. }
  assert (X3 : forall n g, n <= 9 * S d + 4 -> out (aexec n F_script_item g (opening :: repeat opening d ++ i))).
  { intros m f Hm. destruct m as [|m]; [exact I|]. cbn.
    first_call (declaration_none m f (repeat opening d ++ i)). apply out_bind. apply X2. lia. }
  assert (X4 : forall n g, n <= 9 * S d + 5 -> out (aexec n F_module_item g (opening :: repeat opening d ++ i))).
  { intros m f Hm. destruct m as [|m]; [exact I|]. cbn. apply out_bind. apply X3. lia. }
  destruct n as [|n]; [exact I|]. cbn [AbstractParser.aexec body]. unfold parse_module_loop. cbn [ainterp]. apply out_bind. apply X4. lia.
Qed.
End Depth.
