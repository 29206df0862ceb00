(** [read_next] reads exactly the lexemes of SpecTokens.v, and panics exactly on its
    errors. *)
From Coq Require Import String List NArith ZArith Bool Arith Lia.
From Verif Require Import Base Tokens SpecTokens Tokenizer ByteFacts LoopFacts StringFacts NumberFacts.
Import ListNotations.
Local Open Scope N_scope.

(** ** Dispatch *)

Ltac no_eqb c tac :=
  repeat match goal with
  | |- context [c =? ?k] => replace (c =? k) with false by (symmetry; apply N.eqb_neq; tac)
  end.

Lemma read_slash E s h : read_next E (47 :: s) h = tok_slash (47 :: s) h.
Proof. reflexivity. Qed.
Lemma read_curly_close E s h : read_next E (125 :: s) h = tok_curly_close (125 :: s) h.
Proof. reflexivity. Qed.
Lemma read_tick E s h : read_next E (96 :: s) h = tok_template_head (96 :: s).
Proof. reflexivity. Qed.
Lemma read_quote E q s h : q = 34 \/ q = 39 -> read_next E (q :: s) h = tok_str q (q :: s).
Proof. intros [-> | ->]; reflexivity. Qed.
Lemma read_zero E s h : read_next E (48 :: s) h = tok_zero_num E (48 :: s).
Proof. reflexivity. Qed.
Lemma read_digit E d s h : 49 <= d <= 57 -> read_next E (d :: s) h = tok_num E (d :: s).
Proof.
  intros H. unfold read_next. cbn [length Nat.eqb]. change (at_ (d :: s) 0) with d.
  no_eqb d lia. cbn [orb]. rewrite (proj2 (in_range_iff 49 57 d)) by lia. reflexivity.
Qed.
Lemma read_dot_digit E d s h : digit d -> read_next E (46 :: d :: s) h = tok_fractional E (46 :: d :: s).
Proof.
  unfold digit. intros H. unfold read_next. cbn [length Nat.eqb].
  change (at_ (46 :: d :: s) 0) with 46. change (at_ (46 :: d :: s) 1) with d.
  replace (d =? 46) with false by (symmetry; apply N.eqb_neq; lia).
  rewrite andb_false_r. rewrite (proj2 (in_range_iff 48 57 d)) by lia. reflexivity.
Qed.
Lemma read_ident E c s h : ident_char c -> ~ digit c -> read_next E (c :: s) h = tok_ident (c :: s).
Proof.
  unfold ident_char, digit, upper, lower. intros H1 H2.
  unfold read_next. cbn [length Nat.eqb]. change (at_ (c :: s) 0) with c. unfold is_blank_byte.
  no_eqb c lia. cbn [orb andb]. rewrite (proj2 (in_range_not 49 57 c)) by lia. reflexivity.
Qed.
Lemma read_line_terminator E t r h : In t line_terminators ->
  read_next E (t ++ r) h = TOk (TLineTerminator, length t).
Proof. intros [<-|[<-|[<-|[<-|[]]]]]; reflexivity. Qed.
Lemma read_nbsp E r h : read_next E (nbsp ++ r) h = TPanic (P_unreachable "read_next").
Proof. reflexivity. Qed.
Lemma read_bom E r h : read_next E (bom ++ r) h = TPanic (P_unreachable "read_next").
Proof. reflexivity. Qed.

(** ** Punctuators *)

Definition all_punctuators : list punctuator :=
  [CurlyOpen; CurlyClose; ParenOpen; ParenClose; SquareOpen; SquareClose;
   Semicolon; Comma; Tilde; Question; Colon; Period; Ellipsis;
   LAngle; LAngleEq; LAngleAngle; LAngleAngleEq; LAngleExclamDashDash;
   RAngle; RAngleEq; RAngleAngle; RAngleAngleEq; RAngleAngleAngle; RAngleAngleAngleEq;
   Exclam; ExclamEq; ExclamEqEq; Eq_; Arrow; EqEq; EqEqEq;
   Plus; PlusEq; PlusPlus; Minus; MinusEq; MinusMinus; MinusMinusAngle;
   Percent; PercentEq; Star; StarEq; StarStar; StarStarEq; Slash; SlashEq;
   Amp; AmpAmp; AmpEq; Bar; BarBar; BarEq; Caret; CaretEq].
Lemma all_punctuators_in p : In p all_punctuators.
Proof. destruct p; cbn; tauto. Qed.

Lemma longest_exists_in s l :
  (exists q, In q l /\ q <> LAngleExclamDashDash /\ begins (spelling q) s) ->
  exists p, p <> LAngleExclamDashDash /\ begins (spelling p) s /\
    forall q, In q l -> q <> LAngleExclamDashDash -> begins (spelling q) s ->
      (length (spelling q) <= length (spelling p))%nat.
Proof.
  induction l as [|a l IH]; intros (q & Hq & Nq & Bq); [destruct Hq|].
  assert (D : (a <> LAngleExclamDashDash /\ begins (spelling a) s) \/
              (a = LAngleExclamDashDash \/ ~ begins (spelling a) s)).
  { destruct (punctuator_eq_dec a LAngleExclamDashDash); [auto|].
    destruct (begins_dec (spelling a) s); auto. }
  assert (D2 : (exists q, In q l /\ q <> LAngleExclamDashDash /\ begins (spelling q) s) \/
               forall q, In q l -> q <> LAngleExclamDashDash -> ~ begins (spelling q) s).
  { clear. induction l as [|b l IH]; [right; intros ? []|].
    destruct IH as [(q & Hq & X)|IH]; [left; exists q; cbn; tauto|].
    destruct (punctuator_eq_dec b LAngleExclamDashDash) as [->|N].
    - right. intros q [<-|Hq] Nq; [congruence|auto].
    - destruct (begins_dec (spelling b) s) as [B|B]; [left; exists b; cbn; auto|].
      right. intros q [<-|Hq] Nq; auto. }
  destruct D2 as [D2|D2].
  - destruct (IH D2) as (p & Np & Bp & Mp). destruct D as [[Na Ba]|D].
    + destruct (Nat.le_ge_cases (length (spelling a)) (length (spelling p))) as [L|L].
      * exists p. repeat split; auto. intros q' [<-|Hq'] Nq' Bq'; auto.
      * exists a. repeat split; auto. intros q' [<-|Hq'] Nq' Bq'; auto.
        specialize (Mp q' Hq' Nq' Bq'). lia.
    + exists p. repeat split; auto. intros q' [<-|Hq'] Nq' Bq'; auto.
      destruct D as [D|D]; contradiction.
  - destruct D as [[Na Ba]|D].
    + exists a. repeat split; auto. intros q' [<-|Hq'] Nq' Bq'; auto.
      exfalso. eapply D2; eauto.
    + exfalso. destruct Hq as [<-|Hq]; [destruct D as [D|D]; contradiction|]. eapply D2; eauto.
Qed.

Lemma longest_exists s q : q <> LAngleExclamDashDash -> begins (spelling q) s ->
  exists p, longest_punctuator p s.
Proof.
  intros Nq Bq. destruct (longest_exists_in s all_punctuators) as (p & A & B & C).
  - exists q. auto using all_punctuators_in.
  - exists p. split; [exact A|]. split; [exact B|]. intros; apply C; auto using all_punctuators_in.
Qed.

Ltac try_longer L q :=
  let X := fresh in
  assert (X := L q ltac:(discriminate) (ex_intro _ _ eq_refl)); vm_compute in X; clear - X; lia.
Ltac refute_longer L :=
  exfalso;
  first [ try_longer L Ellipsis | try_longer L LAngleEq | try_longer L LAngleAngle
        | try_longer L LAngleAngleEq | try_longer L RAngleEq | try_longer L RAngleAngle
        | try_longer L RAngleAngleEq | try_longer L RAngleAngleAngle
        | try_longer L RAngleAngleAngleEq | try_longer L ExclamEq | try_longer L ExclamEqEq
        | try_longer L Arrow | try_longer L EqEq | try_longer L EqEqEq | try_longer L PlusEq
        | try_longer L PlusPlus | try_longer L MinusEq | try_longer L MinusMinus
        | try_longer L MinusMinusAngle | try_longer L PercentEq | try_longer L StarEq
        | try_longer L StarStar | try_longer L StarStarEq | try_longer L AmpAmp
        | try_longer L AmpEq | try_longer L BarBar | try_longer L BarEq | try_longer L CaretEq ].

Ltac punct_cases L :=
  first
  [ reflexivity
  | match goal with
    | |- context [N.eqb ?x ?k] =>
      is_var x; destruct (N.eqb_spec x k) as [->|?]; cbn [andb]; [try solve [refute_longer L] | idtac];
      punct_cases L
    end ].

Lemma read_punctuator E p r h :
  longest_punctuator p (spelling p ++ r) -> ~ hinted p -> (p = Period -> ~ head_is digit r) ->
  read_next E (spelling p ++ r) h = TOk (TPunctuator p, length (spelling p)).
Proof.
  intros (NH & _ & L) Hh Hp.
  destruct (punctuator_eq_dec p Period) as [->|NP].
  { specialize (Hp eq_refl). clear NH Hh.
    change (spelling Period ++ r) with (46 :: r) in *. unfold read_next.
    cbn [length Nat.eqb]. change (at_ (46 :: r) 0) with 46. cbn [N.eqb Pos.eqb].
    destruct r as [|x [|y r]]; [reflexivity| |];
      rewrite head_is_cons in Hp; apply digit_not in Hp;
      unfold byte_is, at_; cbn [length nth Nat.ltb Nat.leb andb]; rewrite Hp;
      punct_cases L. }
  clear Hp.
  destruct p; try congruence; try (exfalso; apply Hh; unfold hinted; tauto); clear NH Hh NP;
    match goal with |- context [spelling ?p ++ r] => let v := eval vm_compute in (spelling p) in
      change (spelling p) with v in * end;
    cbn [app] in *; unfold read_next; cbn [length Nat.eqb];
    match goal with |- context [at_ (?c :: ?l) 0] => change (at_ (c :: l) 0) with c end;
    cbn [N.eqb Pos.eqb];
    first
    [ reflexivity
    | destruct r as [|x [|y [|z r]]];
      unfold byte_is, at_; cbn [length nth Nat.ltb Nat.leb andb N.eqb Pos.eqb];
      punct_cases L ].
Qed.

