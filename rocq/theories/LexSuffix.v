(** A token does not depend on what follows it, beyond the first character of the next
    separation: replacing the text behind a token from some blank or line break on by any
    text that also starts with a blank or line break leaves the token as it is. *)
From Coq Require Import String List Arith NArith ZArith Bool Lia.
From Verif Require Import Base Tokens SpecTokens Tokenizer ByteFacts LoopFacts NumberFacts LexFacts StringFacts LexTotal SpecTrivia.
Import ListNotations.
Local Open Scope N_scope.




Inductive alike : bytes -> bytes -> Prop :=
| alike_nil : alike [] []
| alike_sep s1 s2 : separated s1 -> separated s2 -> alike s1 s2
| alike_cons b s1 s2 : alike s1 s2 -> alike (b :: s1) (b :: s2).

Lemma alike_refl s : alike s s.
Proof. induction s; constructor; assumption. Qed.
Lemma alike_app a s1 s2 : alike s1 s2 -> alike (a ++ s1) (a ++ s2).
Proof. intros H. induction a; [exact H|]. cbn. apply alike_cons, IHa. Qed.

Lemma separated_head s : separated s -> exists b r, s = b :: r /\ In b [9; 11; 12; 32; 10; 13; 226].
Proof.
  intros [(b & r & -> & H)|(t & H & r & ->)].
  - exists b, r. split; [reflexivity|]. destruct H as [->|[->|[->| ->]]]; cbn; auto 10.
  - cbn [line_terminators In] in H. destruct H as [<-|[<-|[<-|[<-|[]]]]]; cbn [app]; eexists; eexists; (split; [reflexivity|cbn; auto 10]).
Qed.

(** A property of the first character that separators do not have. *)
Lemma alike_head P s1 s2 : (forall b, In b [9; 11; 12; 32; 10; 13; 226] -> ~ P b) -> alike s1 s2 -> ~ head_is P s1 -> ~ head_is P s2.
Proof.
  intros HP H N. destruct H as [|s1 s2 S1 S2|b s1 s2 H].
  - exact N.
  - destruct (separated_head s2 S2) as (b & r & -> & B). rewrite head_is_cons. apply HP, B.
  - rewrite head_is_cons in *. exact N.
Qed.

Lemma alike_sym s1 s2 : alike s1 s2 -> alike s2 s1.
Proof. induction 1; constructor; assumption. Qed.

Lemma alike_begins p s1 s2 : Forall (fun b => ~ In b [9; 11; 12; 32; 10; 13; 226]) p -> alike s1 s2 -> begins p s1 -> begins p s2.
Proof.
  intros Hp H. revert p Hp. induction H as [|s1 s2 S1 S2|b s1 s2 H IH]; intros p Hp [r E].
  - exists r. exact E.
  - destruct (separated_head s1 S1) as (b & r1 & -> & B). destruct Hp as [|c p Hc Hp]; [exists s2; reflexivity|].
    injection E as -> _. contradiction.
  - destruct Hp as [|c p Hc Hp]; [exists (b :: s2); reflexivity|]. injection E as -> E.
    destruct (IH p Hp (ex_intro _ r E)) as [r' ->]. exists r'. reflexivity.
Qed.

Lemma alike_tail a s1 s2 : alike (a ++ s1) (a ++ s2) -> Forall (fun b => ~ In b [9; 11; 12; 32; 10; 13; 226]) a -> alike s1 s2.
Proof.
  intros H. induction a as [|c a IH]; [auto|]. intros Ha. inversion Ha as [|? ? Hc Ha']; subst.
  inversion H as [|? ? S1 S2|? ? ? H']; subst; [|apply IH; assumption].
  destruct (separated_head _ S1) as (b & r & E & B). injection E as -> _. contradiction.
Qed.

Lemma alike_length1 s1 s2 : alike s1 s2 -> length s1 = 1%nat -> length s2 = 1%nat \/ separated s2.
Proof.
  intros H L. destruct H as [|s1 s2 S1 S2|b s1 s2 H]; [discriminate|auto|].
  destruct s1; [|discriminate]. inversion H as [|? ? S1 S2|]; subst; [left; reflexivity|].
  destruct (separated_head _ S1) as (? & ? & X & _). discriminate.
Qed.

Lemma spelling_plain p : Forall (fun b => ~ In b [9; 11; 12; 32; 10; 13; 226]) (spelling p).
Proof. destruct p; vm_compute; repeat constructor; intuition discriminate. Qed.

Ltac sep_not := intros ? S X; cbn [In] in S;
  unfold exp_letter, sign_char, ident_char, radix_digit, radix_refused, hex_digit, octal_digit, binary_digit, digit, lower, upper in X;
  repeat match goal with
  | H : _ \/ _ |- _ => destruct H
  | H : False |- _ => destruct H
  end; subst; try (match goal with k : radix |- _ => destruct k end); try lia.

Lemma exponent_part_alike x r1 r2 : exponent_part x r1 -> alike r1 r2 -> exponent_part x r2.
Proof.
  intros H A. destruct H as [r H|c ds r Hc Hds Hr Hs Hne|c s ds r Hc Hs Hds Hr].
  - constructor. destruct H as [H|H].
    + left. revert H. apply alike_head; [sep_not|exact A].
    + destruct (alike_length1 _ _ A H) as [L|L]; [right; exact L|]. left.
      destruct (separated_head _ L) as (b & t & -> & B). rewrite head_is_cons.
      clear L A. revert b B. sep_not.
  - constructor; try assumption.
    + revert Hr. apply alike_head; [sep_not|exact A].
    + revert Hs. apply alike_head; [sep_not|]. apply alike_app, A.
    + destruct ds; [|discriminate]. cbn in *. intros ->. inversion A; subst; [congruence|].
      match goal with H : separated [] |- _ => destruct (separated_head _ H) as (? & ? & X & _); discriminate end.
  - apply ep_signed; try assumption. revert Hr. apply alike_head; [sep_not|exact A].
Qed.

Lemma alike_nonempty a s1 s2 : alike s1 s2 -> a ++ s1 <> [] -> a ++ s2 <> [].
Proof.
  intros A H. destruct a; [|discriminate]. cbn in *. intros ->. inversion A; subst; [congruence|].
  match goal with H : separated [] |- _ => destruct (separated_head _ H) as (? & ? & X & _); discriminate end.
Qed.

Lemma decimal_text_alike m x r1 r2 : decimal_text m x r1 -> alike r1 r2 -> decimal_text m x r2.
Proof.
  intros H A. destruct H as [d ds x r Hd Hds Hn Hdot Hx|d ds fs x r Hd Hds Hfs Hn Hx|f fs x r Hfs Hn Hx|fs x r Hfs Hn Hne Hx|r Hz].
  - apply dt_integer; try assumption; try (eapply exponent_part_alike; eassumption).
    + revert Hn. apply alike_head; [sep_not|]. apply alike_app, A.
    + revert Hdot. apply alike_head; [sep_not; discriminate|]. apply alike_app, A.
  - apply dt_fraction; try assumption; try (eapply exponent_part_alike; eassumption).
    revert Hn. apply alike_head; [sep_not|]. apply alike_app, A.
  - apply dt_dot; try assumption; try (eapply exponent_part_alike; eassumption).
    revert Hn. apply alike_head; [sep_not|]. apply alike_app, A.
  - apply dt_zero_dot; try assumption; try (eapply exponent_part_alike; eassumption).
    + revert Hn. apply alike_head; [sep_not|]. apply alike_app, A.
    + rewrite app_assoc in *. eapply alike_nonempty; eassumption.
  - apply dt_zero. destruct Hz as [Hz|Hz].
    + destruct r as [|b r].
      * inversion A as [|? ? S1|]; subst; [left; cbn; lia|]. destruct (separated_head _ S1) as (? & ? & X & _). discriminate.
      * destruct r; [|cbn in Hz; lia]. destruct (alike_length1 _ _ A eq_refl) as [L|L]; [left; lia|].
        right. destruct (separated_head _ L) as (c & t & -> & B). rewrite head_is_cons.
        intros X. cbn in B, X. intuition (subst; discriminate).
    + right. revert Hz. apply alike_head; [|exact A]. intros b B X. cbn in B, X. intuition (subst; discriminate).
Qed.

Theorem lexeme_alike checks h w t r1 r2 :
  lexeme checks h w t r1 -> alike r1 r2 -> w <> [] -> (forall v, t <> TComment CF_Line v) -> lexeme checks h w t r2.
Proof.
  intros H A NE NL. destruct H; try congruence; try (constructor; assumption).
  - constructor; try assumption.
    + destruct H as (Hp & Hb & Hl). split; [exact Hp|]. split; [eexists; reflexivity|].
      intros q Hq Bq. apply Hl; [exact Hq|]. eapply alike_begins; [apply spelling_plain| |exact Bq].
      apply alike_app, alike_sym, A.
    + intros ->. specialize (H1 eq_refl). revert H1. apply alike_head; [sep_not|exact A].
  - constructor; [assumption|]. revert H0. apply alike_head; [sep_not; discriminate|exact A].
  - constructor; try assumption. revert H4. apply alike_head; [sep_not|exact A].
  - constructor; try assumption. revert H2. apply alike_head; [sep_not|exact A].
  - econstructor; eassumption.
  - constructor; try assumption. eapply decimal_text_alike; eassumption.
  - econstructor; try eassumption.
    + revert H2. apply alike_head; [sep_not|exact A].
    + revert H3. apply alike_head; [sep_not|exact A].
Qed.

(** ** The value of a number depends on its text only *)
Lemma exponent_loop_ext E ds r : Forall digit ds -> ~ head_is digit r -> forall v i,
  parse_exponent_loop E (ds ++ r) v i = parse_exponent_loop E ds v i.
Proof.
  intros Hds Hr. induction Hds as [|d ds Hd Hds IH]; intros v i; cbn [app].
  - destruct r as [|b r]; [reflexivity|]. rewrite head_is_cons in Hr. cbn [parse_exponent_loop].
    unfold digit in Hr. apply in_range_not in Hr. rewrite Hr. reflexivity.
  - cbn [parse_exponent_loop]. destruct (in_range 48 57 d); [|reflexivity].
    destruct (_ || _); [|apply IH].
    destruct (i32 E (v * 10)) as [v1|]; [cbn [tbind]|reflexivity]. destruct (i32 E (v1 + _)) as [v2|]; [cbn [tbind]|reflexivity]. apply IH.
Qed.

Definition exponent_read (E : env) (x : bytes) : tres (Z * nat) :=
  match x with
  | [] => TOk (0%Z, 0%nat)
  | _ :: ds =>
    match ds with
    | s :: ds' =>
      if (s =? 43) || (s =? 45) then
        tdo (value, i) <- parse_exponent_loop E ds' 0 2 ;;
        tdo v <- i32 E ((if N.eqb s 45 then -1 else 1) * value)%Z ;; TOk (v, i)
      else tdo (value, i) <- parse_exponent_loop E ds 0 1 ;; tdo v <- i32 E (1 * value)%Z ;; TOk (v, i)
    | [] => tdo (value, i) <- parse_exponent_loop E ds 0 1 ;; tdo v <- i32 E (1 * value)%Z ;; TOk (v, i)
    end
  end.

Lemma exponent_read_eq E x r : exponent_part x r -> parse_exponent E (x ++ r) = exponent_read E x.
Proof.
  intros H. destruct H as [r H|c ds r Hc Hds Hr Hs Hne|c s ds r Hc Hs Hds Hr].
  - apply exponent_none, H.
  - assert (P : parse_exponent E ((c :: ds) ++ r) =
                tdo (value, i) <- parse_exponent_loop E (ds ++ r) 0 1 ;;
                tdo v <- i32 E (1 * value)%Z ;; TOk (v, i)).
    { unfold parse_exponent. cbn [app].
      replace (Nat.leb 2 (length (c :: ds ++ r))) with true; cycle 1.
      { symmetry. apply Nat.leb_le. destruct (ds ++ r); [congruence|cbn; lia]. }
      unfold at_ at 1 2. cbn [nth]. rewrite (proj1 (exp_test c) Hc).
      destruct (ds ++ r) as [|b t] eqn:Et; [congruence|].
      unfold at_. cbn [nth].
      rewrite head_is_cons, sign_test in Hs. destruct (b =? 43); [exfalso; apply Hs; reflexivity|].
      destruct (b =? 45); [exfalso; apply Hs; reflexivity|]. reflexivity. }
    rewrite P, exponent_loop_ext by assumption. unfold exponent_read. destruct ds as [|s ds]; [reflexivity|].
    cbn [app] in Hs. rewrite head_is_cons, sign_test in Hs. destruct ((s =? 43) || (s =? 45)); [congruence|reflexivity].
  - unfold parse_exponent, exponent_read. cbn [app length Nat.leb]. unfold at_. cbn [nth].
    rewrite (proj1 (exp_test c) Hc). rewrite (proj1 (sign_test s) Hs).
    destruct Hs as [-> | ->].
    + change (43 =? 43) with true. change (43 =? 45) with false. cbv iota. cbn [skipn]. rewrite exponent_loop_ext by assumption. reflexivity.
    + change (45 =? 43) with false. change (45 =? 45) with true. cbv iota. cbn [skipn]. rewrite exponent_loop_ext by assumption. reflexivity.
Qed.

Lemma tok_decimal_ext E m x r1 r2 : decimal_text m x r1 -> decimal_text m x r2 -> utf8 (m ++ x ++ r1) -> utf8 (m ++ x ++ r2) ->
  tok_decimal E (m ++ x ++ r1) = tok_decimal E (m ++ x ++ r2).
Proof.
  intros D1 D2 U1 U2.
  assert (N48 : forall r, decimal_text [48] x r -> x = []).
  { intros r D. inversion D; subst; try reflexivity; try lia; destruct ds; discriminate. }
  assert (Z48 : forall r, decimal_text [48] x r -> utf8 ([48] ++ x ++ r) -> tok_decimal E ([48] ++ x ++ r) = TOk (TNumeric f64_zero, 1%nat)).
  { intros r D U. pose proof (N48 r D) as X0. clear D1 D2 U1 U2 N48. subst x.
    destruct (tok_decimal_eq E [48] [] r D U) as [(_ & _ & ->)|(Hx & ->)]; [reflexivity|].
    rewrite (exponent_read_eq E [] r Hx). reflexivity. }
  destruct (tok_decimal_eq E m x r1 D1 U1) as [(-> & -> & _)|(X1 & Q1)]; [rewrite !Z48 by assumption; reflexivity|].
  destruct (tok_decimal_eq E m x r2 D2 U2) as [(-> & -> & _)|(X2 & Q2)]; [rewrite !Z48 by assumption; reflexivity|].
  rewrite Q1, Q2, !exponent_read_eq by assumption. reflexivity.
Qed.

Lemma radix_loop_ext k ds r : Forall (radix_digit k) ds -> ~ head_is (radix_digit k) r -> ~ head_is (radix_refused k) r -> forall v i,
  radix_loop k (ds ++ r) v i = radix_loop k ds v i.
Proof.
  intros Hds Hr Hr2. induction Hds as [|d ds Hd Hds IH]; intros v i; cbn [app].
  - destruct r as [|b r]; [reflexivity|]. rewrite head_is_cons in Hr, Hr2.
    destruct k; cbn [radix_loop hex_loop octal_loop binary_loop radix_digit radix_refused] in *.
    + rewrite hex_iff in Hr. destruct (in_range 48 57 b); [contradiction Hr; reflexivity|].
      destruct (in_range 97 102 b); [contradiction Hr; reflexivity|].
      destruct (in_range 65 70 b); [contradiction Hr; reflexivity|]. reflexivity.
    + destruct (in_range 48 55 b) eqn:E1; [apply in_range_iff in E1; contradiction|].
      destruct (N.eqb_spec b 56); [lia|]. destruct (N.eqb_spec b 57); [lia|]. reflexivity.
    + destruct (in_range 48 49 b) eqn:E0; [apply in_range_iff in E0; contradiction|].
      destruct (in_range 50 57 b) eqn:E1; [apply in_range_iff in E1; contradiction|]. reflexivity.
  - destruct k; cbn [radix_loop hex_loop octal_loop binary_loop radix_digit] in *.
    + repeat (match goal with |- context [in_range ?a ?b d] => destruct (in_range a b d) end; [apply IH|]). reflexivity.
    + repeat (match goal with |- context [if ?c then _ else _] => destruct c end; try apply IH; try reflexivity).
    + repeat (match goal with |- context [if ?c then _ else _] => destruct c end; try apply IH; try reflexivity).
Qed.

Theorem read_alike E h w t r1 r2 :
  lexeme (overflow_checks E) h w t r1 -> read_next E (w ++ r1) h = TOk (t, length w) ->
  alike r1 r2 -> w <> [] -> (forall v, t <> TComment CF_Line v) -> utf8 (w ++ r1) -> utf8 (w ++ r2) ->
  read_next E (w ++ r2) h = TOk (t, length w).
Proof.
  intros H R A NE NL U1 U2. pose proof (lexeme_alike _ _ _ _ _ _ H A NE NL) as H2.
  destruct (lexeme_read E h w t r2 H2 U2) as (t' & R2 & ST).
  destruct H; cbn [same_token] in ST; try (rewrite R2, ST; reflexivity).
  - (* decimal *)
    clear H2 ST NE NL R2. rewrite <- R. symmetry.
    pose proof (decimal_text_alike _ _ _ _ H A) as D2.
    rewrite <- !app_assoc. rewrite <- app_assoc in U1, U2.
    assert (Q : forall r, decimal_text m x r -> read_next E (m ++ x ++ r) h = tok_decimal E (m ++ x ++ r)).
    { clear. intros r H. destruct H as [d ds|d ds fs|f fs x r Hf|fs|]; cbn [app].
      + rewrite read_digit by assumption. unfold tok_decimal, at_. cbn [nth].
        destruct (N.eqb_spec d 46); [lia|]. destruct (N.eqb_spec d 48); [lia|]. reflexivity.
      + rewrite read_digit by assumption. unfold tok_decimal, at_. cbn [nth].
        destruct (N.eqb_spec d 46); [lia|]. destruct (N.eqb_spec d 48); [lia|]. reflexivity.
      + rewrite read_dot_digit by (inversion Hf; assumption). reflexivity.
      + rewrite read_zero. reflexivity.
      + rewrite read_zero. reflexivity. }
    rewrite (Q _ H), (Q _ D2). apply tok_decimal_ext; assumption.
  - (* radix *)
    clear ST NE NL R2. rewrite <- R. symmetry. cbn [app] in *. rewrite !read_zero.
    assert (Hr1 : ~ head_is (radix_digit k) r2) by (revert H2; intros _; revert H3; apply alike_head; [sep_not|exact A]).
    assert (Hr2 : ~ head_is (radix_refused k) r2) by (revert H4; apply alike_head; [sep_not|exact A]).
    rewrite !(tok_zero_radix E k) by assumption. destruct (u8_sub E d 48) as [v|]; [cbn [tbind]|reflexivity].
    rewrite !radix_loop_ext by assumption.
    destruct (proj1 (radix_loop_spec k ds [] H1 (head_is_nil _) (f64_of_u8 v) 3%nat) (head_is_nil _)) as [v' Q].
    rewrite app_nil_r in Q. rewrite Q. cbn [tbind].
    change (48 :: l :: d :: ds ++ r) with ((48 :: l :: d :: ds) ++ r) in *.
    change (48 :: l :: d :: ds ++ r2) with ((48 :: l :: d :: ds) ++ r2) in *.
    change (3 + length ds)%nat with (length (48 :: l :: d :: ds)).
    assert (AA : Forall (fun b => b < 128) (48 :: l :: d :: ds))
      by (repeat constructor; [eapply radix_letter_ascii; eassumption | apply H0 | eapply radix_digit_ascii; eassumption]).
    rewrite !slice_0_app; [reflexivity| |]; eapply utf8_rest_ascii; eassumption.
Qed.
