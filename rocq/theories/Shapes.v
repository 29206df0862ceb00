(** Only the shapes of the tokens matter to the parser.

    [rsim n R p q]: where [p] runs from a state, [q] runs in the same way from every state
    that differs from it by tokens of the same shape, if its tokenizer supplies tokens of
    the same shape under the same hints; the results are related by [R]. *)
From Coq Require Import String List Arith NArith Bool Lia.
From Verif Require Import Base Tokens SpecTokens SpecShapes ParserCore ParserBody ParserExec HintParser ByteFacts.
Import ListNotations.

Definition vocab (name : bytes) : bool := existsb (fun w => kw w name) vocabulary.

Lemma chosen_vocab name : chosen name -> vocab name = false.
Proof.
  intros H. apply not_true_iff_false. intros X. apply existsb_exists in X. destruct X as (w & I & K).
  apply beqb_eq in K. exact (H w I K).
Qed.
Lemma chosen_kw name k : chosen name -> existsb (String.eqb k) vocabulary = true -> kw k name = false.
Proof.
  intros H X. apply existsb_exists in X. destruct X as (w & I & K). apply String.eqb_eq in K. subst w.
  apply not_true_iff_false. intros Y. apply beqb_eq in Y. exact (H k I Y).
Qed.

Lemma shape_kw k a b : same_shape (TIdent a) (TIdent b) -> existsb (String.eqb k) vocabulary = true -> kw k a = kw k b.
Proof. intros [->|[A B]] K; [reflexivity|]. rewrite (chosen_kw a k A K), (chosen_kw b k B K). reflexivity. Qed.
Lemma shape_kws ks a b : same_shape (TIdent a) (TIdent b) -> forallb (fun k => existsb (String.eqb k) vocabulary) ks = true ->
  existsb (fun k => kw k a) ks = existsb (fun k => kw k b) ks.
Proof.
  intros S. induction ks as [|k ks IH]; cbn [forallb existsb]; intros H; [reflexivity|]. apply andb_true_iff in H.
  rewrite (shape_kw k a b S (proj1 H)), IH by apply H. reflexivity.
Qed.
Lemma shape_binding g a b : same_shape (TIdent a) (TIdent b) -> is_binding_identifier g a = is_binding_identifier g b.
Proof.
  intros S. unfold is_binding_identifier.
  rewrite !(shape_kws _ a b S) by reflexivity. rewrite !(fun k => shape_kw k a b S) by reflexivity. reflexivity.
Qed.

Definition read_alike (x y : hint * lookahead) : Prop := fst x = fst y /\ shaped (snd x) (snd y).

Section Two.
Context {T1 : Type}.
Variable next1 : T1 -> hint -> tres (token * token_range * T1).
Variable rf1 : nat.

Record srel {T2 : Type} (s : pstate T1) (s2 : pstate T2) : Prop := {
  sr_hint : ps_hint s = ps_hint s2;
  sr_flags : ps_flags s = ps_flags s2;
  sr_stack : ps_stack s = ps_stack s2;
  sr_slot0 : shaped (ps_slot0 s) (ps_slot0 s2);
  sr_slot1 : shaped (ps_slot1 s) (ps_slot1 s2);
  sr_index : ps_index s = ps_index s2;
  sr_count : ps_count s = ps_count s2
}.

(** Every outcome of [p] is the outcome in all related states with alike reads. *)
Definition rsim (n : nat) {A : Set} (p : prog A) : Prop := forall s,
  match interp next1 rf1 (exec next1 rf1 body n) p s with
  | ROk a s' => exists rl, reads next1 rf1 (ps_tok s) rl (ps_tok s') /\
      forall (T2 : Type) (next2 : T2 -> hint -> tres (token * token_range * T2)) rf2 s2 rl2 t2', srel s s2 -> Forall2 read_alike rl rl2 -> reads next2 rf2 (ps_tok s2) rl2 t2' ->
        exists s2', interp next2 rf2 (exec next2 rf2 body n) p s2 = ROk a s2' /\ ps_tok s2' = t2' /\ srel s' s2'
  | RErr x s' => exists rl, reads next1 rf1 (ps_tok s) rl (ps_tok s') /\
      forall (T2 : Type) (next2 : T2 -> hint -> tres (token * token_range * T2)) rf2 s2 rl2 t2', srel s s2 -> Forall2 read_alike rl rl2 -> reads next2 rf2 (ps_tok s2) rl2 t2' ->
        exists s2', interp next2 rf2 (exec next2 rf2 body n) p s2 = RErr x s2' /\ ps_tok s2' = t2' /\ srel s' s2'
  | RPanic _ | RFuel _ => True
  end.

Lemma reads_nothing {T2 : Type} next2 rf2 (t : T2) rl t' : Forall2 read_alike [] rl -> reads next2 rf2 t rl t' -> t' = t.
Proof. intros F R. inversion F; subst. eapply reads_nil_inv. exact R. Qed.

Lemma r_ret n {A : Set} (a : A) : rsim n (Ret a).
Proof.
  intros s. cbn [interp]. exists []. split; [constructor|]. intros T2 next2 rf2 s2 rl2 t2' S F K.
  rewrite (reads_nothing _ _ _ _ _ F K). exists s2. auto.
Qed.
Lemma r_throw n {A : Set} x : rsim n (@Throw A x).
Proof.
  intros s. cbn [interp]. exists []. split; [constructor|]. intros T2 next2 rf2 s2 rl2 t2' S F K.
  rewrite (reads_nothing _ _ _ _ _ F K). exists s2. auto.
Qed.
Lemma r_crash n {A : Set} w : rsim n (@Crash A w).
Proof. intros s. exact I. Qed.

(** An action whose results are related by [R], and a continuation that tells related
    results not apart. *)
Definition asim (n : nat) {A : Set} (R : A -> A -> Prop) (p : prog A) : Prop := forall s,
  match interp next1 rf1 (exec next1 rf1 body n) p s with
  | ROk a s' => exists rl, reads next1 rf1 (ps_tok s) rl (ps_tok s') /\
      forall (T2 : Type) (next2 : T2 -> hint -> tres (token * token_range * T2)) rf2 s2 rl2 t2', srel s s2 -> Forall2 read_alike rl rl2 -> reads next2 rf2 (ps_tok s2) rl2 t2' ->
        exists a2 s2', interp next2 rf2 (exec next2 rf2 body n) p s2 = ROk a2 s2' /\ ps_tok s2' = t2' /\ R a a2 /\ srel s' s2'
  | RErr x s' => exists rl, reads next1 rf1 (ps_tok s) rl (ps_tok s') /\
      forall (T2 : Type) (next2 : T2 -> hint -> tres (token * token_range * T2)) rf2 s2 rl2 t2', srel s s2 -> Forall2 read_alike rl rl2 -> reads next2 rf2 (ps_tok s2) rl2 t2' ->
        exists s2', interp next2 rf2 (exec next2 rf2 body n) p s2 = RErr x s2' /\ ps_tok s2' = t2' /\ srel s' s2'
  | RPanic _ | RFuel _ => True
  end.

Lemma sim_asim n {A : Set} (p : prog A) : rsim n p -> asim n eq p.
Proof.
  intros H s. specialize (H s). destruct (interp next1 rf1 _ p s) as [a s'|x s'|q|s']; auto.
  destruct H as (rl & R & H). exists rl. split; [exact R|]. intros T2 next2 rf2 s2 rl2 t2' J F K.
  destruct (H T2 next2 rf2 s2 rl2 t2' J F K) as (s2' & Q & T & J'). exists a, s2'. auto.
Qed.
Lemma asim_sim n {A : Set} (p : prog A) : asim n eq p -> rsim n p.
Proof.
  intros H s. specialize (H s). destruct (interp next1 rf1 _ p s) as [a s'|x s'|q|s']; auto.
  destruct H as (rl & R & H). exists rl. split; [exact R|]. intros T2 next2 rf2 s2 rl2 t2' J F K.
  destruct (H T2 next2 rf2 s2 rl2 t2' J F K) as (a2 & s2' & Q & T & Ra & J'). subst a2. exists s2'. auto.
Qed.

Lemma a_bind n {A B : Set} (R : A -> A -> Prop) (S : B -> B -> Prop) p (k : A -> prog B) :
  asim n R p -> (forall a b, R a b -> k a = k b) -> (forall a, asim n S (k a)) -> asim n S (Bind p k).
Proof.
  intros P E K s. specialize (P s). cbn [interp].
  destruct (interp next1 rf1 (exec next1 rf1 body n) p s) as [a s1|x s1|p1|s1]; [| |exact I|exact I].
  - destruct P as (rl & R1 & P). specialize (K a s1).
    destruct (interp next1 rf1 (exec next1 rf1 body n) (k a) s1) as [a2 s2'|x s2'|p1|s2'] eqn:Q1; [| |exact I|exact I];
      destruct K as (rl1 & R2 & K); exists (rl ++ rl1); (split; [eapply reads_app; eassumption|]);
      intros T2 next2 rf2 s2 rl2 t2' J F Rd; apply Forall2_app_inv_l in F; destruct F as (ra & rb & Fa & Fb & ->);
      apply reads_split in Rd; destruct Rd as (u & Ra & Rb);
      destruct (P T2 next2 rf2 s2 ra u J Fa Ra) as (b & s3 & Q & T & Rab & J3); subst u; rewrite Q, <- (E a b Rab);
      exact (K T2 next2 rf2 s3 rb t2' J3 Fb Rb).
  - destruct P as (rl & R1 & P). exists rl. split; [exact R1|]. intros T2 next2 rf2 s2 rl2 t2' J F Rd.
    destruct (P T2 next2 rf2 s2 rl2 t2' J F Rd) as (s3 & Q & T & J3). exists s3. rewrite Q. auto.
Qed.

Lemma r_bind n {A B : Set} p (k : A -> prog B) : rsim n p -> (forall a, rsim n (k a)) -> rsim n (Bind p k).
Proof.
  intros P K. apply asim_sim. apply (a_bind n eq); [apply sim_asim, P|congruence|]. intros a. apply sim_asim, K.
Qed.

Lemma slot_rel {T2 : Type} s (s2 : pstate T2) i : srel s s2 -> shaped (slot s i) (slot s2 i).
Proof. intros J. unfold slot. destruct (Nat.eqb i 0); apply J. Qed.

Lemma shaped_refl la : shaped la la.
Proof. split; [reflexivity|]. destruct (snd la); cbn; auto. Qed.

Lemma a_line n : asim n shaped (Act ATokenLine).
Proof.
  intros s. cbn [interp do_act]. unfold do_token_line. destruct (Nat.eqb (ps_count s) 0) eqn:Z.
  - destruct (read_token next1 rf1 (ps_tok s) (ps_hint s) false) as [la t'|q|] eqn:R; [|exact I|exact I].
    exists [(ps_hint s, la)]. split; [apply reads_one; exact R|]. intros T2 next2 rf2 s2 rl2 t2' J F K.
    inversion F as [|? [h la2] ? ? (E & SH) F']; subst. inversion F'; subst. cbn [fst snd] in *. subst h.
    apply reads_one_inv in K. cbn [interp do_act]. unfold do_token_line. rewrite <- (sr_count _ _ J), Z, <- (sr_hint _ _ J), K.
    eexists _, _. split; [reflexivity|]. split; [reflexivity|]. split; [exact SH|]. destruct J. constructor; cbn; auto; congruence.
  - exists []. split; [constructor|]. intros T2 next2 rf2 s2 rl2 t2' J F K. rewrite (reads_nothing _ _ _ _ _ F K). cbn [interp do_act].
    unfold do_token_line. rewrite <- (sr_count _ _ J), Z. eexists _, _. split; [reflexivity|]. split; [reflexivity|].
    rewrite <- (sr_index _ _ J). split; [apply slot_rel, J|exact J].
Qed.

Lemma a_pop n : asim n same_shape (Act APop).
Proof.
  intros s. cbn [interp do_act]. unfold do_pop. destruct (ps_count s) as [|c] eqn:C; [exact I|].
  exists []. split; [constructor|]. intros T2 next2 rf2 s2 rl2 t2' J F K. rewrite (reads_nothing _ _ _ _ _ F K). cbn [interp do_act].
  unfold do_pop. rewrite <- (sr_count _ _ J), C, <- (sr_index _ _ J). eexists _, _. split; [reflexivity|]. split; [reflexivity|].
  pose proof (slot_rel s s2 (ps_index s) J) as [X1 X2]. split; [exact X2|].
  destruct J. constructor; cbn; auto; destruct (Nat.eqb (ps_index s) 0); auto; split; cbn; auto.
Qed.

Definition option_rel {A : Set} (R : A -> A -> Prop) (a b : option A) : Prop :=
  match a, b with Some x, Some y => R x y | None, None => True | _, _ => False end.

Lemma shape_not_ident t t2 : same_shape t t2 -> is_ident t = is_ident t2.
Proof. destruct t, t2; cbn; try discriminate; auto. Qed.

Lemma a_look n : asim n (option_rel shaped) (Act ALookahead).
Proof.
  intros s. cbn [interp do_act]. unfold do_lookahead.
  pose proof (a_line n s) as L. cbn [interp do_act] in L.
  destruct (do_token_line next1 rf1 s) as [cur s1|x s1|q|s1]; [| |exact I|exact I].
  - destruct L as (rl & R1 & L).
    destruct (Nat.ltb (ps_count s1) 2) eqn:Z.
    + destruct (is_ident (snd cur)) eqn:ID.
      * destruct (snd cur) as [pp|f v| | |v f|name|v|v|f c r|] eqn:Ec; try discriminate.
        destruct (read_token next1 rf1 (ps_tok s1) (set_expression (ps_hint s1) (negb (is_binding_identifier (ps_flags s1) name))) false)
          as [la t'|q|] eqn:R; [|exact I|exact I].
        exists (rl ++ [(set_expression (ps_hint s1) (negb (is_binding_identifier (ps_flags s1) name)), la)]).
        split; [eapply reads_app; [exact R1|apply reads_one; exact R]|]. intros T2 next2 rf2 s2 rl2 t2' J F K.
        apply Forall2_app_inv_l in F. destruct F as (ra & rb & Fa & Fb & ->). apply reads_split in K. destruct K as (u & Ka & Kb).
        destruct (L T2 next2 rf2 s2 ra u J Fa Ka) as (cur2 & s3 & Q & T & (SC1 & SC2) & J3). subst u.
        inversion Fb as [|? [h la2] ? ? (E & SH) F']; subst. inversion F'; subst. cbn [fst snd] in *. subst h.
        apply reads_one_inv in Kb. cbn [interp do_act]. unfold do_lookahead. cbn [interp do_act] in Q. rewrite Q.
        rewrite Ec in SC2. destruct (snd cur2) as [pp|f v| | |v f|name2|v|v|f c r|]; try (cbn in SC2; discriminate).
        rewrite (shape_binding _ name name2 SC2) in Kb. rewrite <- (sr_count _ _ J3), Z, <- (sr_hint _ _ J3), <- (sr_flags _ _ J3), Kb.
        eexists _, _. split; [reflexivity|]. split; [reflexivity|]. split; [exact SH|]. rewrite <- (sr_index _ _ J3).
        destruct J3. constructor; cbn; auto; destruct (Nat.eqb _ 0); auto; congruence.
      * assert (X : match snd cur with TIdent name => False | _ => True end) by (destruct (snd cur); try discriminate; exact I).
        destruct (snd cur) as [pp|f v| | |v f|name|v|v|f c r|] eqn:Ec; try contradiction;
        (exists rl; split; [exact R1|]; intros T2 next2 rf2 s2 rl2 t2' J F K;
         destruct (L T2 next2 rf2 s2 rl2 t2' J F K) as (cur2 & s3 & Q & T & (SC1 & SC2) & J3);
         cbn [interp do_act] in Q |- *; unfold do_lookahead; rewrite Q, <- (sr_count _ _ J3), Z; rewrite Ec in SC2;
         apply shape_not_ident in SC2; cbn [is_ident] in SC2; destruct (snd cur2); try discriminate;
         exists None, s3; (split; [reflexivity|]; split; [exact T|]; split; [exact I|exact J3])).
    + exists rl. split; [exact R1|]. intros T2 next2 rf2 s2 rl2 t2' J F K. destruct (L T2 next2 rf2 s2 rl2 t2' J F K) as (cur2 & s3 & Q & T & SC & J3).
      cbn [interp do_act] in Q |- *. unfold do_lookahead. rewrite Q, <- (sr_count _ _ J3), Z.
      eexists _, _. split; [reflexivity|]. split; [exact T|]. rewrite <- (sr_index _ _ J3). split; [apply slot_rel, J3|exact J3].
  - destruct L as (rl & R1 & L). exists rl. split; [exact R1|]. intros T2 next2 rf2 s2 rl2 t2' J F K.
    destruct (L T2 next2 rf2 s2 rl2 t2' J F K) as (s3 & Q & T & J3). cbn [interp do_act] in Q |- *. unfold do_lookahead. rewrite Q. exists s3. auto.
Qed.

Lemma r_expect n : rsim n expect_expression.
Proof.
  intros s. cbn. exists []. split; [constructor|]. intros T2 next2 rf2 s2 rl2 t2' J F K. rewrite (reads_nothing _ _ _ _ _ F K).
  eexists. split; [reflexivity|]. split; [reflexivity|]. destruct J. constructor; cbn; auto; congruence.
Qed.
Lemma r_flags n : rsim n get_flags.
Proof.
  intros s. cbn. exists []. split; [constructor|]. intros T2 next2 rf2 s2 rl2 t2' J F K. rewrite (reads_nothing _ _ _ _ _ F K).
  eexists. split; [rewrite (sr_flags _ _ J); reflexivity|]. auto.
Qed.

Lemma r_with n {A : Set} f v (p : prog A) : rsim n p -> rsim n (With f v p).
Proof.
  intros P s. specialize (P (push_flags f v s)). cbn [interp].
  destruct (interp next1 rf1 (exec next1 rf1 body n) p (push_flags f v s)) as [a s1|x s1|q|s1]; [| |exact I|exact I];
    destruct P as (rl & R1 & P); cbn [push_flags ps_tok] in R1; unfold pop_flags; destruct (ps_stack s1) as [|g st] eqn:G; try exact I;
    exists rl; (split; [exact R1|]); intros T2 next2 rf2 s2 rl2 t2' J F K;
    (assert (J' : srel (push_flags f v s) (push_flags f v s2)) by
      (destruct J as [J1 J2 J3 J4 J5 J6 J7]; constructor; cbn; auto; [rewrite J1; reflexivity|congruence|congruence]));
    destruct (P T2 next2 rf2 (push_flags f v s2) rl2 t2' J' F K) as (s3 & Q & T & J3); cbn [interp]; rewrite Q; unfold pop_flags;
    rewrite <- (sr_stack _ _ J3), G; eexists; (split; [reflexivity|]); (split; [exact T|]);
    destruct J3; constructor; cbn; auto; congruence.
Qed.

(** ** The primitives *)
Lemma a_token n : asim n same_shape token_.
Proof.
  unfold token_. intros s. pose proof (a_line n s) as L. cbn [interp] in *.
  destruct (do_act next1 rf1 ATokenLine s) as [la s'|x s'|q|s']; [| |exact I|exact I]; destruct L as (rl & R & L); exists rl;
    (split; [exact R|]); intros T2 next2 rf2 s2 rl2 t2' J F K.
  - destruct (L T2 next2 rf2 s2 rl2 t2' J F K) as (a2 & s3 & Q & T & SH & J3). exists (snd a2), s3. cbn [interp] in *. rewrite Q.
    split; [reflexivity|]. split; [exact T|]. split; [apply SH|exact J3].
  - destruct (L T2 next2 rf2 s2 rl2 t2' J F K) as (s3 & Q & T & J3). exists s3. cbn [interp] in *. rewrite Q. auto.
Qed.
Lemma r_noline n : rsim n no_line_terminator.
Proof.
  apply asim_sim. apply (a_bind n shaped); [apply a_line| |intros; apply sim_asim, r_ret].
  intros a b (E & _). rewrite E. reflexivity.
Qed.
Lemma r_token n {B : Set} (k : token -> prog B) : (forall a b, same_shape a b -> k a = k b) -> (forall t, rsim n (k t)) -> rsim n (Bind token_ k).
Proof. intros E K. apply asim_sim. apply (a_bind n same_shape); [apply a_token|exact E|]. intros t. apply sim_asim, K. Qed.
Lemma r_pop n {B : Set} (k : token -> prog B) : (forall a b, same_shape a b -> k a = k b) -> (forall t, rsim n (k t)) -> rsim n (Bind pop_ k).
Proof. intros E K. apply asim_sim. apply (a_bind n same_shape); [apply a_pop|exact E|]. intros t. apply sim_asim, K. Qed.
Lemma r_look n {B : Set} (k : option lookahead -> prog B) : (forall a b, option_rel shaped a b -> k a = k b) -> (forall t, rsim n (k t)) -> rsim n (Bind ident_lookahead k).
Proof. intros E K. apply asim_sim. apply (a_bind n (option_rel shaped)); [apply a_look|exact E|]. intros t. apply sim_asim, K. Qed.

Lemma r_take n {A : Set} same payload why : (forall a b, same_shape a b -> same a = same b) ->
  (forall a b, same_shape a b -> payload a = payload b) -> rsim n (@take_if A same payload why).
Proof.
  intros E1 E2. unfold take_if. apply r_token; [intros a b H; rewrite (E1 a b H); reflexivity|]. intros t.
  destruct (same t); [|apply r_ret]. apply r_pop; [intros a b H; rewrite (E2 a b H); reflexivity|]. intros t'.
  destruct (payload t'); [apply r_ret|apply r_crash].
Qed.

Ltac sh := let a := fresh "a" in let b := fresh "b" in let H := fresh "H" in
  intros a b H; destruct a, b; cbn in H |- *; try discriminate H; try reflexivity; try congruence;
  try (injection H; intros; subst; reflexivity); try (subst; reflexivity).

Lemma r_punc n p : rsim n (punc p).
Proof. apply r_take; sh. Qed.
Lemma r_numeric n : rsim n numeric.
Proof. apply r_take; sh. Qed.
Lemma r_string n : rsim n string_.
Proof. apply r_take; sh. Qed.
Lemma r_regex n : rsim n regex.
Proof. apply r_take; sh. Qed.
Lemma r_template n : rsim n template.
Proof. apply r_take; sh. Qed.
Lemma r_template_tail n : rsim n template_tail.
Proof. apply r_take; sh. Qed.
Lemma r_identifier n : rsim n identifier.
Proof. apply r_take; sh. Qed.
Lemma r_eof n : rsim n eof.
Proof. apply r_take; sh. Qed.
Lemma r_binding n : rsim n binding_identifier.
Proof.
  unfold binding_identifier. apply r_bind; [apply r_flags|]. intros g. apply r_take; [|sh].
  sh. apply shape_binding. exact H.
Qed.
Lemma r_keyword n k : existsb (String.eqb k) vocabulary = true -> rsim n (keyword k).
Proof. intros V. apply r_take; [|sh]. sh. apply shape_kw; [exact H|exact V]. Qed.
Lemma r_semicolon n b : rsim n (semicolon_inner b).
Proof.
  unfold semicolon_inner. apply asim_sim. apply (a_bind n shaped); [apply a_line| |].
  - intros [l1 t1] [l2 t2] (E & H). cbn [fst snd] in *. subst l2. destruct t1, t2; cbn in H; try discriminate H; try reflexivity.
    injection H as ->. reflexivity.
  - intros [l t]. apply sim_asim. cbn [snd fst].
    assert (P : rsim n (run_ pop_ ;; done_)) by (apply r_pop; [reflexivity|intros; apply r_ret]).
    assert (X : rsim n (run_ expect_expression ;; done_)) by (apply r_bind; [apply r_expect|intros; apply r_ret]).
    assert (Y : rsim n (if b || l then run_ expect_expression ;; done_ else Ret None)) by (destruct (b || l); [exact X|apply r_ret]).
    destruct t as [[]| | | | | | | | |]; try exact Y; try exact P; exact X.
Qed.

(** ** The parse functions *)
Lemma shape_reify a b : same_shape a b -> reify_of a = reify_of b.
Proof. revert a b. sh. Qed.
Lemma shape_binary i a b : same_shape a b -> binary_precedence i a = binary_precedence i b.
Proof. revert a b. sh. rewrite !(fun k => shape_kw k _ _ H) by reflexivity. reflexivity. Qed.
Lemma shape_unary a b : same_shape a b -> unary_type_of a = unary_type_of b.
Proof. revert a b. sh. rewrite !(fun k => shape_kw k _ _ H) by reflexivity. reflexivity. Qed.
Lemma shape_primary g a b : same_shape a b -> primary_type_of g a = primary_type_of g b.
Proof. revert a b. sh. rewrite !(fun k => shape_kw k _ _ H) by reflexivity. rewrite (shape_binding g _ _ H). reflexivity. Qed.
Lemma shape_statement a b : same_shape a b -> statement_type_of a = statement_type_of b.
Proof. revert a b. sh. rewrite !(fun k => shape_kw k _ _ H) by reflexivity. reflexivity. Qed.
Lemma shape_decl a b : same_shape a b -> decl_type_of a = decl_type_of b.
Proof. revert a b. sh. rewrite !(fun k => shape_kw k _ _ H) by reflexivity. reflexivity. Qed.

Ltac lk := let a := fresh "a" in let b := fresh "b" in let H := fresh "H" in
  intros [[lx a]|] [[ly b]|] H; cbn in H; try contradiction; try reflexivity; destruct H as (E & H); cbn in E, H; subst ly;
  destruct a, b; cbn in H |- *; try discriminate H; try reflexivity; try congruence;
  try (injection H; intros; subst; reflexivity); try (subst; reflexivity).
Lemma shape_arrow g a b : option_rel shaped a b -> maybe_async_arrow g a = maybe_async_arrow g b.
Proof. revert a b. lk. destruct lx; [reflexivity|]. apply shape_binding. exact H. Qed.
Lemma shape_for a b : option_rel shaped a b -> for_maybe_decl a = for_maybe_decl b.
Proof. revert a b. lk. rewrite !(fun k => shape_kw k _ _ H) by reflexivity. reflexivity. Qed.
Lemma shape_function a b : option_rel shaped a b -> maybe_async_function a = maybe_async_function b.
Proof. revert a b. lk. destruct lx; [reflexivity|]. apply shape_kw; [exact H|reflexivity]. Qed.

Ltac same_k :=
  let a := fresh "a" in let b := fresh "b" in let H := fresh "H" in
  intros a b H;
  first [reflexivity
        |rewrite ?(shape_reify _ _ H), ?(fun i => shape_binary i _ _ H), ?(shape_unary _ _ H), ?(fun g => shape_primary g _ _ H),
           ?(shape_statement _ _ H), ?(shape_decl _ _ H), ?(fun g => shape_arrow g _ _ H), ?(shape_for _ _ H), ?(shape_function _ _ H); reflexivity
        |idtac].

Section Body.
Variable n : nat.
Hypothesis IH : forall f, rsim n (Call f).

Ltac head_of p := lazymatch p with ?f _ => head_of f | _ => p end.
Ltac rs :=
  lazymatch goal with
  | |- rsim _ (Ret _) => apply r_ret
  | |- rsim _ (Throw _) => apply r_throw
  | |- rsim _ (Crash _) => apply r_crash
  | |- rsim _ (Call _) => apply IH
  | |- rsim _ (With _ _ _) => apply r_with; rs
  | |- rsim _ (Bind token_ _) => apply r_token; [same_k|intros ?; rs]
  | |- rsim _ (Bind pop_ _) => apply r_pop; [same_k|intros ?; rs]
  | |- rsim _ (Bind ident_lookahead _) => apply r_look; [same_k|intros ?; rs]
  | |- rsim _ (Bind _ _) => apply r_bind; [rs|intros ?; rs]
  | |- rsim _ (punc _) => apply r_punc
  | |- rsim _ numeric => apply r_numeric
  | |- rsim _ string_ => apply r_string
  | |- rsim _ regex => apply r_regex
  | |- rsim _ template => apply r_template
  | |- rsim _ template_tail => apply r_template_tail
  | |- rsim _ identifier => apply r_identifier
  | |- rsim _ eof => apply r_eof
  | |- rsim _ binding_identifier => apply r_binding
  | |- rsim _ reference_identifier => apply r_binding
  | |- rsim _ label_identifier => apply r_binding
  | |- rsim _ (keyword _) => apply r_keyword; reflexivity
  | |- rsim _ semicolon => apply r_semicolon
  | |- rsim _ semicolon_dowhile => apply r_semicolon
  | |- rsim _ no_line_terminator => apply r_noline
  | |- rsim _ expect_expression => apply r_expect
  | |- rsim _ get_flags => apply r_flags
  | |- rsim _ (match ?x with _ => _ end) => destruct x; rs
  | |- rsim _ (try_sequence _) => cbn [try_sequence map]; rs
  | |- rsim _ (let '_ := _ in _) => idtac
  | |- rsim _ ?p => let h := head_of p in unfold h; rs
  end.

Lemma r_body f : rsim n (body f).
Proof.
  destruct f; cbn [body]; try (solve [rs]); try rs.
  all: rename H into SH.
  - destruct a, b; cbn in SH; try discriminate SH; try reflexivity; [injection SH as ->|subst]; reflexivity.
  - destruct a0 as [[lx a0]|], b as [[ly b]|]; cbn in SH; try contradiction; try reflexivity. destruct SH as (_ & SH). cbn [snd] in SH.
    destruct a0, b; cbn in SH; try discriminate SH; try reflexivity.
    rewrite (fun k => shape_kw k _ _ SH) by reflexivity. reflexivity.
  - destruct a as [[lx a]|], b as [[ly b]|]; cbn in SH; try contradiction; try reflexivity. destruct SH as (_ & SH). cbn [snd] in SH.
    destruct a, b; cbn in SH; try discriminate SH; try reflexivity. injection SH as ->. reflexivity.
Qed.
End Body.

Lemma r_call f : forall n, rsim n (Call f).
Proof.
  intros n. revert f. induction n as [|n IH]; intros f s; cbn [interp exec]; [exact I|].
  exact (r_body n IH f s).
Qed.
End Two.
