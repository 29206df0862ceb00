(** The cost of parsing a source is linear in its length. *)
From Coq Require Import String List Arith NArith ZArith Bool Lia.
From Verif Require Import Base Tokens SpecTokens SpecStream Tokenizer ParserCore ParserBody SpecWork
  ByteFacts NextFacts TokenProps AbstractParser ParserExec ParserTerminates Replay ParserProps Work WorkEnd WorkExec.
Import ListNotations.
Local Open Scope nat_scope.

(** ** Inputs that differ in the number of end tokens *)
Lemma awork_same e (c c' : acall) (w w' : acost) :
  (forall f g i j, same_input e i j -> same_ares e (c f g i) (c' f g j)) ->
  (forall f g i j, same_input e i j -> w f g i = w' f g j) ->
  forall (A : Set) (p : prog A) g i j, same_input e i j -> awork e c w p g i = awork e c' w' p g j.
Proof.
  intros HC HW A p. induction p as [A a|A B p IHp k IHk|A a|A x|A ww|A f v p IHp|f]; intros g i j H; cbn [awork]; auto.
  assert (S := ainterp_same e c c' HC _ p g i j H). rewrite (IHp g i j H).
  destruct (ainterp e c p g i), (ainterp e c' p g j); cbn in S; try contradiction; try reflexivity.
  destruct S as [<- S]. rewrite (IHk a g _ _ S). reflexivity.
Qed.
Lemma awork_fn_same e n : forall f g i j, same_input e i j -> awork_fn e n f g i = awork_fn e n f g j.
Proof.
  induction n as [|n IH]; intros f g i j H; [reflexivity|]. cbn [awork_fn]. f_equal.
  apply awork_same; [apply aexec_same|exact IH|exact H].
Qed.

(** ** The concrete parser does the work of the abstract one *)
Section Replayed.
Context {T : Type}.
Variable next : T -> hint -> tres (token * token_range * T).
Variable read_fuel : nat.
Notation one := (fun (A : Set) (_ : act A) (_ : pstate T) => 1).

Definition worked {A : Set} (s : pstate T) (r : res T A) (aw : token -> input -> nat) (cw : nat) : Prop :=
  match r with
  | ROk _ s' | RErr _ s' => forall l, ps_read s' = ps_read s ++ l -> forall e L, cw <= aw e (buffered s ++ l ++ L)
  | RPanic _ => exists l t, fetches next read_fuel (ps_tok s) l t /\ forall e L, cw <= aw e (buffered s ++ l ++ L)
  | RFuel _ => True
  end.

Lemma interp_worked call call_effort (acall_ : token -> acall) (aw : token -> acost) :
  (forall e f s, inv s -> replayed next read_fuel s (call f s) (acall_ e f (ps_flags s)) anything) ->
  (forall f s, inv s -> worked s (call f s) (fun e => aw e f (ps_flags s)) (call_effort f s)) ->
  forall (A : Set) (p : prog A) s b Q, inv s -> (b = true -> 1 <= ps_count s) -> np p b Q ->
  worked s (interp next read_fuel call p s) (fun e => awork e (acall_ e) (aw e) p (ps_flags s))
    (effort next read_fuel one call call_effort p s).
Proof.
  intros HC HW A p. induction p as [A a|A B p IHp k IHk|A a|A x|A w|A f v p IHp|f]; intros s b Q I Hb N.
  - cbn. intros; lia.
  - assert (RP := fun e => interp_replayed next read_fuel e call (acall_ e) (HC e) _ p s b _ I Hb N).
    cbn [np] in N. specialize (IHp s b _ I Hb N). cbn [interp effort awork].
    destruct (interp next read_fuel call p s) as [a s1|x s1|p1|s1]; cbn [worked replayed] in *.
    + destruct (RP TEOF) as (C & (b1 & Hb1 & N1) & l & G & _).
      specialize (IHk a s1 b1 Q (proj1 G) Hb1 N1).
      assert (RK := interp_replayed next read_fuel TEOF call (acall_ TEOF) (HC TEOF) _ (k a) s1 b1 Q (proj1 G) Hb1 N1).
      rewrite (proj1 C) in IHk, RK.
      assert (GR := proj1 (proj2 G)).
      assert (W : forall e l2 L, effort next read_fuel one call call_effort p s <=
         awork e (acall_ e) (aw e) p (ps_flags s) (buffered s ++ (l ++ l2) ++ L)).
      { intros e l2 L. rewrite <- (app_assoc l). apply IHp. exact GR. }
      assert (E' : forall e l2 L, ainterp e (acall_ e) p (ps_flags s) (buffered s ++ (l ++ l2) ++ L) = AOk a (buffered s1 ++ l2 ++ L)).
      { intros e l2 L. rewrite <- (app_assoc l). destruct (RP e) as (_ & _ & le & Ge & Ee).
        assert (GRe := proj1 (proj2 Ge)). rewrite GR in GRe. apply app_inv_head in GRe. subst le. apply Ee. }
      destruct (interp next read_fuel call (k a) s1) as [a2 s2|x s2|p2|s2]; cbn [worked replayed] in *.
      * destruct RK as (_ & _ & l2 & G2 & _). assert (GR2 := proj1 (proj2 G2)).
        intros l' El e L. rewrite GR2, GR, <- app_assoc in El. apply app_inv_head in El. subst l'.
        rewrite E'. apply Nat.add_le_mono; [apply W|]. apply IHk. exact GR2.
      * destruct RK as (_ & l2 & G2 & _). assert (GR2 := proj1 (proj2 G2)).
        intros l' El e L. rewrite GR2, GR, <- app_assoc in El. apply app_inv_head in El. subst l'.
        rewrite E'. apply Nat.add_le_mono; [apply W|]. apply IHk. exact GR2.
      * destruct IHk as (l2 & t & F & K). exists (l ++ l2), t. split.
        { eapply fetches_app; [apply (proj2 (proj2 G))|exact F]. }
        intros e L. rewrite E'. apply Nat.add_le_mono; [apply W|apply K].
      * exact Logic.I.
    + intros l El e L. rewrite Nat.add_0_r. specialize (IHp l El e L). lia.
    + destruct IHp as (l & t & F & K). exists l, t. split; [exact F|]. intros e L. specialize (K e L). lia.
    + exact Logic.I.
  - cbn [interp effort awork]. destruct (do_act next read_fuel a s); cbn [worked]; auto.
    exists [], (ps_tok s). split; [constructor|auto].
  - cbn. intros; lia.
  - cbn. exists [], (ps_tok s). split; [constructor|auto].
  - cbn [interp ainterp np effort awork] in *.
    assert (I' : inv (push_flags f v s)) by (destruct I as [I1 I2 I3 I4]; split; assumption).
    specialize (IHp (push_flags f v s) b Q I' Hb N). cbn [push_flags ps_flags] in IHp.
    assert (R := interp_replayed next read_fuel TEOF call (acall_ TEOF) (HC TEOF) _ p (push_flags f v s) b Q I' Hb N).
    destruct (interp next read_fuel call p (push_flags f v s)) as [a s1|x s1|p1|s1]; cbn [worked replayed] in *.
    + destruct R as (C & _). destruct C as (_ & C & _). unfold pop_flags. rewrite C. cbn. exact IHp.
    + destruct R as (C & _). destruct C as (_ & C & _). unfold pop_flags. rewrite C. cbn. exact IHp.
    + exact IHp.
    + exact Logic.I.
  - apply HW. exact I.
Qed.

Lemma fn_worked n : forall f s, inv s ->
  worked s (exec next read_fuel body n f s) (fun e => awork_fn e n f (ps_flags s)) (fn_effort next read_fuel one 1 n f s).
Proof.
  induction n as [|n IH]; intros f s I; [exact Logic.I|]. cbn [exec awork_fn fn_effort].
  assert (H := interp_worked _ _ (fun e => aexec e n) (fun e => awork_fn e n) (fun e => exec_replayed next read_fuel e n) IH _ (body f) s false anything I).
  specialize (H (fun H => False_ind _ (Bool.diff_false_true H)) (np_body f)).
  destruct (interp next read_fuel (exec next read_fuel body n) (body f) s) as [a s1|x s1|p1|s1]; cbn [worked] in *; auto.
  - intros l El e L. specialize (H l El e L). lia.
  - intros l El e L. specialize (H l El e L). lia.
  - destruct H as (l & t & F & K). exists l, t. split; [exact F|]. intros e L. specialize (K e L). lia.
Qed.

(** ** Asking for tokens *)
Section Asking.
(** A measure of the states of the tokenizer which every token that is not the last of a
    [read_token] loop decreases. *)
Variable ok : T -> nat -> Prop.
Hypothesis reads : forall t h ln u, ok t u ->
  match read_token next read_fuel t h ln with
  | RdOk _ t' => exists u', ok t' u' /\ asks next read_fuel t h + u' <= u + 1
  | RdPanic _ => asks next read_fuel t h <= u + 1
  | RdFuel => True
  end.
Notation asked := (tokens_asked next read_fuel).

Definition costs {A : Set} (r : res T A) (u ops toks : nat) : Prop :=
  match r with
  | ROk _ s' | RErr _ s' => exists u', ok (ps_tok s') u' /\ toks + u' <= u + 2 * ops
  | RPanic _ => toks <= u + 2 * ops
  | RFuel _ => True
  end.

Lemma line_costs s u : ok (ps_tok s) u ->
  match do_token_line next read_fuel s with
  | ROk _ s' | RErr _ s' => exists u', ok (ps_tok s') u' /\ token_line_asks next read_fuel s + u' <= u + 1
  | RPanic _ => token_line_asks next read_fuel s <= u + 1
  | RFuel _ => True
  end.
Proof.
  intros O. unfold do_token_line, token_line_asks. destruct (ps_count s =? 0); [|exists u; split; [exact O|lia]].
  specialize (reads (ps_tok s) (ps_hint s) false u O).
  destruct (read_token next read_fuel (ps_tok s) (ps_hint s) false); cbn; auto.
Qed.

Lemma act_costs {A : Set} (a : act A) s u : ok (ps_tok s) u ->
  costs (do_act next read_fuel a s) u 1 (asked A a s).
Proof.
  intros O. destruct a; cbn [do_act tokens_asked].
  - assert (H := line_costs s u O). destruct (do_token_line next read_fuel s) as [a s'|x s'|p|s']; cbn [costs]; auto.
    + destruct H as (u' & O' & L). exists u'. split; [exact O'|lia].
    + destruct H as (u' & O' & L). exists u'. split; [exact O'|lia].
    + lia.
  - unfold do_pop. destruct (ps_count s); cbn [costs]; [lia|]. exists u. split; [exact O|lia].
  - unfold do_lookahead. assert (H := line_costs s u O).
    destruct (do_token_line next read_fuel s) as [[nl tk] s'|x s'|p|s']; cbn [costs]; auto.
    + destruct H as (u' & O' & L). cbn [snd].
      destruct (ps_count s' <? 2).
      2: { cbn [costs]. exists u'. split; [exact O'|]. destruct tk; lia. }
      destruct tk; try (cbn [costs]; exists u'; split; [exact O'|lia]).
      specialize (reads (ps_tok s') (set_expression (ps_hint s') (negb (is_binding_identifier (ps_flags s') name))) false u' O').
      destruct (read_token next read_fuel (ps_tok s') _ false); cbn; auto.
      * destruct reads as (u2 & O2 & L2). exists u2. split; [exact O2|lia].
      * lia.
    + destruct H as (u' & O' & L). exists u'. split; [exact O'|lia].
    + lia.
  - cbn. exists u. split; [exact O|lia].
  - cbn. exists u. split; [exact O|lia].
Qed.

Lemma interp_costs call ops toks :
  (forall f s u, ok (ps_tok s) u -> costs (call f s) u (ops f s) (toks f s)) ->
  forall (A : Set) (p : prog A) s u, ok (ps_tok s) u ->
  costs (interp next read_fuel call p s) u (effort next read_fuel one call ops p s)
    (effort next read_fuel asked call toks p s).
Proof.
  intros HC A p. induction p as [A a|A B p IHp k IHk|A a|A x|A w|A f v p IHp|f]; intros s u O; cbn [interp effort].
  - exists u. split; [exact O|lia].
  - specialize (IHp s u O). destruct (interp next read_fuel call p s) as [a s1|x s1|p1|s1]; cbn [costs] in *.
    + destruct IHp as (u1 & O1 & L1). specialize (IHk a s1 u1 O1).
      destruct (interp next read_fuel call (k a) s1) as [a2 s2|x s2|p2|s2]; cbn [costs] in *; auto.
      * destruct IHk as (u2 & O2 & L2). exists u2. split; [exact O2|lia].
      * destruct IHk as (u2 & O2 & L2). exists u2. split; [exact O2|lia].
      * lia.
    + destruct IHp as (u1 & O1 & L1). exists u1. split; [exact O1|lia].
    + lia.
    + exact I.
  - apply act_costs. exact O.
  - exists u. split; [exact O|lia].
  - cbn. lia.
  - specialize (IHp (push_flags f v s) u O).
    destruct (interp next read_fuel call p (push_flags f v s)) as [a s1|x s1|p1|s1]; cbn [costs] in *; auto.
    + unfold pop_flags. destruct (ps_stack s1); cbn; [|exact IHp]. destruct IHp as (u1 & _ & L1). lia.
    + unfold pop_flags. destruct (ps_stack s1); cbn; [|exact IHp]. destruct IHp as (u1 & _ & L1). lia.
  - apply HC. exact O.
Qed.

Lemma fn_costs n : forall f s u, ok (ps_tok s) u ->
  costs (exec next read_fuel body n f s) u (fn_effort next read_fuel one 1 n f s) (fn_effort next read_fuel asked 0 n f s).
Proof.
  induction n as [|n IH]; intros f s u O; [exact I|]. cbn [exec fn_effort].
  assert (H := interp_costs _ _ _ IH _ (body f) s u O).
  destruct (interp next read_fuel (exec next read_fuel body n) (body f) s); cbn [costs] in *; auto.
  - destruct H as (u1 & O1 & L1). exists u1. split; [exact O1|lia].
  - destruct H as (u1 & O1 & L1). exists u1. split; [exact O1|lia].
  - lia.
Qed.

Lemma root_costs n t u : ok t u -> parse_root_with next read_fuel n t <> OutOfFuel ->
  token_requests next read_fuel n t <= u + 2 * operations next read_fuel n t.
Proof.
  intros O H. assert (C := interp_costs _ _ _ (fn_costs n) _ parse_module (pstate_init t) u O).
  unfold token_requests, operations, root_effort, parse_root_with, run_parser in *.
  destruct (interp next read_fuel (exec next read_fuel body n) parse_module (pstate_init t)) as [a s|x s|p|s]; cbn [costs] in C.
  - destruct C as (u' & _ & C). lia.
  - destruct C as (u' & _ & C). lia.
  - exact C.
  - destruct (H eq_refl).
Qed.
End Asking.
End Replayed.

(** ** Slices *)
Section Slice.
Variable E : env.

Lemma slice_shape n code t l t' : stands t code -> length code < n -> fetches (next_token E) n t l t' ->
  exists e l1 k, end_token e /\ l = l1 ++ repeat (false, e) k /\ length l1 <= S (length code).
Proof.
  intros St Lr F. destruct (fetches_slice E n code t l t' St Lr F) as [(u & _ & Lu)|(e & l1 & k & u & X & El & L1 & _)].
  - exists TEOF, l, 0. rewrite app_nil_r. split; [left; reflexivity|]; split; [reflexivity|]; unfold lookahead in *; lia.
  - eauto 8.
Qed.

Transparent price.
Lemma module_work e n l : end_token e -> depth L_module l <= n ->
  awork e (aexec e n) (awork_fn e n) parse_module flags_default l <= 303 * length l + 64.
Proof.
  intros X D. assert (B := bounded e X (fun f g => at_end_idle e f g X) n L_module flags_default l).
  assert (N := terminates e X n L_module flags_default l D).
  assert (C := consumption_holds e n L_module flags_default l).
  change (awork e (aexec e n) (awork_fn e n) parse_module flags_default l) with
    (awork_fn e n L_module flags_default l +
     match aexec e n L_module flags_default l with
     | AOk _ i => awork e (aexec e n) (awork_fn e n) (eat_ eof ;; done_) flags_default i
     | _ => 0 end).
  generalize dependent (awork_fn e n L_module flags_default l). intros m B.
  destruct (aexec e n L_module flags_default l) as [a i|x i|p|i]; cbn [work_bound] in B; unfold price in B; cbn [idle] in B.
  - assert (W : awork e (aexec e n) (awork_fn e n) (eat_ eof ;; done_) flags_default i <= 2).
    { cbn [awork]. unfold eof at 1. rewrite work_take_if. rewrite eof_eq. unfold eats. destruct (is_eof (tok e i)); cbn; lia. }
    assert (0 <= Z.of_nat (length i))%Z by lia. assert (length i <= length l) by (destruct B as [[-> _]|[L _]]; lia).
    revert B. cbn [spare]. lia.
  - lia.
  - lia.
  - destruct N.
Qed.

Theorem operations_linear code r n : utf8 code -> length code < r -> 20 * length code + 60 <= n ->
  operations (next_token E) r n (into_tokenizer code) <= 303 * length code + 400.
Proof.
  intros U Lr Ln. assert (St := stands_start code U).
  assert (T := parse_root_terminates E code r n U Lr Ln).
  unfold parse_root, parse_root_with, run_parser in T.
  set (t0 := into_tokenizer code) in *. unfold operations, root_effort.
  assert (W := interp_worked (next_token E) r _ _ (fun e => aexec e n) (fun e => awork_fn e n)
    (fun e => exec_replayed (next_token E) r e n) (fn_worked (next_token E) r n)
    _ parse_module (pstate_init t0) false anything (init_inv t0) (fun H => False_ind _ (Bool.diff_false_true H)) np_module).
  assert (R := interp_replayed (next_token E) r TEOF _ _ (exec_replayed (next_token E) r TEOF n)
    _ parse_module (pstate_init t0) false anything (init_inv t0) (fun H => False_ind _ (Bool.diff_false_true H)) np_module).
  set (m := effort _ _ _ _ _ _ _) in *. clearbody m.
  assert (K : exists l t, fetches (next_token E) r t0 l t /\ forall e L,
      m <= awork e (aexec e n) (awork_fn e n) parse_module flags_default (l ++ L)).
  { destruct (interp (next_token E) r (exec (next_token E) r body n) parse_module (pstate_init t0)) as [a s|x s|p|s];
      cbn [worked replayed] in W, R.
    - destruct R as (_ & _ & l & (_ & G & F) & _). exists l, (ps_tok s). split; [exact F|].
      intros e L. apply (W l G e L).
    - destruct R as (_ & l & (_ & G & F) & _). exists l, (ps_tok s). split; [exact F|].
      intros e L. apply (W l G e L).
    - destruct W as (l & t & F & W). exists l, t. split; [exact F|exact W].
    - destruct (T eq_refl). }
  destruct K as (l & t & F & K).
  destruct (slice_shape r code t0 l t St Lr F) as (e & l1 & k & X & El & L1).
  specialize (K e []). rewrite app_nil_r, El in K.
  rewrite (awork_same e _ _ _ _ (aexec_same e n) (awork_fn_same e n) _ parse_module flags_default _ _ (same_pad e l1 k)) in K.
  assert (B := module_work e n l1 X). unfold depth in B. cbn [rank] in B. specialize (B ltac:(unfold lookahead in *; lia)). unfold lookahead in *. lia.
Qed.

Lemma slice_reads n : forall t h ln u, stands t u -> length u < n ->
  match read_token (next_token E) n t h ln with
  | RdOk _ t' => exists u', stands t' u' /\ length u' <= length u /\ asks (next_token E) n t h + length u' <= length u + 1
  | RdPanic _ => asks (next_token E) n t h <= length u + 1
  | RdFuel => True
  end.
Proof.
  induction n as [|n IH]; intros t h ln u St L; [lia|]. cbn [read_token asks].
  destruct (next_token E t h) as [[[tok pos] t']|p] eqn:R; [|lia].
  destruct (next_ok E t h u tok pos t' St R) as (g & w & r & -> & Bg & Hl & _ & _ & St').
  rewrite !app_length in *.
  assert (D : exists u', stands t' u' /\ length u' <= length g + (length w + length r) /\ 1 + length u' <= length g + (length w + length r) + 1).
  { exists r. split; [exact St'|]. lia. }
  assert (D' : 0 < length w -> forall ln', match read_token (next_token E) n t' h ln' with
     | RdOk _ t'0 => exists u', stands t'0 u' /\ length u' <= length g + (length w + length r) /\
         1 + asks (next_token E) n t' h + length u' <= length g + (length w + length r) + 1
     | RdPanic _ => 1 + asks (next_token E) n t' h <= length g + (length w + length r) + 1
     | RdFuel => True end).
  { intros P ln'. specialize (IH t' h ln' r St' ltac:(lia)). destruct (read_token (next_token E) n t' h ln') as [la t2|p|]; auto.
    - destruct IH as (u' & S' & La & Lb). exists u'. split; [exact S'|]. lia.
    - lia. }
  assert (P : tok = TWhitespace \/ tok = TLineTerminator \/ (exists f v, tok = TComment f v) -> 0 < length w).
  { intros Kd. destruct w; [|cbn; lia]. destruct (empty_stuck E h tok r Hl) as [[-> |[-> | ->]] _];
      destruct Kd as [Kd|[Kd|(f & v & Kd)]]; discriminate. }
  destruct tok; try exact D; apply D'; apply P; eauto.
Qed.

Theorem requests_linear code r n : utf8 code -> length code < r -> 20 * length code + 60 <= n ->
  token_requests (next_token E) r n (into_tokenizer code) <= 607 * length code + 800.
Proof.
  intros U Lr Ln. assert (O := operations_linear code r n U Lr Ln).
  assert (H := root_costs (next_token E) r (fun t u => exists v, stands t v /\ length v <= u /\ u < r)).
  enough (C : token_requests (next_token E) r n (into_tokenizer code) <=
     length code + 2 * operations (next_token E) r n (into_tokenizer code)) by lia.
  apply H.
  - intros t h ln u (v & St & Lv & Lu). assert (S := slice_reads r t h ln v St ltac:(lia)).
    destruct (read_token (next_token E) r t h ln) as [la t'|p|]; auto.
    + destruct S as (v' & St' & La & Lb). exists (length v'). split; [exists v'; split; [exact St'|lia]|lia].
    + lia.
  - exists code. split; [apply stands_start; exact U|]. lia.
  - exact (parse_root_terminates E code r n U Lr Ln).
Qed.
End Slice.
