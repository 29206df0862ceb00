(** C23, C24, C25, C38: the parser over any tokenizer. *)
From Coq Require Import String List Arith NArith Bool Lia.
From Verif Require Import Base Tokens SpecTokens SpecStream Tokenizer ParserCore ParserBody SpecParser
  ByteFacts NextFacts TokenProps AbstractParser ParserExec Replay.
Import ListNotations.
Local Open Scope nat_scope.

(** ** The model's read loop delivers the significant tokens *)
Section Calls.
Context {T : Type}.
Variable next : T -> hint -> tres (token * token_range * T).

Lemma calls_app a l b l' c : calls next a l b -> calls next b l' c -> calls next a (l ++ l') c.
Proof. intros H. induction H; cbn; [auto|]. intros K. econstructor; eauto. Qed.

Lemma read_calls n : forall t h ln la t', read_token next n t h ln = RdOk la t' ->
  exists log, calls next t log t' /\ forall rest, significant ln (log ++ rest) = la :: significant false rest.
Proof.
  induction n as [|n IH]; intros t h ln la t' R; [discriminate|]. cbn [read_token] in R.
  destruct (next t h) as [[[tok pos] t1]|p] eqn:N; [|discriminate].
  assert (D : RdOk (ln, tok) t1 = RdOk la t' ->
    (forall rest, significant ln ((tok, pos) :: rest) = (ln, tok) :: significant false rest) ->
    exists log, calls next t log t' /\ forall rest, significant ln (log ++ rest) = la :: significant false rest).
  { intros K S. injection K as <- <-. exists [(tok, pos)]. split; [econstructor; [exact N|constructor]|exact S]. }
  assert (D' : forall ln', read_token next n t1 h ln' = RdOk la t' ->
    (forall rest, significant ln ((tok, pos) :: rest) = significant ln' rest) ->
    exists log, calls next t log t' /\ forall rest, significant ln (log ++ rest) = la :: significant false rest).
  { intros ln' K S. destruct (IH _ _ _ _ _ K) as (log & C & Sg). exists ((tok, pos) :: log).
    split; [econstructor; eassumption|]. intros rest. cbn [app]. rewrite S. apply Sg. }
  destruct tok; try (apply D; [exact R|reflexivity]);
    (apply (D' _ R); intros rest; cbn [significant]; try reflexivity).
  destruct (line (r_start pos) =? line (r_end pos)); cbn [negb].
  - rewrite orb_false_r. reflexivity.
  - rewrite orb_true_r. reflexivity.
Qed.

Lemma read_calls_panic n : forall t h ln p, read_token next n t h ln = RdPanic p ->
  exists log t', calls next t log t' /\ next t' h = TPanic p.
Proof.
  induction n as [|n IH]; intros t h ln p R; [discriminate|]. cbn [read_token] in R.
  destruct (next t h) as [[[tok pos] t1]|q] eqn:N.
  - assert (D : forall ln', read_token next n t1 h ln' = RdPanic p ->
      exists log t', calls next t log t' /\ next t' h = TPanic p).
    { intros ln' K. destruct (IH _ _ _ _ K) as (log & t' & C & P). exists ((tok, pos) :: log), t'.
      split; [econstructor; eassumption|exact P]. }
    destruct tok; try discriminate; eapply D; exact R.
  - injection R as ->. exists [], t. split; [constructor|exact N].
Qed.

Lemma fetches_calls n t l t' : fetches next n t l t' ->
  exists log, calls next t log t' /\ forall rest, significant false (log ++ rest) = l ++ significant false rest.
Proof.
  intros F. induction F as [t|t l t1 h la t2 F IH R].
  - exists []. split; [constructor|reflexivity].
  - destruct IH as (log & C & S). destruct (read_calls _ _ _ _ _ _ R) as (log' & C' & S').
    exists (log ++ log'). split; [eapply calls_app; eassumption|].
    intros rest. rewrite <- app_assoc, S, S', <- app_assoc. reflexivity.
Qed.
End Calls.

(** ** The states of a parse *)
Section States.
Context {T : Type}.
Variable next : T -> hint -> tres (token * token_range * T).
Variable rf : nat.

Lemma waiting_buffered (s : pstate T) : inv s -> waiting s = buffered s.
Proof.
  intros [I C _ _]. unfold waiting, buffered, slot.
  destruct (ps_count s) as [|[|[|?]]]; [reflexivity| | |lia]; destruct I as [-> | ->]; reflexivity.
Qed.

(** A state in the middle of a parse that started with tokenizer [t]. *)
Record moment (t : T) (s : pstate T) : Prop := {
  m_inv : inv s;
  m_fetches : fetches next rf t (ps_read s) (ps_tok s);
  m_template : h_template (ps_hint s) = expect_template (ps_flags s)
}.

Lemma goes_moment t s s' l : moment t s -> goes next rf s s' l ->
  h_template (ps_hint s') = expect_template (ps_flags s') -> moment t s'.
Proof.
  intros [M1 M2 M3] (G1 & G2 & G3) H. split; [exact G1| |exact H]. rewrite G2. eapply fetches_app; eassumption.
Qed.

Lemma replayed_moment {A : Set} (e : token) t s n (p : prog A) b Q : moment t s -> (b = true -> 1 <= ps_count s) -> np p b Q ->
  match interp next rf (exec next rf body n) p s with
  | ROk a s' => moment t s' /\ exists b', (b' = true -> 1 <= ps_count s') /\ Q a b'
  | RErr _ s' => moment t s'
  | _ => True
  end.
Proof.
  intros M Hb N. assert (H := interp_replayed next rf e _ _ (exec_replayed next rf e n) A p s b Q (m_inv t s M) Hb N).
  destruct (interp next rf (exec next rf body n) p s) as [a s'|x s'|w|s']; cbn [replayed] in H; auto.
  - destruct H as (C & HQ & l & G & _). split; [|exact HQ]. eapply goes_moment; [exact M|exact G|].
    apply C. apply M.
  - destruct H as (C & l & G & _). eapply goes_moment; [exact M|exact G|]. apply C. apply M.
Qed.

Lemma visited_moment t n (A : Set) (p : prog A) s s' : visited next rf n A p s s' ->
  forall b, moment t s -> (b = true -> 1 <= ps_count s) -> np p b anything -> moment t s'.
Proof.
  intros V. induction V as [n A p s|n A p s a s' R|n A p s x s' R|n A B p k s s' V IH|n A B p k s a s1 s' R V IH
                           |n A f v p s s' V IH|n f s s' V IH]; intros b M Hb N.
  - exact M.
  - assert (H := replayed_moment TEOF t s n p b anything M Hb N). rewrite R in H. apply H.
  - assert (H := replayed_moment TEOF t s n p b anything M Hb N). rewrite R in H. apply H.
  - apply (IH b); auto. cbn [np] in N. eapply np_mono; [|intros; exact I|exact N]. auto.
  - cbn [np] in N. assert (H := replayed_moment TEOF t s n p b _ M Hb N). rewrite R in H.
    destruct H as (M1 & b' & Hb' & N'). apply (IH b'); auto.
  - apply (IH b); auto. destruct M as [[I1 I2 I3 I4] M2 M3]. split; [split; assumption|exact M2|].
    cbn. destruct (ps_flags s). destruct f; cbn in *; auto.
  - apply (IH false); [exact M|exact (fun H => False_ind _ (Bool.diff_false_true H))|apply np_body].
Qed.

Lemma during_moment t s : during next rf t s -> moment t s.
Proof.
  intros [n V]. eapply visited_moment; [exact V| |exact (fun H => False_ind _ (Bool.diff_false_true H))|exact np_module].
  split; [apply init_inv|constructor|reflexivity].
Qed.

(** *** C23 *)
Theorem c23 t s : during next rf t s ->
  length (waiting s) <= 2 /\
  exists log, calls next t log (ps_tok s) /\ significant false log = ps_popped s ++ waiting s.
Proof.
  intros D. apply during_moment in D. destruct D as [I F _].
  split; [unfold waiting; rewrite firstn_length; destruct (ps_index s =? 0); cbn [length]; lia|].
  destruct (fetches_calls next rf _ _ _ F) as (log & C & S). exists log. split; [exact C|].
  specialize (S []). cbn [significant] in S. rewrite !app_nil_r in S. rewrite S, (waiting_buffered s I). apply I.
Qed.

Theorem c23_peek t s la s' : during next rf t s -> do_token_line next rf s = ROk la s' ->
  ps_popped s' = ps_popped s /\ (exists new, waiting s' = waiting s ++ new) /\ exists r, waiting s' = la :: r.
Proof.
  intros D R. apply during_moment in D. assert (I := m_inv t s D).
  assert (H := token_line_goes next rf TEOF s I). rewrite R in H.
  destruct H as (_ & P & l & (I' & G2 & _) & B & _ & E & _).
  rewrite (waiting_buffered s I), (waiting_buffered s' I'). split; [|split; [eauto|]].
  - rewrite (inv_read s' I'), (inv_read s I), B, <- app_assoc in G2. apply app_inv_tail in G2. exact G2.
  - apply (buffered_nonempty s') in P. destruct (buffered s') as [|x r]; [congruence|]. cbn in E. subst. eauto.
Qed.

Theorem c23_pop t s tok s' : during next rf t s -> do_pop s = ROk tok s' ->
  exists ln, waiting s = (ln, tok) :: waiting s' /\ ps_popped s' = ps_popped s ++ [(ln, tok)].
Proof.
  intros D R. apply during_moment in D. destruct D as [[I1 I2 _ _] _ _]. unfold do_pop in R.
  destruct (ps_count s) as [|c] eqn:C; [discriminate|]. injection R as <- <-.
  exists (fst (slot s (ps_index s))). rewrite <- surjective_pairing. split; [|reflexivity].
  unfold waiting, slot. rewrite C. cbn [ps_index ps_count ps_slot0 ps_slot1].
  destruct I1 as [-> | ->]; cbn; destruct c as [|[|c]]; try reflexivity; lia.
Qed.

Theorem c23_lookahead t s la s' : during next rf t s -> do_lookahead next rf s = ROk la s' ->
  ps_popped s' = ps_popped s /\ (exists new, waiting s' = waiting s ++ new) /\
  match waiting s' with
  | (_, TIdent _) :: r => exists x, r = [x] /\ la = Some x
  | _ :: _ => la = None
  | [] => False
  end.
Proof.
  intros D R. apply during_moment in D. assert (I := m_inv t s D).
  assert (H := do_act_replayed next rf TEOF ALookahead s false (fun _ _ => True) I).
  cbn [do_act np] in H. rewrite R in H. destruct H as (_ & _ & l & (I' & G2 & _) & E); [discriminate|auto|].
  rewrite (waiting_buffered s I), (waiting_buffered s' I').
  assert (B : buffered s' = buffered s ++ l).
  { specialize (E []). cbn [aact] in E. injection E as _ E. rewrite !app_nil_r in E. congruence. }
  split; [|split; [eauto|]].
  - rewrite (inv_read s' I'), (inv_read s I), B, <- app_assoc in G2. apply app_inv_tail in G2. exact G2.
  - clear E. unfold do_lookahead in R. assert (H := token_line_goes next rf TEOF s I).
    destruct (do_token_line next rf s) as [a s1|x s1|p|s1]; try discriminate.
    destruct H as (_ & P & l1 & (I1 & _ & _) & B1 & E1 & E2 & _).
    destruct (Nat.ltb_spec (ps_count s1) 2) as [L|L].
    + assert (P1 : ps_count s1 = 1) by lia.
      assert (Bf : buffered s1 = [a]) by (unfold buffered; rewrite P1, <- E1; reflexivity).
      destruct a as [ln tk]. cbn [snd] in R. destruct tk; try (injection R as <- <-; rewrite Bf; reflexivity).
      destruct (read_token next rf (ps_tok s1) _ false) as [la2 t2|p|]; try discriminate.
      injection R as <- <-. unfold buffered. cbn [ps_count]. rewrite P1. unfold slot. cbn [ps_index ps_slot0 ps_slot1].
      unfold slot in E1. destruct (inv_index s1 I1) as [Z|Z]; rewrite Z in *; cbn in *; rewrite <- E1; eauto.
    + assert (P2 : ps_count s1 = 2) by (assert (X := inv_count s1 I1); lia).
      injection R as <- <-. destruct (inv_two s1 I1 P2) as [x Hx]. unfold buffered. rewrite P2.
      destruct (slot s1 (ps_index s1)) as [ln tk]. cbn in Hx. subst tk. eauto.
Qed.

(** *** C24 *)
Theorem c24 t s n f : during next rf t s ->
  match exec next rf body n f s with
  | ROk _ s' | RErr _ s' =>
    ps_flags s' = ps_flags s /\ ps_stack s' = ps_stack s /\
    h_template (ps_hint s') = h_template (ps_hint s)
  | _ => True
  end.
Proof.
  intros D. apply during_moment in D. destruct D as [I _ H].
  assert (R := exec_replayed next rf TEOF n f s I).
  destruct (exec next rf body n f s) as [a s'|x s'|w|s']; cbn [replayed] in R; auto.
  - destruct R as ((C1 & C2 & C3 & _) & _). repeat split; auto. rewrite H, (C3 H), C1. reflexivity.
  - destruct R as ((C1 & C2 & C3 & _) & _). repeat split; auto. rewrite H, (C3 H), C1. reflexivity.
Qed.

(** *** C25 *)
Lemma module_no_panic e n i w : ainterp e (aexec e n) parse_module flags_default i <> APanic w.
Proof.
  unfold parse_module. cbn [ainterp]. assert (C := consumption_holds e n L_module flags_default i).
  destruct (aexec e n L_module flags_default i) as [a j|x j|w'|j]; cbn [abind]; try discriminate.
  - rewrite eof_eq. unfold eats. destruct (is_eof (tok e j)); cbn; discriminate.
  - destruct C.
Qed.

Theorem c25 n t p : parse_root_with next rf n t = Panicked p ->
  exists log t' h, calls next t log t' /\ next t' h = TPanic p.
Proof.
  unfold parse_root_with. assert (H := run_replayed next rf TEOF n parse_module t np_module).
  destruct (run_parser next rf n parse_module t) as [a s'|x s'|w|s']; cbn [outcome_of]; try discriminate.
  intros K. injection K as ->. destruct H as (l & [(t' & h & F & R)|(w & _ & H)]).
  - destruct (fetches_calls next rf _ _ _ F) as (log & C & _).
    destruct (read_calls_panic next rf _ _ _ _ R) as (log' & t2 & C' & N).
    exists (log ++ log'), t2, h. split; [eapply calls_app; eassumption|exact N].
  - exfalso. exact (module_no_panic _ _ _ _ (H [])).
Qed.

(** *** C38 *)
Theorem c38_non_match t s n f s' : during next rf t s -> exec next rf body n f s = ROk None s' ->
  ps_popped s' = ps_popped s /\ exists new, waiting s' = waiting s ++ new.
Proof.
  intros D R. apply during_moment in D. assert (I := m_inv t s D).
  assert (H := exec_replayed next rf TEOF n f s I). rewrite R in H.
  destruct H as (_ & _ & l & (I' & G2 & _) & E). specialize (E []).
  assert (C := consumption_holds TEOF n f (ps_flags s) (buffered s ++ l ++ [])). rewrite E in C. cbn in C.
  destruct C as [C _]. rewrite !app_nil_r in C.
  rewrite (waiting_buffered s I), (waiting_buffered s' I'), C. split; [|eauto].
  rewrite (inv_read s' I'), (inv_read s I), C, <- app_assoc in G2. apply app_inv_tail in G2. exact G2.
Qed.
End States.

(** ** Larger budgets change nothing *)
Section Budget.
Context {T : Type}.
Variable next : T -> hint -> tres (token * token_range * T).

Lemma read_mono n : forall m t h ln, n <= m -> read_token next n t h ln <> RdFuel ->
  read_token next m t h ln = read_token next n t h ln.
Proof.
  induction n as [|n IH]; intros m t h ln L H; [exfalso; apply H; reflexivity|].
  destruct m as [|m]; [lia|]. cbn [read_token] in *.
  destruct (next t h) as [[[tok pos] t']|p]; [|reflexivity]. destruct tok; try reflexivity; apply IH; auto; lia.
Qed.

(** Equal, or the left one ran out. *)
Definition le_res {A : Set} (r r' : res T A) : Prop := (exists s, r = RFuel s) \/ r = r'.
Lemma le_refl_res {A : Set} (r : res T A) : le_res r r.
Proof. right. reflexivity. Qed.

Lemma token_line_mono n m s : n <= m -> le_res (do_token_line next n s) (do_token_line next m s).
Proof.
  intros L. unfold do_token_line. destruct (ps_count s =? 0); [|apply le_refl_res].
  assert (H := read_mono n m (ps_tok s) (ps_hint s) false L).
  destruct (read_token next n (ps_tok s) (ps_hint s) false) as [la t|p|] eqn:R.
  - rewrite H by discriminate. apply le_refl_res.
  - rewrite H by discriminate. apply le_refl_res.
  - left. eauto.
Qed.

Lemma do_act_mono {A : Set} (a : act A) n m s : n <= m -> le_res (do_act next n a s) (do_act next m a s).
Proof.
  intros L. destruct a; cbn [do_act]; try apply le_refl_res.
  - apply token_line_mono. exact L.
  - unfold do_lookahead. destruct (token_line_mono n m s L) as [[s1 ->]| ->]; [left; eauto|].
    destruct (do_token_line next m s) as [a s1|x s1|p|s1]; try apply le_refl_res.
    destruct (ps_count s1 <? 2); [|apply le_refl_res].
    destruct (snd a) as [| | | | |name| | | |]; try apply le_refl_res.
    assert (H := read_mono n m (ps_tok s1) (set_expression (ps_hint s1) (negb (is_binding_identifier (ps_flags s1) name))) false L).
    destruct (read_token next n (ps_tok s1) _ false) as [la t|p|] eqn:R.
    + rewrite H by discriminate. apply le_refl_res.
    + rewrite H by discriminate. apply le_refl_res.
    + left. eauto.
Qed.

Lemma interp_mono n m (c c' : fn -> pstate T -> res T (option unit)) : n <= m ->
  (forall f s, le_res (c f s) (c' f s)) ->
  forall (A : Set) (p : prog A) s, le_res (interp next n c p s) (interp next m c' p s).
Proof.
  intros L HC A p. induction p as [A a|A B p IHp k IHk|A a|A x|A w|A f v p IHp|f]; intros s; cbn [interp].
  - apply le_refl_res.
  - destruct (IHp s) as [[s1 ->]| ->]; [left; eauto|].
    destruct (interp next m c' p s) as [a s1|x s1|w|s1]; try apply le_refl_res. apply IHk.
  - apply do_act_mono. exact L.
  - apply le_refl_res.
  - apply le_refl_res.
  - destruct (IHp (push_flags f v s)) as [[s1 ->]| ->]; [left; eauto|apply le_refl_res].
  - apply HC.
Qed.

Lemma exec_mono n m : n <= m -> forall a b, a <= b -> forall f s,
  le_res (exec next n body a f s) (exec next m body b f s).
Proof.
  intros L. induction a as [|a IH]; intros b Lab f s; [left; cbn; eauto|].
  destruct b as [|b]; [lia|]. cbn [exec]. apply interp_mono; [exact L|]. intros f' s'. apply IH. lia.
Qed.

Theorem c38 n m a b t : n <= m -> a <= b -> parse_root_with next n a t <> OutOfFuel ->
  parse_root_with next m b t = parse_root_with next n a t.
Proof.
  intros L1 L2 H. unfold parse_root_with, run_parser in *.
  destruct (interp_mono n m _ _ L1 (exec_mono n m L1 a b L2) _ parse_module (pstate_init t)) as [[s R]|R].
  - rewrite R in H. exfalso. apply H. reflexivity.
  - rewrite R. reflexivity.
Qed.

Theorem c38_unique n m a b t : parse_root_with next n a t <> OutOfFuel -> parse_root_with next m b t <> OutOfFuel ->
  parse_root_with next m b t = parse_root_with next n a t.
Proof.
  intros H K. transitivity (parse_root_with next (n + m) (a + b) t).
  - symmetry. apply c38; auto; lia.
  - apply c38; auto; lia.
Qed.
End Budget.

(** C25 for sources. *)
Lemma calls_run E t log t' : calls (next_token E) t log t' -> exists hs, run E t hs log t'.
Proof.
  intros H. induction H as [t|t h tok rg t1 log t2 N C [hs R]].
  - exists []. constructor.
  - exists (h :: hs). econstructor; eassumption.
Qed.

Theorem c25_source E rf n code p : utf8 code -> parse_root E rf n code = Panicked p ->
  exists hs l t h, run E (into_tokenizer code) hs l t /\ next_token E t h = TPanic p /\
    (forall w, p <> P_unreachable w).
Proof.
  intros U H. destruct (c25 _ _ _ _ _ H) as (log & t & h & C & N). apply calls_run in C as [hs R].
  exists hs, log, t, h. split; [exact R|]. split; [exact N|]. intros w ->.
  destruct (c01 E code hs log t U R) as (_ & _ & u & St). exact (c05_unreachable E t h u St w N).
Qed.
