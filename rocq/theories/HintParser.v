(** The parser on a list of tokens, with the hints under which each token is read.

    [hinterp] is the parser of AbstractParser.v that also keeps: how many of the tokens
    at the front of its input have been read already, whether the next read asks for an
    expression, the tokens read so far (the last one first), and whether any of them was
    read under a hint that does not suit it, according to the parameter [misfit]. *)
From Coq Require Import String List Arith NArith Bool Lia.
From Verif Require Import Base Tokens ParserCore ParserBody AbstractParser ParserExec Replay ParserProps.
Import ListNotations.

Record hstate : Set := HS { hk : nat; he : bool; hpast : list token; hbad : bool; hi : input }.

Inductive hres (A : Set) : Type :=
| HOk (a : A) (st : hstate)
| HErr (x : perr) (st : hstate)
| HPanic (p : panic)
| HFuel (st : hstate).
Arguments HOk {A} a st.
Arguments HErr {A} x st.
Arguments HPanic {A} p.
Arguments HFuel {A} st.

Section Hinted.
(** [misfit past expression template la]: whether [la], read after the tokens [past] under
    the hints [expression] and [template], was read under the wrong hints. *)
Variable misfit : list token -> bool -> bool -> lookahead -> bool.
Variable e : token.

Definition hpeek (g : grammar_flags) (st : hstate) : hstate :=
  if hk st =? 0 then
    let la := cur e (hi st) in
    HS 1 false (snd la :: hpast st) (hbad st || misfit (hpast st) (he st) (expect_template g) la) (hi st)
  else st.

Definition hact {A : Set} (a : act A) (g : grammar_flags) (st : hstate) : hres A :=
  match a in act A return hres A with
  | ATokenLine => HOk (cur e (hi st)) (hpeek g st)
  | APop => HOk (tok e (hi st)) (HS (pred (hk st)) (he st) (hpast st) (hbad st) (tl (hi st)))
  | ALookahead =>
    let st1 := hpeek g st in
    if hk st1 <? 2 then
      match tok e (hi st) with
      | TIdent name =>
        let la := cur e (tl (hi st)) in
        HOk (Some la) (HS 2 (he st1) (snd la :: hpast st1)
          (hbad st1 || misfit (hpast st1) (negb (is_binding_identifier g name)) (expect_template g) la) (hi st))
      | _ => HOk None st1
      end
    else HOk (Some (cur e (tl (hi st)))) st1
  | AExpect => HOk tt (HS (hk st) true (hpast st) (hbad st) (hi st))
  | AFlags => HOk g st
  end.

Definition hcall := fn -> grammar_flags -> hstate -> hres (option unit).

Fixpoint hinterp {A : Set} (call : hcall) (p : prog A) (g : grammar_flags) (st : hstate) : hres A :=
  match p in prog A return hres A with
  | Ret a => HOk a st
  | Bind p k =>
    match hinterp call p g st with
    | HOk a st' => hinterp call (k a) g st'
    | HErr x st' => HErr x st'
    | HPanic q => HPanic q
    | HFuel st' => HFuel st'
    end
  | Act a => hact a g st
  | Throw x => HErr x st
  | Crash why => HPanic (P_unreachable why)
  | With f v p => hinterp call p (set_flag g f v) st
  | Call f => call f g st
  end.

Fixpoint hexec (n : nat) (f : fn) (g : grammar_flags) (st : hstate) : hres (option unit) :=
  match n with
  | O => HFuel st
  | S n' => hinterp (hexec n') (body f) g st
  end.

(** Whether a sequence of reads contains a wrong hint. *)
Fixpoint misfits (past : list token) (rl : list (hint * lookahead)) : bool :=
  match rl with
  | [] => false
  | (h, la) :: rl' => misfit past (h_expression h) (h_template h) la || misfits (snd la :: past) rl'
  end.
Fixpoint past_after (past : list token) (rl : list (hint * lookahead)) : list token :=
  match rl with [] => past | (_, la) :: rl' => past_after (snd la :: past) rl' end.

Lemma misfits_app past a b : misfits past (a ++ b) = misfits past a || misfits (past_after past a) b.
Proof. revert past. induction a as [|[h la] a IH]; intros past; [reflexivity|]. cbn. rewrite IH. apply orb_assoc. Qed.
Lemma past_after_app past a b : past_after past (a ++ b) = past_after (past_after past a) b.
Proof. revert past. induction a as [|[h la] a IH]; intros past; [reflexivity|]. cbn. apply IH. Qed.

(** [reads next rf t rl t']: the tokens [rl], each with the hint it was asked for with. *)
Inductive reads {T : Type} (next : T -> hint -> tres (token * token_range * T)) (rf : nat)
  : T -> list (hint * lookahead) -> T -> Prop :=
| reads_nil t : reads next rf t [] t
| reads_cons t h la t1 rl t2 :
    read_token next rf t h false = RdOk la t1 -> reads next rf t1 rl t2 -> reads next rf t ((h, la) :: rl) t2.

Section Reads.
Context {T : Type} (next : T -> hint -> tres (token * token_range * T)) (rf : nat).
Lemma reads_app a l b l' c : reads next rf a l b -> reads next rf b l' c -> reads next rf a (l ++ l') c.
Proof. induction 1; cbn; [auto|]. intros. econstructor; eauto. Qed.
Lemma reads_split a l l' c : reads next rf a (l ++ l') c -> exists b, reads next rf a l b /\ reads next rf b l' c.
Proof.
  revert a. induction l as [|x l IH]; cbn; intros a H; [exists a; split; [constructor|exact H]|].
  inversion H as [|? h la t1 rl t2 R K]; subst. destruct (IH _ K) as (b & B1 & B2). exists b. split; [econstructor; eassumption|exact B2].
Qed.
Lemma reads_one t h la t' : read_token next rf t h false = RdOk la t' -> reads next rf t [(h, la)] t'.
Proof. intros R. econstructor; [exact R|constructor]. Qed.
Lemma reads_one_inv t h la t' : reads next rf t [(h, la)] t' -> read_token next rf t h false = RdOk la t'.
Proof. intros H. inversion H as [|? ? ? t1 ? ? R K]; subst. inversion K; subst. exact R. Qed.
Lemma reads_nil_inv t t' : reads next rf t [] t' -> t' = t.
Proof. intros H. inversion H. reflexivity. Qed.
End Reads.

(** Another tokenizer in the same state. *)
Definition set_tok {T T2 : Type} (s : pstate T) (t : T2) : pstate T2 :=
  PState t (ps_hint s) (ps_flags s) (ps_stack s) (ps_slot0 s) (ps_slot1 s) (ps_index s) (ps_count s)
         (ps_read s) (ps_popped s).

Section Traced.
Context {T : Type}.
Variable next : T -> hint -> tres (token * token_range * T).
Variable rf : nat.

Definition hst (s : pstate T) past bad X : hstate :=
  HS (ps_count s) (h_expression (ps_hint s)) past bad (buffered s ++ X).

Definition traced {A : Set} (n : nat) (p : prog A) (s : pstate T) : Prop :=
  match interp next rf (exec next rf body n) p s with
  | ROk a s' => exists rl, (reads next rf (ps_tok s) rl (ps_tok s') /\ ps_read s' = ps_read s ++ map snd rl) /\
      (forall T2 next2 rf2 (t2 t2' : T2), reads next2 rf2 t2 rl t2' ->
         interp next2 rf2 (exec next2 rf2 body n) p (set_tok s t2) = ROk a (set_tok s' t2')) /\
      forall past bad X, hinterp (hexec n) p (ps_flags s) (hst s past bad (map snd rl ++ X)) =
        HOk a (hst s' (past_after past rl) (bad || misfits past rl) X)
  | RErr x s' => exists rl, (reads next rf (ps_tok s) rl (ps_tok s') /\ ps_read s' = ps_read s ++ map snd rl) /\
      (forall T2 next2 rf2 (t2 t2' : T2), reads next2 rf2 t2 rl t2' ->
         interp next2 rf2 (exec next2 rf2 body n) p (set_tok s t2) = RErr x (set_tok s' t2')) /\
      forall past bad X, hinterp (hexec n) p (ps_flags s) (hst s past bad (map snd rl ++ X)) =
        HErr x (hst s' (past_after past rl) (bad || misfits past rl) X)
  | RPanic q => exists rl t, reads next rf (ps_tok s) rl t /\
      ((exists h, read_token next rf t h false = RdPanic q /\
        forall T2 next2 rf2 (t2 t2' : T2) q2, reads next2 rf2 t2 rl t2' -> read_token next2 rf2 t2' h false = RdPanic q2 ->
         interp next2 rf2 (exec next2 rf2 body n) p (set_tok s t2) = RPanic q2) \/
       (forall T2 next2 rf2 (t2 t2' : T2), reads next2 rf2 t2 rl t2' ->
         interp next2 rf2 (exec next2 rf2 body n) p (set_tok s t2) = RPanic q))
  | RFuel _ => True
  end.

Definition tmpl (s : pstate T) : Prop := h_template (ps_hint s) = expect_template (ps_flags s).

Lemma buffered_set_tok {T2} (s : pstate T) (t : T2) : buffered (set_tok s t) = buffered s.
Proof. reflexivity. Qed.
Lemma set_tok_same (s : pstate T) : set_tok s (ps_tok s) = s.
Proof. destruct s. reflexivity. Qed.

Ltac rd := cbn [ps_read map snd]; first [reflexivity | symmetry; apply app_nil_r | rewrite <- app_assoc; reflexivity].

Lemma act_traced {A : Set} n (a : act A) s b Q : inv s -> tmpl s -> (b = true -> 1 <= ps_count s) -> np (Act a) b Q ->
  traced n (Act a) s.
Proof.
  intros I HT Hb N. unfold traced. cbn [interp]. destruct a; cbn [np do_act] in *.
  - (* token_line *)
    unfold do_token_line. destruct (Nat.eqb_spec (ps_count s) 0) as [Z|Z].
    + assert (B : buffered s = []) by (unfold buffered; rewrite Z; reflexivity).
      destruct (read_token next rf (ps_tok s) (ps_hint s) false) as [la t'|q|] eqn:R; [| |exact Logic.I].
      * exists [(ps_hint s, la)]. split; [split; [apply reads_one; exact R|rd]|]. split.
        -- intros T2 next2 rf2 t2 t2' K. apply reads_one_inv in K. cbn [interp do_act]. unfold do_token_line.
           cbn [set_tok ps_count ps_tok ps_hint]. rewrite Z. cbn [Nat.eqb]. rewrite K. reflexivity.
        -- intros past bad X. cbn [hinterp hact map snd app misfits past_after]. unfold hst, hpeek. rewrite Z, B. cbn.
           rewrite HT, orb_false_r. reflexivity.
      * exists [], (ps_tok s). split; [constructor|]. left. exists (ps_hint s). split; [exact R|].
        intros T2 next2 rf2 t2 t2' q2 K R2. apply reads_nil_inv in K. subst. cbn [interp do_act]. unfold do_token_line.
        cbn [set_tok ps_count ps_tok ps_hint]. rewrite Z. cbn [Nat.eqb]. rewrite R2. reflexivity.
    + exists []. split; [split; [constructor|rd]|]. split.
      * intros T2 next2 rf2 t2 t2' K. apply reads_nil_inv in K. subst. cbn [interp do_act]. unfold do_token_line.
        cbn [set_tok ps_count]. apply Nat.eqb_neq in Z. rewrite Z. reflexivity.
      * intros past bad X. cbn [hinterp hact map app misfits past_after]. unfold hst, hpeek. cbn [hk hi he hpast hbad].
        apply Nat.eqb_neq in Z. rewrite Z, orb_false_r. apply Nat.eqb_neq in Z.
        unfold cur. rewrite hd_app by (apply buffered_nonempty; lia). unfold buffered.
        destruct (ps_count s) as [|[|?]]; [lia|reflexivity|reflexivity].
  - (* pop *)
    destruct N as [-> N]. specialize (Hb eq_refl). unfold do_pop. destruct (ps_count s) as [|c] eqn:C; [lia|].
    exists []. split; [split; [constructor|rd]|]. split.
    + intros T2 next2 rf2 t2 t2' K. apply reads_nil_inv in K. subst. cbn [interp do_act]. unfold do_pop. cbn [set_tok ps_count]. rewrite C. reflexivity.
    + intros past bad X. cbn [hinterp hact map app misfits past_after]. unfold hst. cbn [hk hi he hpast hbad ps_count ps_hint]. rewrite C, orb_false_r.
      destruct I as [I1 I2 I3 I4]. rewrite C in I2. assert (HC : c = 0 \/ c = 1) by lia. unfold buffered, slot. cbn [ps_count ps_index ps_slot0 ps_slot1]. rewrite C.
      destruct HC as [-> | ->]; destruct I1 as [-> | ->]; reflexivity.
  - (* lookahead *)
    unfold do_lookahead, do_token_line. destruct (Nat.eqb_spec (ps_count s) 0) as [Z|Z].
    + assert (B : buffered s = []) by (unfold buffered; rewrite Z; reflexivity).
      destruct (read_token next rf (ps_tok s) (ps_hint s) false) as [la t'|q|] eqn:R; [| |exact Logic.I].
      * cbn [ps_count ps_index ps_flags ps_hint ps_tok Nat.add Nat.modulo Nat.ltb Nat.leb fst snd Nat.divmod Nat.sub].
        destruct (snd la) as [pp|f v| | |v f|name|v|v|f c r|] eqn:Ela;
        lazymatch goal with
        | H : snd la = TIdent _ |- _ => idtac
        | _ => exists [(ps_hint s, la)]; split; [split; [apply reads_one; exact R|rd]|]; split;
          [intros T2 next2 rf2 t2 t2' K; apply reads_one_inv in K; cbn [interp do_act]; unfold do_lookahead, do_token_line;
           cbn [set_tok ps_count ps_tok ps_hint]; rewrite Z; cbn [Nat.eqb]; rewrite K;
           cbn [ps_count ps_index ps_flags ps_hint ps_tok Nat.add Nat.modulo Nat.ltb Nat.leb fst snd Nat.divmod Nat.sub];
           rewrite Ela; reflexivity
          |intros past bad X; cbn [hinterp hact map snd app misfits past_after]; unfold hst, hpeek; rewrite Z, B; cbn [hk hi he hpast hbad app Nat.eqb Nat.ltb Nat.leb cur tok hd];
           unfold tok, cur; cbn [hd app]; rewrite Ela, HT, orb_false_r; cbn; reflexivity]
        end.
        destruct (read_token next rf t' (set_expression (set_expression (ps_hint s) false) (negb (is_binding_identifier (ps_flags s) name))) false)
          as [la2 t2|q|] eqn:R2; [| |exact Logic.I].
        -- exists [(ps_hint s, la); (set_expression (set_expression (ps_hint s) false) (negb (is_binding_identifier (ps_flags s) name)), la2)].
           split; [split; [cbn [ps_tok]; econstructor; [exact R|]; apply reads_one; exact R2|rd]|]. split.
           ++ intros T2 next2 rf2 u u' K. inversion K as [|? ? ? u1 ? ? K1 K2]; subst. apply reads_one_inv in K2.
              cbn [interp do_act]; unfold do_lookahead, do_token_line;
              cbn [set_tok ps_count ps_tok ps_hint]; rewrite Z; cbn [Nat.eqb]; rewrite K1;
              cbn [ps_count ps_index ps_flags ps_hint ps_tok Nat.add Nat.modulo Nat.ltb Nat.leb fst snd Nat.divmod Nat.sub].
              rewrite Ela. cbn [set_tok ps_tok ps_hint ps_flags]. rewrite K2. reflexivity.
           ++ intros past bad X. cbn [hinterp hact map snd app misfits past_after]. unfold hst, hpeek. rewrite Z, B.
              cbn [hk hi he hpast hbad app Nat.eqb Nat.ltb Nat.leb]. unfold tok, cur. cbn [hd app tl]. rewrite Ela, HT.
              cbn [ps_count ps_index ps_hint ps_slot0 ps_slot1 Nat.add]. unfold buffered, slot. cbn [ps_count ps_index ps_slot0 ps_slot1 Nat.eqb Nat.add Nat.modulo Nat.divmod Nat.sub fst snd app].
              f_equal. f_equal.
              { cbn. unfold set_expression. cbn. rewrite orb_false_r, orb_assoc, HT. reflexivity. }
        -- exists [(ps_hint s, la)], t'. split; [apply reads_one; exact R|]. left. eexists. split; [exact R2|].
           intros T2 next2 rf2 u u' q2 K K2. apply reads_one_inv in K. cbn [interp do_act]; unfold do_lookahead, do_token_line;
           cbn [set_tok ps_count ps_tok ps_hint]; rewrite Z; cbn [Nat.eqb]; rewrite K;
           cbn [ps_count ps_index ps_flags ps_hint ps_tok Nat.add Nat.modulo Nat.ltb Nat.leb fst snd Nat.divmod Nat.sub].
           rewrite Ela. cbn [set_tok ps_tok ps_hint ps_flags]. rewrite K2. reflexivity.
      * exists [], (ps_tok s). split; [constructor|]. left. exists (ps_hint s). split; [exact R|].
        intros T2 next2 rf2 t2 t2' q2 K R2. apply reads_nil_inv in K. subst. cbn [interp do_act]. unfold do_lookahead, do_token_line.
        cbn [set_tok ps_count ps_tok ps_hint]. rewrite Z. cbn [Nat.eqb]. rewrite R2. reflexivity.
    + assert (Z' := proj2 (Nat.eqb_neq _ _) Z).
      destruct (Nat.ltb_spec (ps_count s) 2) as [L2|L2].
      * assert (C1 : ps_count s = 1) by lia.
        assert (B : buffered s = [slot s (ps_index s)]) by (unfold buffered; rewrite C1; reflexivity).
        destruct (snd (slot s (ps_index s))) as [pp|f v| | |v f|name|v|v|f c r|] eqn:Ela;
        lazymatch goal with
        | H : snd _ = TIdent _ |- _ => idtac
        | _ => exists []; split; [split; [constructor|rd]|]; split;
          [intros T2 next2 rf2 t2 t2' K; apply reads_nil_inv in K; subst; cbn [interp do_act]; unfold do_lookahead, do_token_line;
           cbn [set_tok ps_count ps_tok ps_hint]; rewrite Z'; cbn [set_tok ps_count]; rewrite C1; cbn [Nat.ltb Nat.leb];
           change (slot (set_tok s t2) (ps_index (set_tok s t2))) with (slot s (ps_index s));
           rewrite Ela; reflexivity
          |intros past bad X; cbn [hinterp hact map snd app misfits past_after]; unfold hst, hpeek; rewrite C1, B; cbn [hk hi he hpast hbad app Nat.eqb Nat.ltb Nat.leb];
           unfold tok, cur; cbn [hd app]; rewrite Ela, orb_false_r; reflexivity]
        end.
        destruct (read_token next rf (ps_tok s) (set_expression (ps_hint s) (negb (is_binding_identifier (ps_flags s) name))) false)
          as [la2 t2|q|] eqn:R2; [| |exact Logic.I].
        -- eexists [(_, la2)]. split; [split; [apply reads_one; exact R2|rd]|]. split.
           ++ intros T2 next2 rf2 u u' K. apply reads_one_inv in K. cbn [interp do_act]; unfold do_lookahead, do_token_line;
              cbn [set_tok ps_count ps_tok ps_hint]; rewrite Z'; cbn [set_tok ps_count]; rewrite C1; cbn [Nat.ltb Nat.leb].
              change (slot (set_tok s u) (ps_index (set_tok s u))) with (slot s (ps_index s)). rewrite Ela. cbn [set_tok ps_tok ps_hint ps_flags]. rewrite K. reflexivity.
           ++ intros past bad X. cbn [hinterp hact map snd app misfits past_after]. unfold hst, hpeek. rewrite C1, B.
              cbn [hk hi he hpast hbad app Nat.eqb Nat.ltb Nat.leb]. unfold tok, cur. cbn [hd app tl]. rewrite Ela.
              cbn [ps_count ps_hint Nat.add].
              match goal with |- HOk _ (HS _ _ _ ?x ?y) = HOk _ (HS _ _ _ ?u ?v) => assert (x = u) as ->; [|assert (y = v) as ->; [|reflexivity]] end.
              { cbn. rewrite orb_false_r, HT. reflexivity. }
              unfold buffered. cbn [ps_count]. destruct (inv_index s I) as [I0|I0]; unfold slot; cbn [ps_index ps_slot0 ps_slot1]; rewrite I0; reflexivity.
        -- exists [], (ps_tok s). split; [constructor|]. left. eexists. split; [exact R2|].
           intros T2 next2 rf2 u u' q2 K K2. apply reads_nil_inv in K. subst. cbn [interp do_act]; unfold do_lookahead, do_token_line;
           cbn [set_tok ps_count ps_tok ps_hint]; rewrite Z'; cbn [set_tok ps_count]; rewrite C1; cbn [Nat.ltb Nat.leb].
           change (slot (set_tok s u) (ps_index (set_tok s u))) with (slot s (ps_index s)). rewrite Ela. cbn [set_tok ps_tok ps_hint ps_flags]. rewrite K2. reflexivity.
      * assert (C2 : ps_count s = 2) by (assert (X := inv_count s I); lia).
        exists []. split; [split; [constructor|rd]|]. split.
        -- intros T2 next2 rf2 t2 t2' K. apply reads_nil_inv in K. subst. cbn [interp do_act]; unfold do_lookahead, do_token_line;
           cbn [set_tok ps_count]. rewrite Z'. cbn [set_tok ps_count]. rewrite C2. reflexivity.
        -- intros past bad X. destruct (inv_two s I C2) as [x Hx]. cbn [hinterp hact map snd app misfits past_after]. unfold hst, hpeek, buffered. rewrite C2.
           cbn [hk hi he hpast hbad app Nat.eqb Nat.ltb Nat.leb]. unfold cur. cbn [hd tl app]. rewrite orb_false_r. reflexivity.
  - exists []. split; [split; [constructor|rd]|]. split.
    + intros T2 next2 rf2 t2 t2' K. apply reads_nil_inv in K. subst. reflexivity.
    + intros past bad X. cbn. rewrite orb_false_r. reflexivity.
  - exists []. split; [split; [constructor|rd]|]. split.
    + intros T2 next2 rf2 t2 t2' K. apply reads_nil_inv in K. subst. reflexivity.
    + intros past bad X. cbn. rewrite orb_false_r. reflexivity.
Qed.

Definition fn_traced (n : nat) : Prop := forall f s, inv s -> tmpl s -> traced n (Call f) s.

Lemma interp_traced n : fn_traced n -> forall (A : Set) (p : prog A) s b Q, inv s -> tmpl s ->
  (b = true -> 1 <= ps_count s) -> np p b Q -> traced n p s.
Proof.
  intros HC A p. induction p as [A a|A B p IHp k IHk|A a|A x|A w|A f v p IHp|f]; intros s b Q I HT Hb N.
  - unfold traced. cbn. exists []. split; [split; [constructor|rd]|]. split.
    + intros T2 next2 rf2 t2 t2' K. apply reads_nil_inv in K. subst. reflexivity.
    + intros past bad X. cbn. rewrite orb_false_r. reflexivity.
  - cbn [np] in N. specialize (IHp s b _ I HT Hb N).
    assert (RP := interp_replayed next rf e _ _ (exec_replayed next rf e n) _ p s b _ I Hb N).
    unfold traced in *. cbn [interp]. destruct (interp next rf (exec next rf body n) p s) as [a s1|x s1|q|s1]; [| | |exact Logic.I].
    + destruct RP as (C & (b1 & Hb1 & N1) & l & G & _). destruct IHp as (rl & R & Tr & Hh).
      assert (HT1 : tmpl s1) by (apply C; exact HT). assert (FE : ps_flags s1 = ps_flags s) by (apply C).
      specialize (IHk a s1 b1 Q (proj1 G) HT1 Hb1 N1). unfold traced in IHk.
      destruct (interp next rf (exec next rf body n) (k a) s1) as [a2 s2|x s2|q|s2]; [| | |exact Logic.I].
      * destruct IHk as (rl2 & R2 & Tr2 & Hh2). exists (rl ++ rl2). split; [split; [eapply reads_app; [apply R|apply R2]|rewrite (proj2 R2), (proj2 R), map_app, app_assoc; reflexivity]|]. split.
        -- intros T2 next2 rf2 t2 t2' K. apply reads_split in K. destruct K as (u & K1 & K2). cbn [interp].
           rewrite (Tr _ _ _ _ _ K1). apply Tr2. exact K2.
        -- intros past bad X. cbn [hinterp]. rewrite map_app, <- app_assoc, Hh, <- FE, Hh2, past_after_app, misfits_app, orb_assoc. reflexivity.
      * destruct IHk as (rl2 & R2 & Tr2 & Hh2). exists (rl ++ rl2). split; [split; [eapply reads_app; [apply R|apply R2]|rewrite (proj2 R2), (proj2 R), map_app, app_assoc; reflexivity]|]. split.
        -- intros T2 next2 rf2 t2 t2' K. apply reads_split in K. destruct K as (u & K1 & K2). cbn [interp].
           rewrite (Tr _ _ _ _ _ K1). apply Tr2. exact K2.
        -- intros past bad X. cbn [hinterp]. rewrite map_app, <- app_assoc, Hh, <- FE, Hh2, past_after_app, misfits_app, orb_assoc. reflexivity.
      * destruct IHk as (rl2 & t & R2 & D). exists (rl ++ rl2), t. split; [eapply reads_app; [apply R|apply R2]|].
        destruct D as [(h & D1 & D2)|D]; [left; exists h; split; [exact D1|]|right].
        -- intros T2 next2 rf2 t2 t2' q2 K K3. apply reads_split in K. destruct K as (u & K1 & K2). cbn [interp].
           rewrite (Tr _ _ _ _ _ K1). eapply D2; eassumption.
        -- intros T2 next2 rf2 t2 t2' K. apply reads_split in K. destruct K as (u & K1 & K2). cbn [interp].
           rewrite (Tr _ _ _ _ _ K1). eapply D; eassumption.
    + destruct IHp as (rl & R & Tr & Hh). exists rl. split; [exact R|]. split.
      * intros T2 next2 rf2 t2 t2' K. cbn [interp]. rewrite (Tr _ _ _ _ _ K). reflexivity.
      * intros past bad X. cbn [hinterp]. rewrite Hh. reflexivity.
    + destruct IHp as (rl & t & R & D). exists rl, t. split; [exact R|].
      destruct D as [(h & D1 & D2)|D]; [left; exists h; split; [exact D1|]|right].
      * intros T2 next2 rf2 t2 t2' q2 K K3. cbn [interp]. rewrite (D2 _ _ _ _ _ _ K K3). reflexivity.
      * intros T2 next2 rf2 t2 t2' K. cbn [interp]. rewrite (D _ _ _ _ _ K). reflexivity.
  - eapply act_traced; eassumption.
  - unfold traced. cbn. exists []. split; [split; [constructor|rd]|]. split.
    + intros T2 next2 rf2 t2 t2' K. apply reads_nil_inv in K. subst. reflexivity.
    + intros past bad X. cbn. rewrite orb_false_r. reflexivity.
  - unfold traced. cbn. exists [], (ps_tok s). split; [constructor|]. right. reflexivity.
  - assert (I' : inv (push_flags f v s)) by (destruct I as [I1 I2 I3 I4]; split; assumption).
    assert (HT' : tmpl (push_flags f v s)).
    { unfold tmpl in *. cbn. destruct (ps_flags s) eqn:Eg. destruct f; cbn in *; auto. }
    cbn [np] in N. specialize (IHp (push_flags f v s) b Q I' HT' Hb N).
    assert (RP := interp_replayed next rf e _ _ (exec_replayed next rf e n) _ p (push_flags f v s) b _ I' Hb N).
    unfold traced in *. cbn [interp].
    assert (HX : forall past bad X, hst (push_flags f v s) past bad X = hst s past bad X).
    { intros. unfold hst. cbn. destruct f; reflexivity. }
    destruct (interp next rf (exec next rf body n) p (push_flags f v s)) as [a s1|x s1|q|s1]; [| | |exact Logic.I].
    + destruct RP as (C & _). destruct C as (C1 & C2 & C3 & C4). cbn in C2. unfold pop_flags. rewrite C2.
      destruct IHp as (rl & R & Tr & Hh). exists rl. split; [exact R|]. split.
      * intros T2 next2 rf2 t2 t2' K. cbn [interp].
        change (push_flags f v (set_tok s t2)) with (set_tok (push_flags f v s) t2). rewrite (Tr _ _ _ _ _ K).
        unfold pop_flags. cbn [set_tok ps_stack]. rewrite C2. reflexivity.
      * intros past bad X. specialize (Hh past bad X). rewrite HX in Hh. cbn [hinterp]. cbn [push_flags ps_flags] in Hh. rewrite Hh. reflexivity.
    + destruct RP as (C & _). destruct C as (C1 & C2 & C3 & C4). cbn in C2. unfold pop_flags. rewrite C2.
      destruct IHp as (rl & R & Tr & Hh). exists rl. split; [exact R|]. split.
      * intros T2 next2 rf2 t2 t2' K. cbn [interp].
        change (push_flags f v (set_tok s t2)) with (set_tok (push_flags f v s) t2). rewrite (Tr _ _ _ _ _ K).
        unfold pop_flags. cbn [set_tok ps_stack]. rewrite C2. reflexivity.
      * intros past bad X. specialize (Hh past bad X). rewrite HX in Hh. cbn [hinterp]. cbn [push_flags ps_flags] in Hh. rewrite Hh. reflexivity.
    + destruct IHp as (rl & t & R & D). exists rl, t. split; [exact R|].
      destruct D as [(h & D1 & D2)|D]; [left; exists h; split; [exact D1|]|right].
      * intros T2 next2 rf2 t2 t2' q2 K K3. cbn [interp].
        change (push_flags f v (set_tok s t2)) with (set_tok (push_flags f v s) t2). rewrite (D2 _ _ _ _ _ _ K K3). reflexivity.
      * intros T2 next2 rf2 t2 t2' K. cbn [interp].
        change (push_flags f v (set_tok s t2)) with (set_tok (push_flags f v s) t2). rewrite (D _ _ _ _ _ K). reflexivity.
  - apply HC; assumption.
Qed.

Theorem exec_traced n : fn_traced n.
Proof.
  induction n as [|n IH]; intros f s I HT; unfold traced; cbn [interp hinterp hexec exec]; [exact Logic.I|].
  apply (interp_traced n IH _ (body f) s false anything); [exact I|exact HT|discriminate|apply np_body].
Qed.

Theorem run_traced n t : traced n parse_module (pstate_init t).
Proof.
  apply (interp_traced n (exec_traced n) _ _ _ false anything); [apply init_inv|reflexivity|discriminate|apply np_module].
Qed.
End Traced.
End Hinted.
