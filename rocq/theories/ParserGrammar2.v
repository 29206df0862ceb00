(** What the grammar says about single parse functions, at any moment of a parse. *)
From Coq Require Import String List Arith NArith Bool Lia.
From Verif Require Import Base Tokens ByteFacts Tokenizer ParserCore ParserBody SpecParser AbstractParser ParserExec ParserTerminates
  Replay ParserProps ParserProps2 SpecGrammar GrammarFirst GrammarRules GrammarSound Precedence CompleteBase GrammarComplete GrammarFacts
  DerivationInv ParserGrammar.
Import ListNotations.

(** What is left is a suffix. *)
Definition ends_with {A : Set} (i : input) (r : ares A) : Prop :=
  match r with AOk _ i' | AErr _ i' | AFuel i' => exists w, i = w ++ i' | APanic _ => True end.
Lemma ainterp_suffix e (c : acall) : (forall f g i, ends_with i (c f g i)) ->
  forall (A : Set) (p : prog A) g i, ends_with i (ainterp e c p g i).
Proof.
  intros C A p. induction p as [A a|A B p IHp k IHk|A a|A x|A why|A f v p IHp|f]; intros g i; cbn [ainterp].
  - exists []. reflexivity.
  - specialize (IHp g i). destruct (ainterp e c p g i) as [a i'|x i'|w|i']; cbn [abind]; try exact IHp.
    destruct IHp as (w & ->). specialize (IHk a g i'). destruct (ainterp e c (k a) g i') as [b j|x j|w'|j]; cbn in *; auto;
      destruct IHk as (w' & ->); exists (w ++ w'); rewrite app_assoc; reflexivity.
  - destruct a; cbn; try (exists []; reflexivity). destruct i as [|x i]; [exists []|exists [x]]; reflexivity.
  - exists []. reflexivity.
  - exact Logic.I.
  - apply IHp.
  - apply C.
Qed.
Lemma suffix_holds e n : forall f g i, ends_with i (aexec e n f g i).
Proof. induction n as [|n IH]; intros f g i; [exists []; reflexivity|apply ainterp_suffix, IH]. Qed.

Section At.
Context {T : Type}.
Variable next : T -> hint -> tres (token * token_range * T).
Variable rf : nat.

Lemma read_split (s s' : pstate T) l : inv s -> goes next rf s s' l ->
  ps_popped s' ++ buffered s' = ps_popped s ++ buffered s ++ l.
Proof. intros V (V' & G & _). rewrite <- (inv_read _ V'), G, (inv_read _ V), app_assoc. reflexivity. Qed.

(** A match consumes tokens that derive from the nonterminal of the function. *)
Lemma matched_good n f (s s' : pstate T) : inv s -> exec next rf body n f s = ROk (Some tt) s' ->
  exists w, ps_popped s' = ps_popped s ++ w /\ forall L, good f (ps_flags s) (w ++ waiting s' ++ L) (waiting s' ++ L).
Proof.
  intros V H. pose proof (exec_replayed next rf TEOF n f s V) as R. rewrite H in R. cbn [replayed] in R.
  destruct R as (_ & _ & l & G & R). pose proof (read_split _ _ _ V G) as P.
  assert (W : exists w, buffered s ++ l = w ++ buffered s').
  { specialize (R []). rewrite !app_nil_r in R. pose proof (suffix_holds TEOF n f (ps_flags s) (buffered s ++ l)) as X. rewrite R in X. exact X. }
  destruct W as (w & W). exists w. rewrite waiting_buffered by exact (proj1 G). split.
  - rewrite W, !app_assoc in P. apply app_inv_tail in P. exact P.
  - intros L. specialize (R L). pose proof (sound_holds n f (ps_flags s) (buffered s ++ l ++ L)) as S. rewrite R in S.
    cbn in S. rewrite app_assoc, W, <- app_assoc in S. exact S.
Qed.
(** An error: no continuation of the tokens received derives. *)
Lemma failed_bad n f m (s s' : pstate T) x : inv s -> fn_of m = Some (fun _ _ => f) -> exec next rf body n f s = RErr x s' ->
  forall w, ps_popped s' ++ waiting s' = ps_popped s ++ w ->
  forall L r, ~ derives (ps_flags s) m (w ++ L) r.
Proof.
  intros V Fm H w E L r D. pose proof (exec_replayed next rf TEOF n f s V) as R. rewrite H in R. cbn [replayed] in R.
  destruct R as (_ & l & G & R). pose proof (read_split _ _ _ V G) as P. rewrite waiting_buffered in E by exact (proj1 G).
  rewrite P in E. apply app_inv_head in E. subst w.
  apply (complete_holds m _ _ _ _ 0 Fm) in D. specialize (R L). rewrite app_assoc in R.
  rewrite (not_fuel_parse TEOF teof_end) in R; [congruence|rewrite R; exact Logic.I].
Qed.
(** A non-match likewise. *)
Lemma missed_bad n f m (s s' : pstate T) : inv s -> fn_of m = Some (fun _ _ => f) -> exec next rf body n f s = ROk None s' ->
  forall L r, ~ derives (ps_flags s) m (waiting s' ++ L) r.
Proof.
  intros V Fm H L r D. pose proof (exec_replayed next rf TEOF n f s V) as R. rewrite H in R. cbn [replayed] in R.
  destruct R as (_ & _ & l & G & R). rewrite waiting_buffered in D by exact (proj1 G).
  assert (B : buffered s' = buffered s ++ l).
  { specialize (R []). pose proof (consumption_holds TEOF n f (ps_flags s) (buffered s ++ l ++ [])) as C. rewrite R in C.
    cbn [consumption] in C. destruct C as (C & _). rewrite !app_nil_r in C. exact C. }
  rewrite B in D. apply (complete_holds m _ _ _ _ 0 Fm) in D. specialize (R L). rewrite app_assoc in R.
  rewrite (not_fuel_parse TEOF teof_end) in R; [congruence|rewrite R; exact Logic.I].
Qed.
End At.

(** ** Peek and pop *)
Section Steps.
Context {T : Type}.
Variable next : T -> hint -> tres (token * token_range * T).
Variable rf : nat.

Lemma pop_run (s : pstate T) : inv s -> 1 <= ps_count s ->
  exists la s', do_pop s = ROk (snd la) s' /\ waiting s = la :: waiting s' /\ ps_popped s' = ps_popped s ++ [la].
Proof.
  intros [I1 I2 _ _] P. unfold do_pop. destruct (ps_count s) as [|c] eqn:C; [lia|].
  eexists. eexists. split; [reflexivity|]. split; [|reflexivity].
  unfold waiting, slot. rewrite C. cbn [ps_index ps_count ps_slot0 ps_slot1].
  destruct I1 as [-> | ->]; cbn; destruct c as [|[|c]]; try reflexivity; lia.
Qed.
Lemma peek_run (s : pstate T) la s' : inv s -> do_token_line next rf s = ROk la s' ->
  inv s' /\ 1 <= ps_count s' /\ ps_popped s' = ps_popped s /\ ps_flags s' = ps_flags s /\
  exists new rest, waiting s' = waiting s ++ new /\ waiting s' = la :: rest.
Proof.
  intros V H. pose proof (token_line_goes next rf TEOF s V) as G. rewrite H in G.
  destruct G as (C & P & l & G & B & A & Hd & _ & _).
  pose proof (read_split _ _ _ _ _ V G) as R. pose proof (proj1 G) as V1. rewrite <- B in R.
  split; [exact V1|]. split; [exact P|]. split; [apply app_inv_tail in R; exact R|]. split; [exact (proj1 C)|].
  rewrite (waiting_buffered _ V), (waiting_buffered _ V1). pose proof (buffered_nonempty s' P) as NE.
  exists l. destruct (buffered s') as [|a' rest]; [congruence|]. cbn in Hd. subst a'. eauto.
Qed.
Lemma peek_no_err (s : pstate T) x s' : inv s -> do_token_line next rf s <> RErr x s'.
Proof. intros V H. pose proof (token_line_goes next rf TEOF s V) as G. rewrite H in G. exact G. Qed.

(** ** C31 *)
Theorem c31 t s n b r s' : during next rf t s ->
  interp next rf (exec next rf body n) (semicolon_inner b) s = ROk r s' ->
  (exists la new, waiting s ++ new = la :: waiting s' /\ snd la = TPunctuator Semicolon /\
     r = Some tt /\ ps_popped s' = ps_popped s ++ [la]) \/
  (exists la rest new, waiting s' = waiting s ++ new /\ waiting s' = la :: rest /\ snd la <> TPunctuator Semicolon /\
     r = (if insertable b [la] then Some tt else None) /\ ps_popped s' = ps_popped s).
Proof.
  intros D H. apply during_moment in D. pose proof (m_inv _ _ _ _ D) as V. clear D. unfold semicolon_inner in H. cbn [interp do_act] in H.
  destruct (do_token_line next rf s) as [a s1|x s1|p|s1] eqn:E1; cbn [interp] in H; try discriminate.
  apply peek_run in E1; [|exact V]. destruct E1 as (V1 & P & P1 & _ & new & rest & W & W1).
  assert (Other : snd a <> TPunctuator Semicolon ->
     (exists s2, r = (if insertable b [a] then Some tt else None) /\ ps_popped s' = ps_popped s2 /\ waiting s' = waiting s2 /\ s2 = s1) ->
     (exists la rest new, waiting s' = waiting s ++ new /\ waiting s' = la :: rest /\ snd la <> TPunctuator Semicolon /\
     r = (if insertable b [la] then Some tt else None) /\ ps_popped s' = ps_popped s)).
  { intros N (s2 & Hr & Hp & Hw & ->). exists a, rest, new. rewrite Hw, Hp. auto. }
  unfold insertable, SpecGrammar.next in Other. cbn [hd] in Other.
  destruct (snd a) as [q| | | | |nm| | | |] eqn:Ea; 
    [destruct (punctuator_eq_dec q Semicolon) as [->|Nq]; [|destruct (punctuator_eq_dec q CurlyClose) as [->|Nq']]|..].
  1: { left. unfold pop_ in H. cbn [interp do_act] in H. destruct (pop_run s1 V1 P) as (la & s2 & Hpop & Hw & Hp).
       rewrite Hpop in H. cbn [interp] in H. injection H as <- <-. exists la, new. rewrite <- W, Hw.
       rewrite W1 in Hw. injection Hw as <- _. rewrite Hp, P1. auto. }
  all: right; apply Other; [congruence|]; exists s1.
  2: replace (match q with CurlyClose => true | _ => b || fst a end) with (b || fst a) by (destruct q; congruence).
  2: replace (match q with
             | CurlyClose => run_ expect_expression;; done_
             | Semicolon => run_ pop_;; done_
             | _ => if b || fst a then run_ expect_expression;; done_ else Ret None
             end) with (if b || fst a then run_ expect_expression;; done_ else Ret None) in H by (destruct q; congruence).
  all: try (destruct (b || fst a)).
  all: unfold expect_expression in H; cbn [interp do_act] in H; injection H as <- <-; cbn; auto.
Qed.
Theorem c31_no_error t s n b x s' : during next rf t s ->
  interp next rf (exec next rf body n) (semicolon_inner b) s <> RErr x s'.
Proof.
  intros D H. apply during_moment in D. pose proof (m_inv _ _ _ _ D) as V. clear D. unfold semicolon_inner in H. cbn [interp do_act] in H.
  destruct (do_token_line next rf s) as [a s1|x' s1|p|s1] eqn:E1; cbn [interp] in H; try discriminate.
  - apply peek_run in E1; [|exact V]. destruct E1 as (V1 & P & _). destruct (pop_run s1 V1 P) as (la & s2 & Hpop & _).
    destruct (snd a) as [[]| | | | |nm| | | |]; try destruct (b || fst a); unfold pop_, expect_expression in H; cbn [interp do_act] in H;
      rewrite ?Hpop in H; discriminate.
  - exact (peek_no_err _ _ _ V E1).
Qed.

(** ** C33 *)
Theorem c33 t s n r s' : during next rf t s ->
  interp next rf (exec next rf body n) binding_identifier s = ROk r s' ->
  exists la rest new, waiting s ++ new = la :: rest /\
  match r with
  | Some _ => exists name, snd la = TIdent name /\ bindable (ps_flags s) name = true /\
      waiting s' = rest /\ ps_popped s' = ps_popped s ++ [la]
  | None => (forall name, snd la = TIdent name -> bindable (ps_flags s) name = false) /\
      waiting s' = la :: rest /\ ps_popped s' = ps_popped s
  end.
Proof.
  intros D H. apply during_moment in D. pose proof (m_inv _ _ _ _ D) as V. clear D.
  unfold binding_identifier, get_flags, take_if, token_, pop_ in H. cbn [interp do_act] in H.
  destruct (do_token_line next rf s) as [a s1|x s1|p|s1] eqn:E1; cbn [interp] in H; try discriminate.
  apply peek_run in E1; [|exact V]. destruct E1 as (V1 & P & P1 & _ & new & rest & W & W1).
  exists a, rest, new. split; [congruence|].
  pose proof (matches_Bind (ps_flags s) (snd a)) as M. cbn [matches] in M.
  destruct (is_binding_token (ps_flags s) (snd a)) eqn:B; cbn [interp do_act] in H.
  - destruct (pop_run s1 V1 P) as (la & s2 & Hpop & Hw & Hp). rewrite Hpop in H. cbn [interp] in H.
    rewrite W1 in Hw. injection Hw as <- Hw. destruct (snd a) as [| | | | |name| | | |]; try discriminate. cbn in H.
    injection H as <- <-. exists name. rewrite Hp, P1. auto.
  - injection H as <- <-. split; [|auto]. intros name Z. rewrite Z in M. exact M.
Qed.
End Steps.

Lemma bindable_not_reserved g name : bindable g name = true -> forall w, In w reserved_words -> name <> s2b w.
Proof.
  unfold bindable. intros H w I ->. apply andb_true_iff in H. destruct H as (H & _). apply andb_true_iff in H. destruct H as (H & _).
  apply negb_true_iff in H. unfold word_in in H. 
  assert (X : existsb (fun w' => beqb (s2b w) (s2b w')) reserved_words = true); [|congruence].
  apply existsb_exists. exists w. split; [exact I|]. apply beqb_eq. reflexivity.
Qed.
Theorem c33_all : forall T (next : T -> hint -> tres (token * token_range * T)) rf t s n p r s',
  In p [binding_identifier; reference_identifier; label_identifier] ->
  during next rf t s -> interp next rf (exec next rf body n) p s = ROk r s' ->
  exists la rest new, waiting s ++ new = la :: rest /\
  match r with
  | Some _ => exists name, snd la = TIdent name /\ bindable (ps_flags s) name = true /\
      waiting s' = rest /\ ps_popped s' = ps_popped s ++ [la]
  | None => (forall name, snd la = TIdent name -> bindable (ps_flags s) name = false) /\
      waiting s' = la :: rest /\ ps_popped s' = ps_popped s
  end.
Proof.
  intros T next rf t s n p r s' I D H. assert (p = binding_identifier) as -> by (destruct I as [<-|[<-|[<-|[]]]]; reflexivity).
  exact (c33 next rf t s n r s' D H).
Qed.
Lemma insertable_iff b nl tok : insertable b [(nl, tok)] = true <->
  tok = TPunctuator CurlyClose \/ tok = TEOF \/ nl = true \/ b = true.
Proof.
  unfold insertable. cbn. destruct tok as [[]| | | | | | | | |]; destruct b, nl; cbn;
    (split; [auto; intros; try discriminate; auto|intros [H|[H|[H|H]]]; try reflexivity; discriminate]).
Qed.
