(** Consequences of Replay.v for the concrete parser: C23-C26, C38. *)
From Coq Require Import String List Arith NArith Bool Lia.
From Verif Require Import Base Tokens SpecTokens SpecStream Tokenizer ParserCore ParserBody SpecParser
  ByteFacts NextFacts TokenProps AbstractParser ParserExec ParserTerminates Replay.
Import ListNotations.
Local Open Scope nat_scope.

(** ** Inputs that differ in the number of end tokens *)
Definition same_input (e : token) (i j : input) : Prop := forall n, nth n i (false, e) = nth n j (false, e).

Lemma same_cur e i j : same_input e i j -> cur e i = cur e j.
Proof. intros H. specialize (H 0). unfold cur. destruct i, j; exact H. Qed.
Lemma same_tl e i j : same_input e i j -> same_input e (tl i) (tl j).
Proof.
  intros H n. specialize (H (S n)). destruct i as [|x i], j as [|y j]; cbn [tl]; auto; cbn [nth] in *.
  - rewrite <- H. destruct n; reflexivity.
  - rewrite H. destruct n; reflexivity.
Qed.
Lemma same_second e i j : same_input e i j -> second e i = second e j.
Proof.
  intros H. unfold second, tok. rewrite (same_cur e i j H), (same_cur e _ _ (same_tl e i j H)). reflexivity.
Qed.
Lemma same_pad e i k : same_input e (i ++ repeat (false, e) k) i.
Proof.
  intros n. destruct (Nat.lt_ge_cases n (length i)) as [L|L].
  - apply app_nth1. exact L.
  - rewrite app_nth2 by exact L. rewrite (nth_overflow i) by exact L.
    generalize (n - length i). clear. induction k as [|k IH]; intros [|m]; auto. apply IH.
Qed.

Definition same_ares {A : Set} (e : token) (r r' : ares A) : Prop :=
  match r, r' with
  | AOk a i, AOk b j => a = b /\ same_input e i j
  | AErr x i, AErr y j => x = y /\ same_input e i j
  | APanic p, APanic q => p = q
  | AFuel i, AFuel j => same_input e i j
  | _, _ => False
  end.

Lemma ainterp_same e (c c' : acall) :
  (forall f g i j, same_input e i j -> same_ares e (c f g i) (c' f g j)) ->
  forall (A : Set) (p : prog A) g i j, same_input e i j -> same_ares e (ainterp e c p g i) (ainterp e c' p g j).
Proof.
  intros HC A p. induction p as [A a|A B p IHp k IHk|A a|A x|A w|A f v p IHp|f]; intros g i j H; cbn [ainterp].
  - split; auto.
  - specialize (IHp g i j H). destruct (ainterp e c p g i) as [a i'|x i'|w|i'], (ainterp e c' p g j) as [b j'|y j'|w'|j'];
      cbn [abind same_ares] in *; try contradiction; try exact IHp.
    destruct IHp as [<- S]. apply IHk. exact S.
  - destruct a; cbn [aact same_ares]; auto.
    + rewrite (same_cur e i j H). auto.
    + unfold tok. rewrite (same_cur e i j H). split; [reflexivity|apply same_tl; exact H].
    + rewrite (same_second e i j H). auto.
  - split; auto.
  - reflexivity.
  - apply IHp. exact H.
  - apply HC. exact H.
Qed.

Lemma aexec_same e n : forall f g i j, same_input e i j -> same_ares e (aexec e n f g i) (aexec e n f g j).
Proof.
  induction n as [|n IH]; intros f g i j H; [exact H|]. cbn [aexec]. apply ainterp_same; [exact IH|exact H].
Qed.

(** ** The tokens a slice tokenizer delivers *)
Section Slice.
Variable E : env.
Notation read := (read_token (next_token E)).

(** The tokenizer answers with the token [e] forever. *)
Definition stuck (e : token) (u : bytes) : Prop :=
  end_token e /\ forall h, lexeme (overflow_checks E) h [] e u.

Lemma empty_stuck h tok r : lexeme (overflow_checks E) h [] tok r -> stuck tok r.
Proof.
  intros H. destruct (lexeme_empty _ _ _ _ _ H eq_refl) as [(-> & ->)|[(-> & U)|(-> & q & v & Q & -> & O)]].
  - split; [left; reflexivity|]. intros h'. apply lx_eof.
  - split; [right; left; reflexivity|]. intros h'. apply lx_ident_empty. exact U.
  - split; [right; right; reflexivity|]. intros h'. apply lx_string_empty; assumption.
Qed.

Lemma stuck_next e t u h : stuck e u -> stands t u ->
  exists rg t', next_token E t h = TOk (e, rg, t') /\ stands t' u.
Proof.
  intros [X L] St. destruct (reads_lexeme_eq E t h [] [] e u St) as (rg & t' & R & _ & _ & _ & _ & St').
  - constructor.
  - apply L.
  - intros n ->. destruct X as [X|[X|X]]; discriminate.
  - eauto.
Qed.
Lemma stuck_read e t u h n ln : stuck e u -> stands t u ->
  exists t', read (S n) t h ln = RdOk (ln, e) t' /\ stands t' u.
Proof.
  intros S St. destruct (stuck_next e t u h S St) as (rg & t' & R & St'). exists t'. split; [|exact St'].
  cbn [read_token]. rewrite R. destruct S as [X _].
  destruct X as [-> | [-> | ->]]; reflexivity.
Qed.

Lemma read_slice n : forall t h ln u, stands t u -> length u < n ->
  match read n t h ln with
  | RdOk la t' => exists u', stands t' u' /\ (length u' < length u \/ length u' <= length u /\ stuck (snd la) u')
  | RdPanic p => exists t', next_token E t' h = TPanic p /\ exists u', stands t' u'
  | RdFuel => False
  end.
Proof.
  induction n as [|n IH]; intros t h ln u St L; [lia|]. cbn [read_token].
  destruct (next_token E t h) as [[[tok pos] t']|p] eqn:R; [|eauto].
  destruct (next_ok E t h u tok pos t' St R) as (g & w & r & -> & Bg & Hl & _ & _ & St').
  rewrite !app_length in *.
  assert (HS : length w = 0 -> stuck tok r).
  { intros Z. destruct w; [|discriminate]. eapply empty_stuck. exact Hl. }
  assert (D : forall la : lookahead, snd la = tok -> exists u', stands t' u' /\
     (length u' < length g + (length w + length r) \/ length u' <= length g + (length w + length r) /\ stuck (snd la) u')).
  { intros la <-. exists r. split; [exact St'|]. destruct (Nat.eq_dec (length w) 0) as [Z|Z].
    - right. split; [lia|auto].
    - left. lia. }
  assert (D' : 0 < length w -> forall ln', match read n t' h ln' with
     | RdOk la t'0 => exists u', stands t'0 u' /\ (length u' < length g + (length w + length r) \/
         length u' <= length g + (length w + length r) /\ stuck (snd la) u')
     | RdPanic p => exists t', next_token E t' h = TPanic p /\ exists u', stands t' u'
     | RdFuel => False end).
  { intros P ln'. specialize (IH t' h ln' r St'). destruct (read n t' h ln') as [la t2|p|].
    - destruct IH as (u' & S' & [L'|[L' K]]); [lia| |]; exists u'; (split; [exact S'|]); [left; lia|left; lia].
    - apply IH. lia.
    - apply IH. lia. }
  assert (P : tok = TWhitespace \/ tok = TLineTerminator \/ (exists f v, tok = TComment f v) -> 0 < length w).
  { intros K. destruct w; [|cbn; lia]. destruct (HS eq_refl) as [[-> |[-> | ->]] _];
      destruct K as [K|[K|(f & v & K)]]; discriminate. }
  destruct tok; try (apply D; reflexivity); apply D'; apply P; eauto.
Qed.

Lemma fetches_slice n code t l t' : stands t code -> length code < n -> fetches (next_token E) n t l t' ->
  (exists u, stands t' u /\ length l + length u <= length code) \/
  (exists e l1 k u, end_token e /\ l = l1 ++ repeat (false, e) k /\ length l1 <= S (length code) /\
     stands t' u /\ stuck e u /\ length u <= length code).
Proof.
  intros St L F. induction F as [t|t l t1 h la t2 F IH R].
  - left. exists code. cbn. auto.
  - specialize (IH St). destruct IH as [(u & St1 & Lu)|(e & l1 & k & u & X & -> & L1 & St1 & SK & Lu)].
    + assert (H := read_slice n t1 h false u St1). rewrite R in H.
      destruct H as (u' & St2 & [L2|[L2 SK]]); [lia| |].
      * left. exists u'. split; [exact St2|]. rewrite app_length. cbn. lia.
      * right. exists (snd la), (l ++ [la]), 0, u'. cbn [repeat]. rewrite !app_nil_r.
        split; [apply SK|]. split; [reflexivity|]. rewrite app_length. cbn. repeat split; auto; try lia; apply SK.
    + right. exists e, l1, (S k), u. destruct n as [|n]; [lia|].
      destruct (stuck_read e t1 u h n false SK St1) as (t3 & R3 & St3). rewrite R3 in R. injection R as <- <-.
      split; [exact X|]. split; [|auto]. rewrite <- app_assoc. f_equal.
      clear. induction k as [|k IH]; [reflexivity|]. cbn. f_equal. exact IH.
Qed.

Lemma fetches_stands n code t l t' : stands t code -> length code < n -> fetches (next_token E) n t l t' ->
  exists u, stands t' u /\ length u <= length code.
Proof.
  intros St L F. destruct (fetches_slice n code t l t' St L F) as [(u & S & Lu)|(e & l1 & k & u & _ & _ & _ & S & _ & Lu)];
    exists u; split; auto; lia.
Qed.

(** A budget that is linear in the source suffices. *)
Theorem parse_root_terminates code r n : utf8 code -> length code < r -> 20 * length code + 60 <= n ->
  parse_root E r n code <> OutOfFuel.
Proof.
  intros U Lr Ln Ho. unfold parse_root, parse_root_with in Ho.
  assert (St := stands_start code U).
  set (t0 := into_tokenizer code) in *.
  destruct (run_parser (next_token E) r n parse_module t0) as [a s|x s|p|s] eqn:R; try discriminate. clear Ho.
  assert (H : forall e, replayed (next_token E) r (pstate_init t0) (RFuel s)
     (ainterp e (aexec e n) parse_module flags_default) anything)
    by (intros e; rewrite <- R; apply run_replayed, np_module).
  destruct (H TEOF) as (l & G & _).
  assert (F := proj2 (proj2 G)). cbn [pstate_init ps_tok] in F.
  destruct (fetches_stands r code t0 l _ St Lr F) as (u0 & Su & Lu0).
  assert (NR : forall h, read r (ps_tok s) h false <> RdFuel).
  { intros h K. assert (RS := read_slice r (ps_tok s) h false u0 Su). rewrite K in RS. apply RS. lia. }
  (* the tokens, up to end tokens *)
  assert (SH : exists e l1 k, end_token e /\ l = l1 ++ repeat (false, e) k /\ length l1 <= S (length code)).
  { destruct (fetches_slice r code t0 l _ St Lr F) as [(u & _ & Lu)|(e & l1 & k & u & X & El & L1 & _)].
    - exists TEOF, l, 0. rewrite app_nil_r. split; [left; reflexivity|]; split; [reflexivity|]; unfold lookahead in *; lia.
    - eauto 8. }
  destruct SH as (e & l1 & k & X & El & L1).
  destruct (H e) as (l' & G' & [(h & K)|AF]); [exact (NR h K)|].
  assert (El' : l' = l).
  { destruct G as (_ & G & _), G' as (_ & G' & _). rewrite G in G'. cbn in G'. congruence. }
  subst l'. specialize (AF []). cbn [buffered pstate_init ps_count app] in AF. rewrite app_nil_r, El in AF.
  assert (SA := ainterp_same e _ _ (aexec_same e n) _ parse_module flags_default _ _ (same_pad e l1 k)).
  rewrite AF in SA.
  destruct (ainterp e (aexec e n) parse_module flags_default l1) as [a' i'|x' i'|w'|i'] eqn:Q; cbn in SA; try contradiction.
  assert (NF := terminates e X n L_module flags_default l1).
  change (ainterp e (aexec e n) parse_module flags_default l1) with
    (abind (aexec e n L_module flags_default l1) (fun _ i =>
       ainterp e (aexec e n) (eat_ eof ;; done_) flags_default i)) in Q.
  destruct (aexec e n L_module flags_default l1) as [a' j|x' j|w'|j]; cbn [abind] in Q; try discriminate.
  - change (wpr e (aexec e n) (eat_ eof ;; done_) flags_default j (fun r => r = AFuel i')) in Q. revert Q.
    unfold wpr. cbn [ainterp]. rewrite eof_eq. unfold eats. destruct (is_eof (tok e j)); cbn; discriminate.
  - apply NF. unfold depth. cbn [rank]. unfold lookahead in *. lia.
Qed.
End Slice.
