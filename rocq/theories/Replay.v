(** Every run of the concrete parser, over any tokenizer, is a run of the parser of
    AbstractParser.v on the tokens it received; the flags, the flag stack and the
    template mode are restored; and the parser raises no panic of its own. *)
From Coq Require Import String List Arith NArith Bool Lia.
From Verif Require Import Base Tokens ParserCore ParserBody AbstractParser ParserExec.
Import ListNotations.

(** ** Tokens are popped only after they were peeked at

    [np p b Q]: started with a token in the buffer if [b], the program [p] never pops
    from an empty buffer, and [Q a b'] holds at its end, [b'] telling that a token is in
    the buffer. *)
Fixpoint np {A : Set} (p : prog A) (b : bool) : (A -> bool -> Prop) -> Prop :=
  match p in prog A return (A -> bool -> Prop) -> Prop with
  | Ret a => fun Q => Q a b
  | Bind p k => fun Q => np p b (fun a b' => np (k a) b' Q)
  | Act a =>
    match a in act A return (A -> bool -> Prop) -> Prop with
    | ATokenLine => fun Q => forall x, Q x true
    | APop => fun Q => b = true /\ forall x, Q x false
    | ALookahead => fun Q => forall x, Q x true
    | AExpect => fun Q => Q tt b
    | AFlags => fun Q => forall x, Q x b
    end
  | Throw _ => fun _ => True
  | Crash _ => fun _ => True
  | With _ _ p => np p b
  | Call _ => fun Q => forall r, Q r false
  end.

Definition weaker {A : Set} (Q : A -> bool -> Prop) : Prop := forall a, Q a false -> Q a true.

Lemma np_mono {A : Set} (p : prog A) : forall b c (Q R : A -> bool -> Prop), (b = true -> c = true) ->
  (forall a d d', (d = true -> d' = true) -> Q a d -> R a d') -> np p b Q -> np p c R.
Proof.
  induction p as [A a|A B p IHp k IHk|A a|A x|A w|A f v p IHp|f]; intros b c Q R L H; cbn [np].
  - apply H. exact L.
  - apply IHp; [exact L|]. intros a d d' Hd. apply IHk; [exact Hd|exact H].
  - destruct a.
    + intros N x. apply (H x true); auto.
    + intros [E N]. split; [auto|]. intros x. apply (H x false); auto.
    + intros N x. apply (H x true); auto.
    + apply H. exact L.
    + intros N x. apply (H x b); auto.
  - auto.
  - auto.
  - apply IHp; auto.
  - intros N r. apply (H r false); auto.
Qed.

(** Forget what is in the buffer and the value between the two halves of a program. *)
Lemma np_cut {A B : Set} (p : prog A) (k : A -> prog B) b Q :
  np p b (fun _ _ => True) -> (forall a, np (k a) false Q) -> weaker Q -> np (Bind p k) b Q.
Proof.
  intros Hp Hk W. cbn [np]. apply (np_mono p b b (fun _ _ => True)); [auto| |exact Hp].
  intros a d d' Hd _. apply (np_mono (k a) false d' Q); [discriminate| |apply Hk].
  intros x y y' Hy. destruct y, y'; auto. intros. specialize (Hy eq_refl). discriminate.
Qed.
Definition anything {A : Set} : A -> bool -> Prop := fun _ _ => True.
Lemma np_bind {A B : Set} (p : prog A) (k : A -> prog B) b :
  np p b anything -> (forall a, np (k a) false anything) -> np (Bind p k) b anything.
Proof. intros Hp Hk. apply np_cut; auto. intros a H. exact H. Qed.
Lemma np_token {B : Set} (k : token -> prog B) b Q : (forall a, np (k a) true Q) -> np (Bind token_ k) b Q.
Proof. intros H x. apply H. Qed.
Lemma np_line {B : Set} (k : lookahead -> prog B) b Q : (forall a, np (k a) true Q) -> np (Bind (Act ATokenLine) k) b Q.
Proof. intros H x. apply H. Qed.
Lemma np_expect {B : Set} (k : unit -> prog B) b Q : np (k tt) b Q -> np (Bind expect_expression k) b Q.
Proof. exact (fun H => H). Qed.
Lemma np_flags {B : Set} (k : grammar_flags -> prog B) b Q : (forall g, np (k g) b Q) -> np (Bind get_flags k) b Q.
Proof. exact (fun H => H). Qed.
Lemma np_noline b : np no_line_terminator b anything.
Proof. intros x. exact I. Qed.
Lemma np_look b : np ident_lookahead b anything.
Proof. intros x. exact I. Qed.
Lemma np_any {A : Set} (p : prog A) b : np p false anything -> np p b anything.
Proof. apply np_mono; [discriminate|auto]. Qed.
Lemma np_pop : np pop_ true anything.
Proof. split; [reflexivity|intros; exact I]. Qed.
Lemma np_take_if {A : Set} same (payload : token -> option A) w b : np (take_if same payload w) b anything.
Proof.
  unfold take_if. apply np_token. intros t. destruct (same t); [|exact I].
  split; [reflexivity|]. intros t'. destruct (payload t'); exact I.
Qed.
Lemma np_binding b : np binding_identifier b anything.
Proof. apply np_flags. intros g. apply np_take_if. Qed.
Lemma np_semi d b : np (semicolon_inner d) b anything.
Proof.
  apply np_line. intros [l t]. cbn [fst snd]. destruct t as [p| | | | | | | | |]; [destruct p| | | | | | | | |];
    cbn [np]; try exact I; try (destruct (d || l); exact I); (split; [reflexivity|]; intros; exact I).
Qed.

Ltac np_go :=
  lazymatch goal with
  | |- forall _, _ => intro
  | |- np ?p ?b _ =>
    lazymatch p with
    | Bind token_ _ => apply np_token
    | Bind (Act ATokenLine) _ => apply np_line
    | Bind expect_expression _ => apply np_expect
    | Bind get_flags _ => apply np_flags
    | Bind _ _ => apply np_bind
    | Ret _ => exact I
    | Throw _ => exact I
    | Crash _ => exact I
    | With _ _ ?q => change (np q b anything)
    | Call _ => intro; exact I
    | punc _ => apply np_take_if
    | numeric => apply np_take_if
    | string_ => apply np_take_if
    | regex => apply np_take_if
    | eof => apply np_take_if
    | keyword _ => apply np_take_if
    | identifier => apply np_take_if
    | template => apply np_take_if
    | template_tail => apply np_take_if
    | binding_identifier => apply np_binding
    | semicolon_inner _ => apply np_semi
    | pop_ => apply np_pop
    | no_line_terminator => apply np_noline
    | ident_lookahead => apply np_look
    | try_sequence _ => cbn [try_sequence]
    | match ?x with _ => _ end => destruct x
    | ?f _ _ => unfold f; cbv beta
    | ?f _ => unfold f; cbv beta
    | ?f => unfold f
    end
  end.

Lemma np_body f : np (body f) false anything.
Proof. destruct f; cbn [body]; repeat np_go. Qed.
Lemma np_module : np parse_module false anything.
Proof. repeat np_go. Qed.
Lemma np_script : np parse_script false anything.
Proof. repeat np_go. Qed.

(** ** Replaying *)
Section Replay.
Context {T : Type}.
Variable next : T -> hint -> tres (token * token_range * T).
Variable read_fuel : nat.
Variable e : token.

Notation read := (read_token next read_fuel).
Notation interp_ := (interp next read_fuel).

(** The tokens in the buffer. *)
Definition buffered (s : pstate T) : list lookahead :=
  match ps_count s with
  | 0 => []
  | 1 => [slot s (ps_index s)]
  | _ => [slot s (ps_index s); slot s ((ps_index s + 1) mod 2)]
  end.

(** What holds of every state of a parser. *)
Record inv (s : pstate T) : Prop := {
  inv_index : ps_index s = 0 \/ ps_index s = 1;
  inv_count : ps_count s <= 2;
  inv_read : ps_read s = ps_popped s ++ buffered s;
  inv_two : ps_count s = 2 -> exists x, snd (slot s (ps_index s)) = TIdent x
}.

(** [fetches t l t']: reading the tokens [l], one after the other, under some hints. *)
Inductive fetches : T -> list lookahead -> T -> Prop :=
| fetches_nil t : fetches t [] t
| fetches_snoc t l t1 h la t2 :
    fetches t l t1 -> read t1 h false = RdOk la t2 -> fetches t (l ++ [la]) t2.

Lemma fetches_app a l b l' c : fetches a l b -> fetches b l' c -> fetches a (l ++ l') c.
Proof.
  intros H K. induction K as [t|t l' t1 h la t2 K IH R]; [rewrite app_nil_r; exact H|].
  rewrite app_assoc. eapply fetches_snoc; [apply IH; exact H|exact R].
Qed.

Definition same_context (s s' : pstate T) : Prop :=
  ps_flags s' = ps_flags s /\ ps_stack s' = ps_stack s /\
  (h_template (ps_hint s) = expect_template (ps_flags s) ->
   h_template (ps_hint s') = expect_template (ps_flags s')) /\
  h_strict (ps_hint s') = h_strict (ps_hint s).

(** From [s] to [s'], with the new tokens [l]. *)
Definition goes (s s' : pstate T) (l : list lookahead) : Prop :=
  inv s' /\ ps_read s' = ps_read s ++ l /\ fetches (ps_tok s) l (ps_tok s').

Definition replayed {A : Set} (s : pstate T) (r : res T A) (abs : input -> ares A) (Q : A -> bool -> Prop) : Prop :=
  match r with
  | ROk a s' => same_context s s' /\ (exists b, (b = true -> 1 <= ps_count s') /\ Q a b) /\
      exists l, goes s s' l /\ forall L, abs (buffered s ++ l ++ L) = AOk a (buffered s' ++ L)
  | RErr x s' => same_context s s' /\
      exists l, goes s s' l /\ forall L, abs (buffered s ++ l ++ L) = AErr x (buffered s' ++ L)
  | RPanic p => exists l,
      (exists t h, fetches (ps_tok s) l t /\ read t h false = RdPanic p) \/
      (exists w, p = P_unreachable w /\ forall L, abs (buffered s ++ l ++ L) = APanic p)
  | RFuel s' => exists l, goes s s' l /\
      ((exists h, read (ps_tok s') h false = RdFuel) \/
       forall L, abs (buffered s ++ l ++ L) = AFuel (buffered s' ++ L))
  end.

Lemma same_context_refl s : same_context s s.
Proof. repeat split; auto. Qed.
Lemma same_context_trans a b c : same_context a b -> same_context b c -> same_context a c.
Proof.
  intros (A1 & A2 & A3 & A4) (B1 & B2 & B3 & B4). repeat split; [congruence|congruence|auto|congruence].
Qed.
Lemma goes_refl s : inv s -> goes s s [].
Proof. intros I. split; [exact I|]. rewrite app_nil_r. split; [reflexivity|constructor]. Qed.
Lemma goes_trans a b c l l' : goes a b l -> goes b c l' -> goes a c (l ++ l').
Proof.
  intros (A1 & A2 & A3) (B1 & B2 & B3). split; [exact B1|]. split; [rewrite B2, A2, app_assoc; reflexivity|].
  eapply fetches_app; eassumption.
Qed.

(** *** Peeking *)
Lemma token_line_goes s : inv s ->
  match do_token_line next read_fuel s with
  | ROk a s' => same_context s s' /\ 1 <= ps_count s' /\ exists l, goes s s' l /\ buffered s' = buffered s ++ l /\
      a = slot s' (ps_index s') /\ a = hd (false, e) (buffered s') /\
      (ps_count s = 2 -> s' = s) /\ (ps_count s' = 2 -> ps_count s = 2)
  | RErr _ _ => False
  | RPanic p => exists h, read (ps_tok s) h false = RdPanic p
  | RFuel s' => s' = s /\ exists h, read (ps_tok s) h false = RdFuel
  end.
Proof.
  intros I. unfold do_token_line. destruct (Nat.eqb_spec (ps_count s) 0) as [Z|Z].
  - destruct (read (ps_tok s) (ps_hint s) false) as [la t'|p|] eqn:R; [|eauto|eauto].
    cbn [ps_count]. split.
    { repeat split; cbn; auto. }
    split; [lia|]. assert (B : buffered s = []) by (unfold buffered; rewrite Z; reflexivity).
    exists [la]. split.
    { split; [|split; [reflexivity|]].
      - split; cbn; [auto|lia| |discriminate].
        destruct I as [_ _ I _]. rewrite I, B, app_nil_r. reflexivity.
      - cbn. apply (fetches_snoc (ps_tok s) [] (ps_tok s) (ps_hint s) la); [constructor|exact R]. }
    rewrite B. repeat split; try lia; reflexivity.
  - split; [apply same_context_refl|]. split; [lia|]. exists []. split; [apply goes_refl; exact I|].
    rewrite app_nil_r. repeat split; auto. unfold buffered. destruct I as [_ I _ _].
    destruct (ps_count s) as [|[|?]]; [lia|reflexivity|reflexivity].
Qed.

Lemma hd_app {X} (d : X) l L : l <> [] -> hd d (l ++ L) = hd d l.
Proof. destruct l; [congruence|reflexivity]. Qed.
Lemma buffered_nonempty s : 1 <= ps_count s -> buffered s <> [].
Proof. unfold buffered. destruct (ps_count s) as [|[|?]]; [lia|discriminate|discriminate]. Qed.

Lemma do_act_replayed {A : Set} (a : act A) s b Q : inv s -> (b = true -> 1 <= ps_count s) ->
  np (Act a) b Q -> replayed s (do_act next read_fuel a s) (aact e a (ps_flags s)) Q.
Proof.
  intros I Hb. destruct a; cbn [np do_act aact].
  - intros N. assert (H := token_line_goes s I). destruct (do_token_line next read_fuel s) as [a s'|x s'|p|s'].
    + destruct H as (C & P & l & G & B & E1 & E2 & _). split; [exact C|]. split; [exists true; auto|].
      exists l. split; [exact G|]. intros L. cbn [aact]. unfold cur. rewrite app_assoc, <- B, hd_app by (apply buffered_nonempty; exact P).
      rewrite E2. reflexivity.
    + destruct H.
    + exists []. left. destruct H as [h H]. exists (ps_tok s), h. split; [constructor|exact H].
    + destruct H as [-> H]. exists []. split; [apply goes_refl; exact I|]. left. exact H.
  - intros [-> N]. specialize (Hb eq_refl). unfold do_pop. destruct (ps_count s) as [|c] eqn:C; [lia|].
    cbn [replayed]. split; [repeat split; auto|]. split; [exists false; split; [discriminate|apply N]|].
    destruct I as [I1 I2 I3 I4]. exists []. split.
    + split; [|split; [cbn; rewrite app_nil_r; reflexivity|constructor]].
      rewrite C in I2. assert (HC : c = 0 \/ c = 1) by lia.
      split; cbn.
      * destruct I1 as [-> | ->]; cbn; auto.
      * lia.
      * rewrite I3. unfold buffered, slot. rewrite C. cbn.
        destruct HC as [-> | ->]; cbn.
        -- rewrite app_nil_r. reflexivity.
        -- destruct I1 as [-> | ->]; cbn; rewrite <- app_assoc; reflexivity.
      * lia.
    + intros L. rewrite C in I2. assert (HC : c = 0 \/ c = 1) by lia. unfold buffered, slot. rewrite C. cbn.
      destruct HC as [-> | ->]; destruct I1 as [-> | ->]; reflexivity.
  - intros N. unfold do_lookahead. assert (H := token_line_goes s I).
    destruct (do_token_line next read_fuel s) as [a s'|x s'|p|s'].
    2: destruct H.
    2: { exists []. left. destruct H as [h H]. exists (ps_tok s), h. split; [constructor|exact H]. }
    2: { destruct H as [-> H]. exists []. split; [apply goes_refl; exact I|]. left. exact H. }
    destruct H as (C & P & l & G & B & E1 & E2 & _). destruct (Nat.ltb_spec (ps_count s') 2) as [L2|L2].
    + assert (P1 : ps_count s' = 1) by lia. clear P L2.
      assert (B' : buffered s' = [a]) by (unfold buffered; rewrite P1, <- E1; reflexivity).
      destruct (snd a) as [q|f v| | |v f|name|v|v|f c r|] eqn:Ea;
      lazymatch goal with
      | Ea : snd a = TIdent _ |- _ => idtac
      | _ =>
        (split; [exact C|]; split; [exists true; split; [lia|apply N]|];
        exists l; split; [exact G|]; intros L; cbn [aact]; unfold second, tok, cur; rewrite app_assoc, <- B, B';
        cbn [app hd]; rewrite Ea; reflexivity)
      end.
      destruct (read (ps_tok s') (set_expression (ps_hint s') (negb (is_binding_identifier (ps_flags s') name))) false)
        as [la t'|p|] eqn:R.
      * destruct G as (G1 & G2 & G3). split.
        { destruct C as (C1 & C2 & C3 & C4). repeat split; cbn; auto. }
        split; [exists true; split; [cbn; lia|apply N]|]. exists (l ++ [la]).
        assert (I1 := inv_index s' G1).
        assert (B2 : buffered (PState t' (ps_hint s') (ps_flags s') (ps_stack s')
           (if (ps_index s' + 1) mod 2 =? 0 then la else ps_slot0 s')
           (if (ps_index s' + 1) mod 2 =? 0 then ps_slot1 s' else la) (ps_index s') (ps_count s' + 1)
           (ps_read s' ++ [la]) (ps_popped s')) = [a; la]).
        { unfold buffered. cbn [ps_count]. rewrite P1. unfold slot. cbn [ps_index ps_slot0 ps_slot1].
          rewrite E1. unfold slot. destruct I1 as [-> | ->]; reflexivity. }
        split; [split; [split|split]|].
        -- exact I1.
        -- cbn. lia.
        -- rewrite B2. cbn. rewrite (inv_read s' G1), B', <- app_assoc. reflexivity.
        -- intros _. exists name. rewrite <- Ea, E1. cbn. unfold slot. cbn. destruct I1 as [-> | ->]; reflexivity.
        -- cbn. rewrite G2, app_assoc. reflexivity.
        -- eapply fetches_snoc; [exact G3|exact R].
        -- intros L. cbn [aact]. rewrite B2. rewrite <- (app_assoc l), (app_assoc (buffered s)), <- B, B'.
           unfold second, tok, cur. cbn [app hd tl]. rewrite Ea. reflexivity.
      * exists l. left. destruct G as (_ & _ & G). eauto.
      * exists l. split; [exact G|]. left. eauto.
    + assert (P2 : ps_count s' = 2) by (destruct G as (G & _); assert (X := inv_count s' G); lia).
      split; [exact C|]. split; [exists true; split; [lia|apply N]|]. exists l. split; [exact G|].
      intros L. cbn [aact]. rewrite app_assoc, <- B. destruct G as (G & _). destruct (inv_two s' G P2) as [x Hx].
      unfold buffered. rewrite P2. unfold second, tok, cur. cbn [app hd tl]. rewrite Hx. reflexivity.
  - intros N. cbn [replayed]. split; [repeat split; auto|]. split; [exists b; split; [exact Hb|exact N]|].
    exists []. split; [|intros L; reflexivity]. destruct I as [I1 I2 I3 I4].
    split; [split; assumption|]. split; [cbn; rewrite app_nil_r; reflexivity|constructor].
  - intros N. cbn [replayed]. split; [apply same_context_refl|]. split; [exists b; split; [exact Hb|apply N]|].
    exists []. split; [apply goes_refl; exact I|intros L; reflexivity].
Qed.

(** *** Programs *)
Lemma interp_replayed (call : fn -> pstate T -> res T (option unit)) (acall_ : acall) :
  (forall f s, inv s -> replayed s (call f s) (acall_ f (ps_flags s)) anything) ->
  forall (A : Set) (p : prog A) s b Q, inv s -> (b = true -> 1 <= ps_count s) -> np p b Q ->
  replayed s (interp_ call p s) (ainterp e acall_ p (ps_flags s)) Q.
Proof.
  intros HC A p. induction p as [A a|A B p IHp k IHk|A a|A x|A w|A f v p IHp|f]; intros s b Q I Hb N.
  - cbn in *. split; [apply same_context_refl|]. split; [exists b; auto|].
    exists []. split; [apply goes_refl; exact I|]. reflexivity.
  - cbn [interp ainterp np] in *. specialize (IHp s b _ I Hb N). destruct (interp_ call p s) as [a s1|x s1|p1|s1]; cbn [replayed] in *.
    + destruct IHp as (C & (b1 & Hb1 & N1) & l & G & E).
      specialize (IHk a s1 b1 Q (proj1 G) Hb1 N1).
      assert (CF := proj1 C). rewrite CF in IHk.
      assert (E' : forall l2 L, abind (ainterp e acall_ p (ps_flags s) (buffered s ++ (l ++ l2) ++ L))
                 (fun a i' => ainterp e acall_ (k a) (ps_flags s) i') =
                 ainterp e acall_ (k a) (ps_flags s) (buffered s1 ++ l2 ++ L)).
      { intros l2 L. rewrite <- (app_assoc l), E. reflexivity. }
      destruct (interp_ call (k a) s1) as [a2 s2|x s2|p2|s2]; cbn [replayed] in *.
      * destruct IHk as (C2 & HQ & l2 & G2 & E2). split; [eapply same_context_trans; eassumption|]. split; [exact HQ|].
        exists (l ++ l2). split; [eapply goes_trans; eassumption|]. intros L. rewrite E'. apply E2.
      * destruct IHk as (C2 & l2 & G2 & E2). split; [eapply same_context_trans; eassumption|].
        exists (l ++ l2). split; [eapply goes_trans; eassumption|]. intros L. rewrite E'. apply E2.
      * destruct IHk as (l2 & [(t & h & F & R)|(w & W & E2)]); exists (l ++ l2).
        -- left. exists t, h. split; [|exact R]. destruct G as (_ & _ & G). eapply fetches_app; eassumption.
        -- right. exists w. split; [exact W|]. intros L. rewrite E'. apply E2.
      * destruct IHk as (l2 & G2 & [R|E2]); exists (l ++ l2); (split; [eapply goes_trans; eassumption|]); [left; exact R|].
        right. intros L. rewrite E'. apply E2.
    + destruct IHp as (C & l & G & E). split; [exact C|]. exists l. split; [exact G|]. intros L. rewrite E. reflexivity.
    + destruct IHp as (l & [H|(w & W & E)]); exists l; [left; exact H|]. right. exists w. split; [exact W|].
      intros L. rewrite E. reflexivity.
    + destruct IHp as (l & G & [H|E]); exists l; (split; [exact G|]); [left; exact H|]. right.
      intros L. rewrite E. reflexivity.
  - apply (do_act_replayed a s b); assumption.
  - cbn. split; [apply same_context_refl|]. exists []. split; [apply goes_refl; exact I|]. reflexivity.
  - cbn. exists []. right. exists w. auto.
  - cbn [interp ainterp np] in *.
    assert (I' : inv (push_flags f v s)) by (destruct I as [I1 I2 I3 I4]; split; assumption).
    specialize (IHp (push_flags f v s) b Q I' Hb N). cbn [push_flags ps_flags] in IHp.
    change (buffered (push_flags f v s)) with (buffered s) in IHp.
    destruct (interp_ call p (push_flags f v s)) as [a s1|x s1|p1|s1]; cbn [replayed] in *.
    + destruct IHp as (C & HQ & l & G & E).
      destruct C as (C1 & C2 & C3 & C4). cbn in C1, C2, C3, C4. unfold pop_flags. rewrite C2. cbn [replayed].
      split; [repeat split; cbn; auto; rewrite C4; destruct f; reflexivity|]. split; [exact HQ|].
      exists l. split; [|exact E]. destruct G as ([G1 G2 G3 G4] & G5 & G6). split; [split; assumption|]. split; assumption.
    + destruct IHp as (C & l & G & E).
      destruct C as (C1 & C2 & C3 & C4). cbn in C1, C2, C3, C4. unfold pop_flags. rewrite C2. cbn [replayed].
      split; [repeat split; cbn; auto; rewrite C4; destruct f; reflexivity|].
      exists l. split; [|exact E]. destruct G as ([G1 G2 G3 G4] & G5 & G6). split; [split; assumption|]. split; assumption.
    + destruct IHp as (l & [H|H]); exists l; [left; exact H|right; exact H].
    + destruct IHp as (l & G & H). exists l. split; [|exact H].
      destruct G as (G1 & G5 & G6). split; [exact G1|]. split; assumption.
  - cbn [interp ainterp np] in *. specialize (HC f s I).
    destruct (call f s) as [a s1|x s1|p1|s1]; cbn [replayed] in *; try exact HC.
    destruct HC as (C & _ & HC). split; [exact C|]. split; [|exact HC]. exists false. split; [discriminate|apply N].
Qed.

Theorem exec_replayed n : forall f s, inv s ->
  replayed s (exec next read_fuel body n f s) (aexec e n f (ps_flags s)) anything.
Proof.
  induction n as [|n IH]; intros f s I.
  - cbn. exists []. split; [apply goes_refl; exact I|]. right. reflexivity.
  - cbn [exec aexec]. apply (interp_replayed _ _ IH _ _ _ false); [exact I|discriminate|apply np_body].
Qed.

Lemma init_inv t : inv (pstate_init t).
Proof. split; cbn; auto. lia. Qed.

Theorem run_replayed fuel p t : np p false anything ->
  replayed (pstate_init t) (run_parser next read_fuel fuel p t)
    (ainterp e (aexec e fuel) p flags_default) anything.
Proof.
  intros N. exact (interp_replayed _ _ (exec_replayed fuel) _ p (pstate_init t) false anything (init_inv t) (fun H => False_ind _ (Bool.diff_false_true H)) N).
Qed.
End Replay.
