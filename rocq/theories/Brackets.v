(** Which brackets are open before and after each function of the parser that does not fail. *)
From Coq Require Import String List Arith NArith Bool Lia.
From Verif Require Import Base Tokens ParserCore ParserBody AbstractParser ParserExec HintParser SpecHints BraceHints.
Import ListNotations.

Notation undot := (set_dots false).
Lemma undot_undot s : undot (undot s) = undot s.
Proof. destruct s as [|[]]; reflexivity. Qed.
Lemma undot_dot s : undot (set_dots true s) = undot s.
Proof. destruct s as [|[]]; reflexivity. Qed.
Lemma undot_tl a b : undot a = undot b -> tl a = tl b.
Proof. destruct a as [|[] a], b as [|[] b]; cbn; intros H; try discriminate; inversion H; reflexivity. Qed.
Lemma undot_round b s s' : undot s' = undot (Round b :: s) -> exists c, s' = Round c :: s.
Proof. destruct s' as [|[c| | |] s']; cbn; intros H; inversion H; subst; eexists; reflexivity. Qed.
Lemma undot_square s s' : undot s' = undot (Square :: s) -> s' = Square :: s.
Proof. destruct s' as [|[c| | |] s']; cbn; intros H; inversion H; reflexivity. Qed.
Lemma undot_curly s s' : undot s' = undot (Curly :: s) -> s' = Curly :: s.
Proof. destruct s' as [|[c| | |] s']; cbn; intros H; inversion H; reflexivity. Qed.
Lemma undot_subst s s' : undot s' = undot (Substitution :: s) -> s' = Substitution :: s.
Proof. destruct s' as [|[c| | |] s']; cbn; intros H; inversion H; reflexivity. Qed.

(** Functions that take commas or dots that are directly in the brackets open before. *)
Definition loose (f : fn) : bool :=
  match f with
  | F_assignment | F_reify_arrow | F_reify_assignment | F_yield | F_conditional | F_fancy _ | L_fancy _ _ | F_exponential | F_unary
  | F_delete | F_void | F_typeof | F_plus | F_minus | F_tilde | F_exclam | F_await | F_update | F_left_hand _ | L_left_hand _
  | F_call_arguments | F_meta_property | F_primary | F_array_literal | F_object_literal | F_function_expression | F_template_literal
  | L_template_literal | F_cover_parenthesized | F_block | F_initializer | F_class_heritage
  | F_binding_pattern | F_object_binding_pattern | F_array_binding_pattern | F_class_body | F_function_params => false
  | _ => true
  end.

Section Brackets.
Variable misfit : list token -> bool -> bool -> lookahead -> bool.
Notation tk := (tok TEOF).
Notation hrun n := (hinterp misfit TEOF (hexec misfit TEOF n)).

(** After a [yield] nothing is claimed. *)
Definition brackets_are (s : list bracket) (p : list token) : Prop := mentions_yield p = true \/ open_brackets p = s.
Lemma are_step s t p : brackets_are s p -> brackets_are (bracket_step t s) (t :: p).
Proof.
  intros [Y|S]; [left|right].
  - unfold mentions_yield in *. cbn [existsb]. rewrite Y. apply orb_true_r.
  - cbn [open_brackets fold_right]. rewrite <- S. reflexivity.
Qed.
Definition Br (s : list bracket) (st : hstate) : Prop := exists p, consumed st p /\ brackets_are s p.
Definition Bp (s : list bracket) (st : hstate) : Prop := Br s st /\ 1 <= hk st.

Definition bwp {A : Set} (n : nat) (p : prog A) (g : grammar_flags) (st : hstate) (Q : A -> hstate -> Prop) : Prop :=
  match hrun n p g st with HOk a st' => Q a st' | _ => True end.

Section Rules.
Context (n : nat) (g : grammar_flags) (s : list bracket) (st : hstate).

Lemma b_ret {A : Set} (a : A) (Q : _ -> _ -> Prop) : Q a st -> bwp n (Ret a) g st Q.
Proof. exact (fun H => H). Qed.
Lemma b_bind {A B : Set} (p : prog A) (k : A -> prog B) Q :
  bwp n p g st (fun a st' => bwp n (k a) g st' Q) -> bwp n (Bind p k) g st Q.
Proof. unfold bwp. cbn [hinterp]. destruct (hrun n p g st); exact (fun H => H). Qed.
Lemma b_with {A : Set} f v (p : prog A) Q : bwp n p (set_flag g f v) st Q -> bwp n (With f v p) g st Q.
Proof. exact (fun H => H). Qed.
Lemma b_flags (Q : _ -> _ -> Prop) : Q g st -> bwp n get_flags g st Q.
Proof. exact (fun H => H). Qed.

Lemma b_expect (Q : _ -> _ -> Prop) : Br s st -> (forall st', Br s st' -> Q tt st') -> bwp n expect_expression g st Q.
Proof. intros (p & C & S) H. apply H. exists p. auto. Qed.

Lemma peek_br : Br s st -> Bp s (hpeek misfit TEOF g st) /\ hi (hpeek misfit TEOF g st) = hi st.
Proof.
  intros (p & C & S). unfold hpeek. destruct (Nat.eqb_spec (hk st) 0) as [Z|Z].
  - cbn [hi]. split; [|reflexivity]. split; [|cbn; lia].
    exists p. split; [|exact S]. unfold consumed in *. rewrite Z in C. cbn [hk hpast hi]. rewrite C. reflexivity.
  - split; [|reflexivity]. split; [|lia]. exists p. auto.
Qed.

Lemma b_token (Q : _ -> _ -> Prop) : Br s st -> (forall st', Bp s st' -> Q (tk (hi st')) st') -> bwp n token_ g st Q.
Proof.
  intros HA H. destruct (peek_br HA) as (P & E). unfold bwp, token_. cbn [hinterp hact].
  fold (tk (hi st)). rewrite <- E. apply H. exact P.
Qed.
Lemma b_noline (Q : _ -> _ -> Prop) : Br s st -> (forall b st', Bp s st' -> Q b st') -> bwp n no_line_terminator g st Q.
Proof.
  intros HA H. destruct (peek_br HA) as (P & E). unfold bwp, no_line_terminator. cbn [hinterp hact]. apply H. exact P.
Qed.
Lemma b_pop (Q : _ -> _ -> Prop) : Bp s st -> (forall st', Br (bracket_step (tk (hi st)) s) st' -> Q (tk (hi st)) st') -> bwp n pop_ g st Q.
Proof.
  intros ((p & C & S) & L) H. unfold bwp, pop_. cbn [hinterp hact]. apply H.
  exists (tk (hi st) :: p). split; [|apply are_step; exact S]. unfold consumed in *. cbn [hk hpast hi].
  destruct (hk st) as [|[|[|?]]]; [lia|exact C|apply C|destruct C].
Qed.
Lemma b_look (Q : _ -> _ -> Prop) : Br s st -> (forall a st', Bp s st' -> Q a st') -> bwp n ident_lookahead g st Q.
Proof.
  intros HA H. destruct (peek_br HA) as (P & E). unfold bwp, ident_lookahead. cbn [hinterp hact].
  set (st1 := hpeek misfit TEOF g st) in *. clearbody st1. rewrite <- E. destruct (Nat.ltb_spec (hk st1) 2) as [L|L].
  - destruct (tk (hi st1)) eqn:T; try (apply H; exact P). apply H. destruct P as ((p & C & S) & L1).
    assert (K : hk st1 = 1) by lia. unfold consumed in C. rewrite K, T in C. split; [|cbn; lia].
    exists p. split; [|exact S]. unfold consumed. cbn [hk hpast hi]. fold (tk (tl (hi st1))). rewrite T, C. split; reflexivity.
  - apply H. exact P.
Qed.

Lemma b_take {A : Set} (same : token -> bool) (payload : token -> option A) why (Q : _ -> _ -> Prop) :
  Br s st ->
  (forall st' t a, same t = true -> payload t = Some a -> Br (bracket_step t s) st' -> Q (Some a) st') ->
  (forall st', Bp s st' -> Q None st') ->
  bwp n (take_if same payload why) g st Q.
Proof.
  intros HA H1 H2. unfold take_if. apply b_bind, b_token; [exact HA|]. intros st' P.
  destruct (same (tk (hi st'))) eqn:E; [|apply H2; exact P].
  destruct P as ((p & C & S) & L). unfold bwp, pop_. cbn [hinterp hact]. destruct (payload (tk (hi st'))) eqn:Py; [|exact I].
  cbn [hinterp]. apply (H1 _ _ _ E Py).
  exists (tk (hi st') :: p). split; [|apply are_step; exact S]. unfold consumed in *. cbn [hk hpast hi].
  destruct (hk st') as [|[|[|?]]]; [lia|exact C|apply C|destruct C].
Qed.
Lemma b_punc p (Q : _ -> _ -> Prop) : Br s st ->
  (forall st', Br (bracket_step (TPunctuator p) s) st' -> Q (Some tt) st') -> (forall st', Bp s st' -> Q None st') -> bwp n (punc p) g st Q.
Proof.
  intros HA H1 H2. apply b_take; [exact HA| |exact H2]. intros st' t [] E _. destruct t; try discriminate. cbn in E.
  apply peqb_eq in E. subst. apply H1.
Qed.
Lemma b_plain (same : token -> bool) (payload : token -> option unit) why (Q : _ -> _ -> Prop) : (forall t, same t = true -> bracket_step t s = s) ->
  Br s st -> (forall st', Br s st' -> Q (Some tt) st') -> (forall st', Bp s st' -> Q None st') -> bwp n (take_if same payload why) g st Q.
Proof. intros HP HA H1 H2. apply b_take; [exact HA| |exact H2]. intros st' t [] E _. rewrite (HP t E). apply H1. Qed.
Lemma b_numeric (Q : _ -> _ -> Prop) : Br s st -> (forall st', Br s st' -> Q (Some tt) st') -> (forall st', Bp s st' -> Q None st') -> bwp n numeric g st Q.
Proof. apply b_plain. intros []; try discriminate; reflexivity. Qed.
Lemma b_string (Q : _ -> _ -> Prop) : Br s st -> (forall st', Br s st' -> Q (Some tt) st') -> (forall st', Bp s st' -> Q None st') -> bwp n string_ g st Q.
Proof. apply b_plain. intros []; try discriminate; reflexivity. Qed.
Lemma b_regex (Q : _ -> _ -> Prop) : Br s st -> (forall st', Br s st' -> Q (Some tt) st') -> (forall st', Bp s st' -> Q None st') -> bwp n regex g st Q.
Proof. apply b_plain. intros []; try discriminate; reflexivity. Qed.
Lemma b_eof (Q : _ -> _ -> Prop) : Br s st -> (forall st', Br s st' -> Q (Some tt) st') -> (forall st', Bp s st' -> Q None st') -> bwp n eof g st Q.
Proof. apply b_plain. intros []; try discriminate; reflexivity. Qed.
Lemma b_keyword k (Q : _ -> _ -> Prop) : Br s st -> (forall st', Br s st' -> Q (Some tt) st') -> (forall st', Bp s st' -> Q None st') -> bwp n (keyword k) g st Q.
Proof. apply b_plain. intros []; try discriminate; reflexivity. Qed.
Lemma b_identifier (Q : _ -> _ -> Prop) : Br s st -> (forall st', Br s st' -> Q (Some tt) st') -> (forall st', Bp s st' -> Q None st') -> bwp n identifier g st Q.
Proof. apply b_plain. intros []; try discriminate; reflexivity. Qed.
Lemma b_binding (Q : _ -> _ -> Prop) : Br s st -> (forall st', Br s st' -> Q (Some tt) st') -> (forall st', Bp s st' -> Q None st') -> bwp n binding_identifier g st Q.
Proof. intros. unfold binding_identifier. apply b_bind, b_flags. apply b_plain; auto. intros []; try discriminate; reflexivity. Qed.
Lemma b_tpl (Q : _ -> _ -> Prop) : Br s st ->
  (forall st', Br (Substitution :: s) st' -> Q (Some TF_Head) st') ->
  (forall st', Br s st' -> Q (Some TF_NoSubstitution) st') -> (forall st', Bp s st' -> Q None st') -> bwp n template g st Q.
Proof.
  intros HA H1 H1' H2. apply b_take; [exact HA| |exact H2]. intros st' [| | | | | | | |[] v r|] f E P; try discriminate; injection P as <-; [apply H1'|apply H1].
Qed.
Lemma b_tpl_tail (Q : _ -> _ -> Prop) : Br s st ->
  (forall st', Br s st' -> Q (Some TF_Middle) st') ->
  (forall st', Br (tl s) st' -> Q (Some TF_Tail) st') -> (forall st', Bp s st' -> Q None st') -> bwp n template_tail g st Q.
Proof.
  intros HA H1 H1' H2. apply b_take; [exact HA| |exact H2]. intros st' [| | | | | | | |[] v r|] f E P; try discriminate; injection P as <-; [apply H1|apply H1'].
Qed.
Lemma b_semi b (Q : _ -> _ -> Prop) : Br s st -> (forall a st', Br s st' -> Q a st') -> bwp n (semicolon_inner b) g st Q.
Proof.
  intros HA H. unfold semicolon_inner. destruct (peek_br HA) as (P & E). unfold bwp. cbn [hinterp hact].
  set (st1 := hpeek misfit TEOF g st) in *. clearbody st1.
  assert (X : bwp n (run_ expect_expression ;; done_) g st1 Q).
  { destruct P as ((p & C & S) & L). unfold bwp. cbn. apply H. exists p. auto. }
  assert (Y : forall b0 : bool, match hrun n (if b0 then run_ expect_expression ;; done_ else Ret None) g st1 with HOk a st' => Q a st' | _ => True end).
  { intros []; [exact X|]. cbn. apply H. apply P. }
  fold (tk (hi st)). rewrite <- E. fold (tk (hi st1)). destruct (tk (hi st1)) as [pp| | | | | | | | |] eqn:T; try apply Y; try exact X.
  destruct pp; try apply Y; try exact X.
  destruct P as ((p & C & S) & L). cbn. apply H. exists (tk (hi st1) :: p). split; [|rewrite T; exact (are_step s (TPunctuator Semicolon) p S)].
  unfold consumed in *. cbn [hk hpast hi]. destruct (hk st1) as [|[|[|?]]]; [lia|exact C|apply C|destruct C].
Qed.
End Rules.

(** The rest of a template closes its substitution. *)
Definition closed (f : fn) (s : list bracket) : list bracket := match f with L_template_literal => tl s | _ => s end.
Definition kept (f : fn) (s s' : list bracket) : Prop :=
  if loose f then undot s' = undot s else s' = closed f s.

Lemma bp_br s st : Bp s st -> Br s st.
Proof. exact (@proj1 _ _). Qed.
Lemma reify_step t r s : reify_of t = Some r -> bracket_step t s = s.
Proof. destruct t as [[]| | | | | | | | |]; try discriminate; reflexivity. Qed.
Lemma binary_step b t r s : binary_precedence b t = Some r -> bracket_step t s = s.
Proof. destruct t as [[]| | | | | | | | |]; try discriminate; reflexivity. Qed.

(** The tokens that were taken stay. *)
Definition grows {A : Set} (p : list token) (r : hres A) : Prop :=
  match r with HOk _ st => exists q, consumed st (q ++ p) | _ => True end.
Lemma peek_grows g p st : consumed st p -> consumed (hpeek misfit TEOF g st) p.
Proof.
  intros C. unfold hpeek. destruct (Nat.eqb_spec (hk st) 0) as [Z|Z]; [|exact C].
  unfold consumed in *. rewrite Z in C. cbn [hk hpast hi]. rewrite C. reflexivity.
Qed.
Lemma act_grows {A : Set} (a : act A) g p st : consumed st p -> grows p (hact misfit TEOF a g st).
Proof.
  intros C. assert (P := peek_grows g p st C). destruct a; cbn [hact grows].
  - exists []. exact P.
  - destruct (hk st) as [|[|[|?]]] eqn:K; unfold consumed in C; rewrite K in C.
    + exists []. exact C.
    + exists [tk (hi st)]. exact C.
    + exists [tk (hi st)]. exact (proj1 C).
    + destruct C.
  - assert (E : hi (hpeek misfit TEOF g st) = hi st) by (unfold hpeek; destruct (hk st =? 0); reflexivity).
    assert (K1 : 1 <= hk (hpeek misfit TEOF g st)) by (unfold hpeek; destruct (Nat.eqb_spec (hk st) 0); cbn; lia).
    set (st1 := hpeek misfit TEOF g st) in *. clearbody st1.
    destruct (Nat.ltb_spec (hk st1) 2) as [L|L]; [|exists []; exact P].
    destruct (tok TEOF (hi st)) eqn:T; try (exists []; exact P). exists [].
    assert (K : hk st1 = 1) by lia. unfold consumed in P. rewrite K, E, T in P.
    unfold consumed. cbn [hk hpast hi app]. rewrite P, T. split; reflexivity.
  - exists []. exact C.
  - exists []. exact C.
Qed.
Lemma interp_grows call (HC : forall f g p st, consumed st p -> grows p (call f g st)) :
  forall (A : Set) (m : prog A) g p st, consumed st p -> grows p (hinterp misfit TEOF call m g st).
Proof.
  intros A m. induction m as [A a|A B m IHp k IHk|A a|A x|A w|A f v m IHp|f]; intros g p st C; cbn [hinterp].
  - exists []. exact C.
  - specialize (IHp g p st C). destruct (hinterp misfit TEOF call m g st) as [a st1| | |]; try exact I.
    destruct IHp as (q & C1). specialize (IHk a g (q ++ p) st1 C1). unfold grows in *. destruct (hinterp misfit TEOF call (k a) g st1); auto.
    destruct IHk as (r & C2). exists (r ++ q). rewrite <- app_assoc. exact C2.
  - apply act_grows. exact C.
  - exact I.
  - exact I.
  - apply IHp. exact C.
  - apply HC. exact C.
Qed.
Lemma exec_grows n : forall f g p st, consumed st p -> grows p (hexec misfit TEOF n f g st).
Proof. induction n as [|n IH]; intros f g p st C; [exact I|]. cbn [hexec]. apply interp_grows; assumption. Qed.
Lemma b_yielded {A : Set} n (m : prog A) g st s (Q : _ -> _ -> Prop) :
  (exists p, consumed st p /\ mentions_yield p = true) -> (forall a st', Br s st' -> Q a st') -> bwp n m g st Q.
Proof.
  intros (p & C & Y) H. assert (X := interp_grows _ (exec_grows n) A m g p st C). unfold bwp. destruct (hrun n m g st); try exact I.
  destruct X as (q & C1). apply H. exists (q ++ p). split; [exact C1|]. left. unfold mentions_yield in *. rewrite existsb_app, Y. apply orb_true_r.
Qed.
Lemma b_yield n g st s (Q : _ -> _ -> Prop) : Br s st ->
  (forall st', (exists p, consumed st' p /\ mentions_yield p = true) -> Q (Some tt) st') -> (forall st', Bp s st' -> Q None st') ->
  bwp n (keyword "yield"%string) g st Q.
Proof.
  intros HA H1 H2. unfold keyword, take_if. apply b_bind. eapply b_token; [exact HA|]. intros st' P.
  destruct (is_keyword "yield"%string (tk (hi st'))) eqn:E; [|apply H2; exact P].
  destruct P as ((p & C & S) & L). unfold bwp, pop_. cbn [hinterp hact].
  destruct (tk (hi st')) as [| | | | |name| | | |] eqn:T; try discriminate. cbn [hinterp]. apply H1.
  exists (TIdent name :: p). split.
  - unfold consumed in *. cbn [hk hpast hi]. destruct (hk st') as [|[|[|?]]]; [lia|rewrite C, T; reflexivity|rewrite (proj1 C), T; reflexivity|destruct C].
  - cbn in E. unfold mentions_yield. cbn [existsb]. unfold kw in E. rewrite E. reflexivity.
Qed.

Ltac br_ := first [eassumption | apply bp_br; eassumption].
Ltac in_ :=
  let H := fresh "A" in intros ? H; cbn [bracket_step tl closed] in H;
  try match type of H with Br (bracket_step ?t _) _ =>
    match goal with
    | E : reify_of t = Some _ |- _ => rewrite (reify_step _ _ _ E) in H
    | E : binary_precedence _ t = Some _ |- _ => rewrite (binary_step _ _ _ _ E) in H
    | E : t = _ |- _ => rewrite E in H; cbn [bracket_step] in H
    end end.

Ltac step_ :=
  lazymatch goal with
  | |- bwp _ ?p _ _ _ =>
    lazymatch p with
    | Ret _ => apply b_ret
    | Bind _ _ => apply b_bind
    | Throw _ => exact I
    | Crash _ => exact I
    | With _ _ _ => apply b_with
    | get_flags => apply b_flags
    | expect_expression => eapply b_expect; [br_|in_]
    | token_ => eapply b_token; [br_|in_]
    | no_line_terminator => eapply b_noline; [br_|intros ?; in_]
    | ident_lookahead => eapply b_look; [br_|intros ?; in_]
    | pop_ => eapply b_pop; [eassumption|in_]
    | punc _ => eapply b_punc; [br_|in_|in_]
    | numeric => eapply b_numeric; [br_|in_|in_]
    | string_ => eapply b_string; [br_|in_|in_]
    | regex => eapply b_regex; [br_|in_|in_]
    | eof => eapply b_eof; [br_|in_|in_]
    | keyword "yield"%string => eapply b_yield; [br_|intros ? Y; eapply b_yielded; [exact Y|intros ?; in_]|in_]
    | keyword _ => eapply b_keyword; [br_|in_|in_]
    | identifier => eapply b_identifier; [br_|in_|in_]
    | binding_identifier => eapply b_binding; [br_|in_|in_]
    | reference_identifier => eapply b_binding; [br_|in_|in_]
    | label_identifier => eapply b_binding; [br_|in_|in_]
    | semicolon => eapply b_semi; [br_|intros [[]|]; in_]
    | semicolon_dowhile => eapply b_semi; [br_|intros [[]|]; in_]
    | template => eapply b_tpl; [br_|in_|in_|in_]
    | template_tail => eapply b_tpl_tail; [br_|in_|in_|in_]
    | try_sequence _ => cbn [try_sequence]
    | match ?x with _ => _ end => destruct x eqn:?
    | Call _ => fail
    | ?f _ _ => unfold f; cbv beta
    | ?f _ => unfold f; cbv beta
    | ?f => unfold f
    end
  end.
Ltac recover K :=
  first [ apply undot_round in K; destruct K as (? & ->)
        | apply undot_square in K; subst
        | apply undot_curly in K; subst
        | apply undot_subst in K; subst
        | repeat first [rewrite undot_undot in K | rewrite undot_dot in K] ].
Ltac call_ IHc :=
  eapply IHc; [br_|];
  let s' := fresh "s" in let K := fresh "K" in let A := fresh "A" in
  intros [[]|] s' K; cbv [kept loose closed] in K; cbn [tl] in K; intros ? A;
  first [ subst s' | recover K ].
Ltac finish_ :=
  lazymatch goal with
  | |- exists s', Br s' ?st /\ _ => eexists; split; [br_|cbv [kept loose closed]; cbn [tl];
      repeat first [rewrite undot_undot | rewrite undot_dot];
      first [reflexivity | congruence | apply undot_tl; congruence]]
  end.

Lemma brackets n : forall f g s st, Br s st -> bwp n (Call f) g st (fun _ st' => exists s', Br s' st' /\ kept f s s').
Proof.
  induction n as [|n IH]; intros f g s st A; [exact I|].
  change (bwp n (body f) g st (fun _ st' => exists s', Br s' st' /\ kept f s s')).
  assert (IHc : forall f g s st (Q : _ -> _ -> Prop), Br s st ->
    (forall a s', kept f s s' -> forall st', Br s' st' -> Q a st') -> bwp n (Call f) g st Q).
  { intros f0 g0 s0 st0 Q A0 H. specialize (IH f0 g0 s0 st0 A0). unfold bwp in *. cbn [hinterp] in *.
    destruct (hexec misfit TEOF n f0 g0 st0) as [a st1|? ?|?|?]; try exact I. destruct IH as (s' & B & K). exact (H a s' K st1 B). }
  clear IH.
  destruct f; cbn [body] in *.
  all: solve [repeat (cbv beta iota; first [step_ | call_ IHc | finish_])].
Qed.
End Brackets.
