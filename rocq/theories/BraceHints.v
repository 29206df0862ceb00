(** The template hint of the parser: along every parse that does not fail, a token that
    begins with a closing brace is asked for with the template hint exactly when the
    innermost open brace is a template substitution. *)
From Coq Require Import String List Arith NArith Bool Lia.
From Verif Require Import Base Tokens ParserCore ParserBody AbstractParser ParserExec HintParser SpecHints.
Import ListNotations.

Definition closer (t : token) : bool :=
  match t with
  | TPunctuator CurlyClose | TTemplate TF_Middle _ _ | TTemplate TF_Tail _ _ => true
  | _ => false
  end.

Lemma peqb_eq a b : peqb a b = true -> a = b.
Proof. unfold peqb. destruct (punctuator_eq_dec a b); [auto|discriminate]. Qed.

(** The open braces after the tokens [past], the last one first. *)
Fixpoint stack (past : list token) : list bool :=
  match past with [] => [] | t :: past' => brace_step (stack past') t end.

Definition misread (past : list token) (_ template : bool) (la : lookahead) : bool :=
  closer (snd la) && negb (eqb template (hd false (stack past))).

Notation tk := (tok TEOF).
Notation hrun n := (hinterp misread TEOF (hexec misread TEOF n)).

(** [p]: the tokens consumed so far, the last one first. *)
Definition consumed (st : hstate) (p : list token) : Prop :=
  match hk st with
  | 0 => hpast st = p
  | 1 => hpast st = tk (hi st) :: p
  | 2 => hpast st = tk (tl (hi st)) :: tk (hi st) :: p /\ is_ident (tk (hi st)) = true
  | _ => False
  end.

Definition At (s : list bool) (st : hstate) : Prop :=
  hbad st = false /\ exists p, consumed st p /\ stack p = s.
Definition Pk (s : list bool) (st : hstate) : Prop := At s st /\ 1 <= hk st.
Definition Bk (st : hstate) : Prop := closer (tk (hi st)) = true /\ hk st <= 1.

Definition hwp {A : Set} (n : nat) (p : prog A) (g : grammar_flags) (st : hstate) (Q : A -> hstate -> Prop) : Prop :=
  match hrun n p g st with HOk a st' => Q a st' | _ => True end.

Section Rules.
Context (n : nat) (g : grammar_flags) (s : list bool) (st : hstate).
Notation wp := (fun p => hwp n p g st).

Lemma h_ret {A : Set} (a : A) (Q : _ -> _ -> Prop) : Q a st -> hwp n (Ret a) g st Q.
Proof. exact (fun H => H). Qed.
Lemma h_bind {A B : Set} (p : prog A) (k : A -> prog B) Q :
  hwp n p g st (fun a st' => hwp n (k a) g st' Q) -> hwp n (Bind p k) g st Q.
Proof. unfold hwp. cbn [hinterp]. destruct (hrun n p g st); exact (fun H => H). Qed.
Lemma h_throw {A : Set} x Q : hwp n (Throw x : prog A) g st Q.
Proof. exact I. Qed.
Lemma h_crash {A : Set} x Q : hwp n (Crash x : prog A) g st Q.
Proof. exact I. Qed.
Lemma h_with {A : Set} f v (p : prog A) Q : hwp n p (set_flag g f v) st Q -> hwp n (With f v p) g st Q.
Proof. exact (fun H => H). Qed.
Lemma h_flags (Q : _ -> _ -> Prop) : Q g st -> hwp n get_flags g st Q.
Proof. exact (fun H => H). Qed.

Lemma h_expect (Q : _ -> _ -> Prop) : At s st -> (forall st', At s st' -> Q tt st') -> hwp n expect_expression g st Q.
Proof. intros (B & p & C & S) H. apply H. split; [exact B|]. exists p. auto. Qed.

Lemma peek_at : At s st -> (expect_template g = hd false s \/ closer (tk (hi st)) = false) ->
  Pk s (hpeek misread TEOF g st) /\ hi (hpeek misread TEOF g st) = hi st.
Proof.
  intros (B & p & C & S) HT. unfold hpeek. destruct (Nat.eqb_spec (hk st) 0) as [Z|Z].
  - cbn [hi]. split; [|reflexivity]. split; [|cbn; lia]. split.
    + cbn [hbad]. rewrite B. unfold misread. unfold consumed in C. rewrite Z in C. fold (tk (hi st)). rewrite C, S.
      destruct HT as [->| ->]; [|reflexivity]. rewrite eqb_reflx. apply andb_false_r.
    + exists p. split; [|exact S]. unfold consumed in *. rewrite Z in C. cbn [hk hpast hi]. rewrite C. reflexivity.
  - split; [|reflexivity]. split; [|lia]. split; [exact B|]. exists p. auto.
Qed.

Hypothesis HT : expect_template g = hd false s.

Lemma h_token (Q : _ -> _ -> Prop) : At s st -> (forall st', Pk s st' -> Q (tk (hi st')) st') -> hwp n token_ g st Q.
Proof.
  intros HA H. destruct (peek_at HA (or_introl HT)) as (P & E). unfold hwp, token_. cbn [hinterp hact].
  fold (tk (hi st)). rewrite <- E. apply H. exact P.
Qed.
Lemma h_noline (Q : _ -> _ -> Prop) : At s st -> (forall b st', Pk s st' -> Q b st') -> hwp n no_line_terminator g st Q.
Proof.
  intros HA H. destruct (peek_at HA (or_introl HT)) as (P & E). unfold hwp, no_line_terminator. cbn [hinterp hact]. apply H. exact P.
Qed.
Lemma h_pop (Q : _ -> _ -> Prop) : Pk s st -> (forall st', At (brace_step s (tk (hi st))) st' -> Q (tk (hi st)) st') -> hwp n pop_ g st Q.
Proof.
  intros ((B & p & C & S) & L) H. unfold hwp, pop_. cbn [hinterp hact]. apply H. split; [exact B|].
  exists (tk (hi st) :: p). split; [|cbn; rewrite S; reflexivity]. unfold consumed in *. cbn [hk hpast hi].
  destruct (hk st) as [|[|[|?]]]; [lia|exact C|apply C|destruct C].
Qed.
Lemma h_look (Q : _ -> _ -> Prop) : At s st -> (forall a st', Pk s st' -> Q a st') -> hwp n ident_lookahead g st Q.
Proof.
  intros HA H. destruct (peek_at HA (or_introl HT)) as (P & E). unfold hwp, ident_lookahead. cbn [hinterp hact].
  set (st1 := hpeek misread TEOF g st) in *. clearbody st1. rewrite <- E. destruct (Nat.ltb_spec (hk st1) 2) as [L|L].
  - destruct (tk (hi st1)) eqn:T; try (apply H; exact P). apply H. destruct P as ((B & p & C & S) & L1).
    assert (K : hk st1 = 1) by lia. unfold consumed in C. rewrite K, T in C. split; [|cbn; lia]. split.
    + cbn [hbad]. rewrite B. unfold misread. rewrite C. cbn [stack brace_step]. rewrite S, HT, eqb_reflx. apply andb_false_r.
    + exists p. split; [|exact S]. unfold consumed. cbn [hk hpast hi]. fold (tk (tl (hi st1))). rewrite T, C. split; reflexivity.
  - apply H. exact P.
Qed.

Lemma h_take {A : Set} (same : token -> bool) (payload : token -> option A) why (Q : _ -> _ -> Prop) :
  At s st ->
  (forall st' t a, same t = true -> payload t = Some a -> At (brace_step s t) st' -> Q (Some a) st') ->
  (forall st', Pk s st' -> Q None st') ->
  hwp n (take_if same payload why) g st Q.
Proof.
  intros HA H1 H2. unfold take_if. apply h_bind, h_token; [exact HA|]. intros st' P.
  destruct (same (tk (hi st'))) eqn:E; [|apply H2; exact P].
  destruct P as ((B & p & C & S) & L). unfold hwp, pop_. cbn [hinterp hact]. destruct (payload (tk (hi st'))) eqn:Py; [|exact I].
  cbn [hinterp]. apply (H1 _ _ _ E Py). split; [exact B|].
  exists (tk (hi st') :: p). split; [|cbn; rewrite S; reflexivity]. unfold consumed in *. cbn [hk hpast hi].
  destruct (hk st') as [|[|[|?]]]; [lia|exact C|apply C|destruct C].
Qed.
Lemma h_punc p (Q : _ -> _ -> Prop) : At s st ->
  (forall st', At (brace_step s (TPunctuator p)) st' -> Q (Some tt) st') -> (forall st', Pk s st' -> Q None st') -> hwp n (punc p) g st Q.
Proof.
  intros HA H1 H2. apply h_take; [exact HA| |exact H2]. intros st' t [] E _. destruct t; try discriminate. cbn in E.
  apply peqb_eq in E. subst. apply H1.
Qed.
Lemma h_plain (same : token -> bool) (payload : token -> option unit) why (Q : _ -> _ -> Prop) : (forall t, same t = true -> brace_step s t = s) ->
  At s st -> (forall st', At s st' -> Q (Some tt) st') -> (forall st', Pk s st' -> Q None st') -> hwp n (take_if same payload why) g st Q.
Proof. intros HP HA H1 H2. apply h_take; [exact HA| |exact H2]. intros st' t [] E _. rewrite (HP t E). apply H1. Qed.
Lemma h_numeric (Q : _ -> _ -> Prop) : At s st -> (forall st', At s st' -> Q (Some tt) st') -> (forall st', Pk s st' -> Q None st') -> hwp n numeric g st Q.
Proof. apply h_plain. intros []; try discriminate; reflexivity. Qed.
Lemma h_string (Q : _ -> _ -> Prop) : At s st -> (forall st', At s st' -> Q (Some tt) st') -> (forall st', Pk s st' -> Q None st') -> hwp n string_ g st Q.
Proof. apply h_plain. intros []; try discriminate; reflexivity. Qed.
Lemma h_regex (Q : _ -> _ -> Prop) : At s st -> (forall st', At s st' -> Q (Some tt) st') -> (forall st', Pk s st' -> Q None st') -> hwp n regex g st Q.
Proof. apply h_plain. intros []; try discriminate; reflexivity. Qed.
Lemma h_eof (Q : _ -> _ -> Prop) : At s st -> (forall st', At s st' -> Q (Some tt) st') -> (forall st', Pk s st' -> Q None st') -> hwp n eof g st Q.
Proof. apply h_plain. intros []; try discriminate; reflexivity. Qed.
Lemma h_keyword k (Q : _ -> _ -> Prop) : At s st -> (forall st', At s st' -> Q (Some tt) st') -> (forall st', Pk s st' -> Q None st') -> hwp n (keyword k) g st Q.
Proof. apply h_plain. intros []; try discriminate; reflexivity. Qed.
Lemma h_identifier (Q : _ -> _ -> Prop) : At s st -> (forall st', At s st' -> Q (Some tt) st') -> (forall st', Pk s st' -> Q None st') -> hwp n identifier g st Q.
Proof. apply h_plain. intros []; try discriminate; reflexivity. Qed.
Lemma h_binding (Q : _ -> _ -> Prop) : At s st -> (forall st', At s st' -> Q (Some tt) st') -> (forall st', Pk s st' -> Q None st') -> hwp n binding_identifier g st Q.
Proof. intros. unfold binding_identifier. apply h_bind, h_flags. apply h_plain; auto. intros []; try discriminate; reflexivity. Qed.
Lemma h_tpl (Q : _ -> _ -> Prop) : At s st ->
  (forall st' v r, At (brace_step s (TTemplate TF_Head v r)) st' -> Q (Some TF_Head) st') ->
  (forall st', At s st' -> Q (Some TF_NoSubstitution) st') -> (forall st', Pk s st' -> Q None st') -> hwp n template g st Q.
Proof.
  intros HA H1 H1' H2. apply h_take; [exact HA| |exact H2]. intros st' [| | | | | | | |[] v r|] f E P; try discriminate; injection P as <-; [apply H1'|apply (H1 st' v r)].
Qed.
Lemma h_tpl_tail (Q : _ -> _ -> Prop) : At s st ->
  (forall st', At s st' -> Q (Some TF_Middle) st') ->
  (forall st', At (tl s) st' -> Q (Some TF_Tail) st') -> (forall st', Pk s st' -> Q None st') -> hwp n template_tail g st Q.
Proof.
  intros HA H1 H1' H2. apply h_take; [exact HA| |exact H2]. intros st' [| | | | | | | |[] v r|] f E P; try discriminate; injection P as <-; [apply H1|apply H1'].
Qed.
Lemma h_semi b (Q : _ -> _ -> Prop) : At s st -> (forall a st', At s st' -> Q a st') -> hwp n (semicolon_inner b) g st Q.
Proof.
  intros HA H. unfold semicolon_inner. destruct (peek_at HA (or_introl HT)) as (P & E). unfold hwp. cbn [hinterp hact].
  set (st1 := hpeek misread TEOF g st) in *. clearbody st1.
  assert (X : hwp n (run_ expect_expression ;; done_) g st1 Q).
  { destruct P as ((B & p & C & S) & L). unfold hwp. cbn. apply H. split; [exact B|]. exists p. auto. }
  assert (Y : forall b0 : bool, match hrun n (if b0 then run_ expect_expression ;; done_ else Ret None) g st1 with HOk a st' => Q a st' | _ => True end).
  { intros []; [exact X|]. cbn. apply H. apply P. }
  fold (tk (hi st)). rewrite <- E. fold (tk (hi st1)). destruct (tk (hi st1)) as [pp| | | | | | | | |] eqn:T; try apply Y; try exact X.
  destruct pp; try apply Y; try exact X.
  destruct P as ((B & p & C & S) & L). cbn. apply H. split; [exact B|]. exists (tk (hi st1) :: p). split; [|rewrite T; cbn; exact S].
  unfold consumed in *. cbn [hk hpast hi]. destruct (hk st1) as [|[|[|?]]]; [lia|exact C|apply C|destruct C].
Qed.
End Rules.

(** A brace opened where the template hint was just cleared. *)
Lemma h_open n g s st (Q : _ -> _ -> Prop) : At s st ->
  (forall st', At (false :: s) st' -> Q (Some tt) st') -> (forall st', At s st' \/ (Bk st' /\ hk st = 0) -> Q None st') ->
  hwp n (punc CurlyOpen) g st Q.
Proof.
  intros HA H1 H2. unfold punc, take_if, token_. unfold hwp. cbn [hinterp hact]. fold (tk (hi st)).
  assert (E : hi (hpeek misread TEOF g st) = hi st) by (unfold hpeek; destruct (hk st =? 0); reflexivity).
  destruct (closer (tk (hi st))) eqn:Cl.
  - assert (N : is_punc CurlyOpen (tk (hi st)) = false) by (destruct (tk (hi st)) as [[]| | | | | | | | |]; try discriminate; reflexivity).
    rewrite N. cbn. apply H2. unfold hpeek in *. destruct (Nat.eqb_spec (hk st) 0) as [Z|Z].
    + right. split; [|exact Z]. split; [exact Cl|cbn; lia].
    + left. exact HA.
  - destruct (peek_at g s st HA (or_intror Cl)) as (P & _). set (st1 := hpeek misread TEOF g st) in *. clearbody st1.
    rewrite <- E. destruct (is_punc CurlyOpen (tk (hi st1))) eqn:N; [|cbn; apply H2; left; apply P].
    destruct (tk (hi st1)) as [pp| | | | | | | | |] eqn:T; try discriminate. cbn [is_punc] in N. apply peqb_eq in N. subst pp.
    unfold pop_. cbn [hinterp hact]. rewrite T. cbn [hinterp]. apply H1. destruct P as ((B & p & C & S) & L). split; [exact B|]. exists (tk (hi st1) :: p).
    split; [|rewrite T; cbn; rewrite S; reflexivity]. unfold consumed in *. cbn [hk hpast hi].
    destruct (hk st1) as [|[|[|?]]]; [lia|exact C|apply C|destruct C].
Qed.

(** ** A closing brace, read under whatever hint, begins no expression and no pattern *)
Lemma bk_peek g st : Bk st -> Bk (hpeek misread TEOF g st) /\ hi (hpeek misread TEOF g st) = hi st.
Proof. intros (C & L). unfold hpeek. destruct (hk st =? 0); (split; [split; cbn; auto; lia|reflexivity]). Qed.
Lemma bk_token n g st (Q : _ -> _ -> Prop) : Bk st -> (forall st' t, Bk st' -> closer t = true -> Q t st') -> hwp n token_ g st Q.
Proof.
  intros B H. destruct (bk_peek g st B) as (B' & E). unfold hwp, token_. cbn [hinterp hact]. apply H; [exact B'|]. apply B.
Qed.
Lemma bk_look n g st (Q : _ -> _ -> Prop) : Bk st -> (forall st', Bk st' -> Q None st') -> hwp n ident_lookahead g st Q.
Proof.
  intros B H. destruct (bk_peek g st B) as (B' & E). unfold hwp, ident_lookahead. cbn [hinterp hact].
  destruct (Nat.ltb_spec (hk (hpeek misread TEOF g st)) 2) as [L|L]; [|destruct B'; lia].
  destruct B as (B & _). destruct (tk (hi st)) as [[]| | | | | | | |[] ? ?|]; try discriminate; apply H; exact B'.
Qed.
Lemma bk_take {A : Set} n g st (same : token -> bool) (payload : token -> option A) why (Q : _ -> _ -> Prop) :
  (forall t, closer t = true -> same t = false) -> Bk st -> (forall st', Bk st' -> Q None st') -> hwp n (take_if same payload why) g st Q.
Proof.
  intros F B H. unfold take_if. apply h_bind, bk_token; [exact B|]. intros st' t B' C. rewrite (F t C). apply H. exact B'.
Qed.
Lemma bk_binding n g st (Q : _ -> _ -> Prop) : Bk st -> (forall st', Bk st' -> Q None st') -> hwp n binding_identifier g st Q.
Proof. intros B H. unfold binding_identifier. apply h_bind, h_flags, bk_take; [|exact B|exact H]. intros []; try discriminate; reflexivity. Qed.
Lemma bk_punc n g st p (Q : _ -> _ -> Prop) : p <> CurlyClose -> Bk st -> (forall st', Bk st' -> Q None st') -> hwp n (punc p) g st Q.
Proof.
  intros NP. apply bk_take. intros [[]| | | | | | | | |]; try discriminate; intros _; cbn; try reflexivity. destruct p; try reflexivity. congruence.
Qed.
Lemma bk_keyword n g st k (Q : _ -> _ -> Prop) : Bk st -> (forall st', Bk st' -> Q None st') -> hwp n (keyword k) g st Q.
Proof. apply bk_take. intros []; try discriminate; reflexivity. Qed.
Lemma bk_template n g st (Q : _ -> _ -> Prop) : Bk st -> (forall st', Bk st' -> Q None st') -> hwp n template g st Q.
Proof. apply bk_take. intros [| | | | | | | |[] ? ?|]; try discriminate; reflexivity. Qed.

Definition starts_expression (f : fn) : bool :=
  match f with
  | F_assignment | F_yield | F_conditional | F_fancy _ | F_exponential | F_unary | F_update | F_left_hand _ | F_primary
  | F_template_literal | F_meta_property | F_array_binding_pattern => true
  | _ => false
  end.

Ltac bstep IH :=
  lazymatch goal with
  | |- hwp _ ?p _ _ _ =>
    lazymatch p with
    | Ret _ => apply h_ret
    | Bind _ _ => apply h_bind
    | Throw _ => exact I
    | Crash _ => exact I
    | get_flags => apply h_flags
    | token_ => apply bk_token; [assumption|intros ? [[]| | | | | | | |[] ? ?|] ? C; try discriminate C; clear C; cbn [unary_type_of primary_type_of reify_of binary_precedence]]
    | ident_lookahead => apply bk_look; [assumption|intros]
    | punc _ => apply bk_punc; [discriminate|assumption|intros]
    | keyword _ => apply bk_keyword; [assumption|intros]
    | template => apply bk_template; [assumption|intros]
    | Call _ => apply IH; [reflexivity|assumption|intros]
    | try_sequence _ => cbn [try_sequence]
    | ?f _ _ => unfold f; cbv beta
    | ?f _ => unfold f; cbv beta
    | ?f => unfold f
    end
  end.

Lemma blocked n : forall f g st (Q : _ -> _ -> Prop), starts_expression f = true -> Bk st -> (forall st', Bk st' -> Q None st') -> hwp n (Call f) g st Q.
Proof.
  induction n as [|n IH]; intros f g st Q F B H; [exact I|].
  change (hwp n (body f) g st Q). destruct f; try discriminate F; cbn [body].
  all: repeat (cbv beta iota; cbn [maybe_async_arrow negb]; first [bstep IH | match goal with |- hwp _ (if ?b then _ else _) _ _ _ => destruct b end]).
  all: solve [auto].
Qed.

(** ** The parse functions *)

(** These functions look for an opening brace after clearing the template hint, and may
    find a closing one; then they do not match. *)
Definition opening (f : fn) : bool :=
  match f with
  | F_block | F_object_literal | F_object_binding_pattern | F_binding_pattern | F_binding_element | F_reify_arrow => true
  | _ => false
  end.
(** The rest of a template closes its substitution. *)
Definition after (f : fn) (s : list bool) : list bool := match f with L_template_literal => tl s | _ => s end.

Definition reifies (f : fn) : bool := match f with F_reify_arrow => true | _ => false end.
(** Where this function does not match, it has looked at the next token. *)
Definition settled (f : fn) (a : option unit) : list bool -> hstate -> Prop :=
  match f, a with F_binding_rest_element, None => Pk | _, _ => At end.
(** Import and export declarations do not clear the template hint inside their braces. *)
Definition module_level (f : fn) : bool :=
  match f with
  | L_module | F_module_item | F_import_declaration | L_import_specifiers | F_export_declaration | L_export_specifiers => true
  | _ => false
  end.
Definition post (f : fn) (s : list bool) (st0 : hstate) (a : option unit) (st : hstate) : Prop :=
  settled f a (after f s) st \/ (opening f = true /\ a = None /\ Bk st /\ (reifies f = false -> hk st0 = 0)).

Lemma pk_at s st : Pk s st -> At s st.
Proof. exact (@proj1 _ _). Qed.
Lemma pk_read s st : Pk s st -> hk st <> 0.
Proof. intros [_ L] E. rewrite E in L. lia. Qed.
Lemma template_flag g f v : expect_template (set_flag g f v) = match f with FTemplate => v | _ => expect_template g end.
Proof. destruct g, f; reflexivity. Qed.
Lemma reify_plain t r s : reify_of t = Some r -> brace_step s t = s.
Proof. destruct t as [[]| | | | | | | | |]; try discriminate; reflexivity. Qed.
Lemma binary_plain b t r s : binary_precedence b t = Some r -> brace_step s t = s.
Proof. destruct t as [[]| | | | | | | | |]; try discriminate; reflexivity. Qed.

Ltac at_ := first [eassumption | apply pk_at; eassumption].
Ltac flag_ := rewrite ?template_flag; first [assumption | reflexivity].
Ltac in_ :=
  let H := fresh "A" in intros ? H; cbn [brace_step tl after] in H;
  try match type of H with At (brace_step _ ?t) _ =>
    match goal with
    | E : reify_of t = Some _ |- _ => rewrite (reify_plain _ _ _ E) in H
    | E : binary_precedence _ t = Some _ |- _ => rewrite (binary_plain _ _ _ _ E) in H
    | E : t = _ |- _ => rewrite E in H; cbn [brace_step] in H
    end end.

Ltac sstep :=
  lazymatch goal with
  | |- hwp _ ?p _ _ _ =>
    lazymatch p with
    | Ret _ => apply h_ret
    | Bind _ _ => apply h_bind
    | Throw _ => exact I
    | Crash _ => exact I
    | With _ _ _ => apply h_with
    | get_flags => apply h_flags
    | expect_expression => eapply h_expect; [at_|in_]
    | token_ => eapply h_token; [|at_|in_]; [flag_|]
    | no_line_terminator => eapply h_noline; [|at_|intros ?; in_]; [flag_|]
    | ident_lookahead => eapply h_look; [|at_|intros ?; in_]; [flag_|]
    | pop_ => eapply h_pop; [eassumption|in_]
    | punc CurlyOpen => first [eapply h_punc; [|at_|in_|in_]; [flag_| |] |
                               eapply h_open; [at_|in_|intros ? [?|[? ?]]]]
    | punc _ => eapply h_punc; [|at_|in_|in_]; [flag_| |]
    | numeric => eapply h_numeric; [|at_|in_|in_]; [flag_| |]
    | string_ => eapply h_string; [|at_|in_|in_]; [flag_| |]
    | regex => eapply h_regex; [|at_|in_|in_]; [flag_| |]
    | eof => eapply h_eof; [|at_|in_|in_]; [flag_| |]
    | keyword _ => eapply h_keyword; [|at_|in_|in_]; [flag_| |]
    | identifier => eapply h_identifier; [|at_|in_|in_]; [flag_| |]
    | binding_identifier => first [eapply h_binding; [|at_|in_|in_]; [flag_| |] | eapply bk_binding; [eassumption|intros ? ?]]
    | reference_identifier => eapply h_binding; [|at_|in_|in_]; [flag_| |]
    | label_identifier => eapply h_binding; [|at_|in_|in_]; [flag_| |]
    | semicolon => eapply h_semi; [|at_|intros [[]|]; in_]; [flag_| |]
    | semicolon_dowhile => eapply h_semi; [|at_|intros [[]|]; in_]; [flag_| |]
    | template => eapply h_tpl; [|at_|let st := fresh "st" in intros st ? ?; let H := fresh "A" in intros H; cbn [brace_step] in H|in_|in_]; [flag_| | |]
    | template_tail => eapply h_tpl_tail; [|at_|in_|in_|in_]; [flag_| | |]
    | try_sequence _ => cbn [try_sequence]
    | match ?x with _ => _ end => destruct x eqn:?
    | Call _ => fail
    | ?f _ _ => unfold f; cbv beta
    | ?f _ => unfold f; cbv beta
    | ?f => unfold f
    end
  end.

Ltac oncall IHc :=
  first [ eapply IHc; [at_|flag_|first [intros M; discriminate M|intros _; flag_]|intros [[]|]; cbn [settled]; in_|
            first [intros O; discriminate O
                  |intros _; let Z := fresh "Z" in intros Z ? ?; cbn [reifies] in Z; try specialize (Z eq_refl);
                   try (exfalso; match goal with P : Pk _ _ |- _ => exact (pk_read _ _ P Z) end)]]
        | eapply blocked; [reflexivity|eassumption|intros ? ?] ].
Ltac finish := first [left; cbn [settled after]; at_ | right; split; [reflexivity|split; [reflexivity|split; [assumption|intros X; first [discriminate X|auto]]]]].

Lemma braces n : forall f g s st, At s st -> expect_template g = hd false s -> (module_level f = true -> expect_template g = false) ->
  hwp n (Call f) g st (post f s st).
Proof.
  induction n as [|n IH]; intros f g s st A HT HM; [exact I|].
  change (hwp n (body f) g st (post f s st)).
  assert (IHc : forall f g s st (Q : _ -> _ -> Prop), At s st -> expect_template g = hd false s -> (module_level f = true -> expect_template g = false) ->
    (forall a st', settled f a (after f s) st' -> Q a st') ->
    (opening f = true -> (reifies f = false -> hk st = 0) -> forall st', Bk st' -> Q None st') -> hwp n (Call f) g st Q).
  { intros f0 g0 s0 st0 Q A0 T0 M0 H1 H2. specialize (IH f0 g0 s0 st0 A0 T0 M0). unfold hwp in *. cbn [hinterp] in *.
    destruct (hexec misread TEOF n f0 g0 st0) as [a st1|? ?|?|?]; try exact I. destruct IH as [B|(O & -> & B & Z)]; auto. }
  clear IH.
  destruct f; cbn [body module_level] in *; try specialize (HM eq_refl).
  all: solve [repeat (cbv beta iota; first [sstep | oncall IHc | finish])].
Qed.

Lemma no_misread n i a st' : hrun n parse_module flags_default (HS 0 false [] false i) = HOk a st' -> hbad st' = false.
Proof.
  intros H. assert (W : hwp n parse_module flags_default (HS 0 false [] false i) (fun _ st => hbad st = false)).
  { unfold parse_module. apply h_bind.
    assert (A : At [] (HS 0 false [] false i)) by (split; [reflexivity|]; exists []; split; reflexivity).
    pose proof (braces n L_module flags_default [] _ A eq_refl (fun _ => eq_refl)) as B.
    assert (C : forall Q : _ -> _ -> Prop, (forall a st', At [] st' -> Q a st') -> hwp n (Call L_module) flags_default (HS 0 false [] false i) Q).
    { intros Q HQ. unfold hwp in *. destruct (hrun n (Call L_module) flags_default _); try exact I. apply HQ.
      destruct B as [B|(B & _)]; [|discriminate B]. exact B. }
    apply C. intros u st1 A1.
    repeat (cbv beta iota; first [sstep | match goal with A : At _ ?s |- hbad ?s = false => exact (proj1 A) end]). }
  unfold hwp in W. rewrite H in W. exact W.
Qed.

(** The stack of the specification. *)
Lemma stack_spec past : stack past = open_braces (rev past).
Proof.
  unfold open_braces. induction past as [|t past IH]; [reflexivity|]. cbn [stack rev]. rewrite fold_left_app, <- IH. reflexivity.
Qed.
Lemma closer_spec t : closer t = true <-> closes_brace t \/ closes_substitution t.
Proof.
  split.
  - intros H. destruct t as [[]| | | | | | | |[]|]; cbn in H; try discriminate; [left; reflexivity|right|right]; eexists _, _; auto.
  - intros [->|(v & r & [->| ->])]; reflexivity.
Qed.
Lemma misread_suits past h la : misread past (h_expression h) (h_template h) la = false <-> suits_brace (rev past) (snd la) h.
Proof.
  unfold misread, suits_brace, in_substitution. rewrite <- stack_spec, <- closer_spec. destruct (closer (snd la)); cbn [andb].
  - rewrite negb_false_iff, eqb_true_iff. tauto.
  - split; [discriminate|reflexivity].
Qed.
