(** Restricted productions, and precedence, at any moment of a parse. *)
From Coq Require Import String List Arith NArith Bool Lia.
From Verif Require Import Base Tokens ByteFacts Tokenizer ParserCore ParserBody SpecParser AbstractParser ParserExec ParserTerminates
  Replay ParserProps ParserProps2 SpecGrammar GrammarFirst GrammarRules GrammarSound Precedence CompleteBase GrammarComplete GrammarFacts
  SpecLanguage DerivationInv ParserGrammar ParserGrammar2.
Import ListNotations.
Local Open Scope string_scope.

Lemma app_nil_inv {A} (w r : list A) : (w ++ r)%list = r -> w = [].
Proof. intros H. destruct w; [reflexivity|]. apply (f_equal (@length A)) in H. rewrite app_length in H. cbn in H. lia. Qed.
Lemma app_one_inv {A} (x : A) (w r : list A) : (w ++ r)%list = x :: r -> w = [x].
Proof.
  intros H. destruct w as [|y w].
  - cbn in H. apply (f_equal (@length A)) in H. cbn in H. lia.
  - cbn in H. injection H as <- H. apply app_nil_inv in H. rewrite H. reflexivity.
Qed.

Lemma line_after (w r : list lookahead) g : no_line_break g (w ++ r)%list = true -> no_operand_over_line w.
Proof.
  destruct w as [|[b t] w]; [left; reflexivity|]. unfold no_line_break. cbn. intros H. right. right. exists t, w.
  destruct b; [discriminate|reflexivity].
Qed.
Lemma semi_after (w r : list lookahead) g b : derives_seq g [Semi b] (w ++ r)%list r -> no_operand_over_line w.
Proof.
  intros D. all_steps D; subst.
  - apply app_one_inv in E. right. left. eauto.
  - symmetry in D. left. apply app_nil_inv in D. exact D.
Qed.

(** The keyword of a restricted statement and what follows it. *)
Lemma restricted_statement g k nl w r : In k restricted_words ->
  derives g NStatement ((nl, TIdent (s2b k)) :: w ++ r)%list r -> no_operand_over_line w.
Proof.
  intros Ik D.
  assert (F : forall n F, fn_of n = Some F -> derives g n ((nl, TIdent (s2b k)) :: w ++ r)%list r ->
     first (F 0 g) g ((nl, TIdent (s2b k)) :: w ++ r)%list = true) by (intros; eapply first_of; eauto).
  prods_of D; all_steps D; subst.
  all: try (repeat (destruct Ik as [<-|Ik]); try contradiction; 
    match goal with M : derives _ ?n _ _ |- _ => specialize (F n _ eq_refl M); vm_compute in F; discriminate F end).
  all: repeat (destruct Ik as [<-|Ik]); try contradiction.
  all: try (match goal with H : _ = true |- _ => vm_compute in H; discriminate H end).
  all: try match goal with M : derives _ ?n _ _ |- _ => prods_of M; all_steps M; subst end.
  all: repeat match goal with E : _ :: _ = _ :: _ |- _ => injection E as ? ? E; subst end.
  all: try (match goal with H : one_of _ _ _ = true |- _ => vm_compute in H; discriminate H end).
  all: repeat match goal with E : _ = (?w ++ _)%list |- _ => symmetry in E end.
  all: try match goal with C : no_line_break ?g ?j = true, E : (?w ++ ?r)%list = ?j |- _ => rewrite <- E in C; exact (line_after _ _ _ C) end.
  all: try match goal with C : both no_line_break _ ?g ?j = true, E : (?w ++ ?r)%list = ?j |- _ =>
     apply andb_true_iff in C; destruct C as (C & _); rewrite <- E in C; exact (line_after _ _ _ C) end.
  all: try match goal with C : no_line_break ?g (?w ++ ?r)%list = true |- _ => exact (line_after _ _ _ C) end.
  all: try match goal with C : both no_line_break _ ?g (?w ++ ?r)%list = true |- _ =>
     apply andb_true_iff in C; destruct C as (C & _); exact (line_after _ _ _ C) end.
  all: try match goal with E : (?w ++ ?r)%list = ?x :: ?r |- _ => apply app_one_inv in E; right; left; eauto end.
  all: try match goal with E : (?w ++ ?r)%list = ?r |- _ => apply app_nil_inv in E; left; exact E end.
Qed.

(** After a line break the statement is complete. *)
Lemma restricted_complete g k nl t more : In k restricted_words ->
  exists r, derives g NStatement ((nl, TIdent (s2b k)) :: (true, t) :: more) r.
Proof.
  intros Ik.
  assert (Sm : exists r, derives_seq g [Semi false] ((true, t) :: more) r).
  { destruct t as [[]| | | | | | | | |].
    all: try (exists ((true, TPunctuator Semicolon) :: more); fail).
    all: try (eexists; apply d_semicolon; apply d_end).
    all: eexists; apply d_inserted; [discriminate|reflexivity|apply d_end]. }
  destruct Sm as (r & Sm). cbn in Ik. repeat (destruct Ik as [<-|Ik]); try contradiction.
  4: exists ((true, t) :: more).
  1: exists r; eapply by_production; [|apply (d_nonterminal g NReturn [] _ r [] r); [|apply d_end]]; [cbn; tauto|];
     eapply by_production; [right; right; left; reflexivity|].
  2: exists r; eapply by_production; [|apply (d_nonterminal g NBreak [] _ r [] r); [|apply d_end]]; [cbn; tauto|];
     eapply by_production; [right; right; left; reflexivity|].
  3: exists r; eapply by_production; [|apply (d_nonterminal g NContinue [] _ r [] r); [|apply d_end]]; [cbn; tauto|];
     eapply by_production; [right; right; left; reflexivity|].
  4: eapply by_production; [|apply (d_nonterminal g NThrow [] _ ((true, t) :: more) [] _); [|apply d_end]]; [cbn; tauto|];
     eapply by_production; [right; left; reflexivity|].
  all: apply d_token; [reflexivity|]; apply d_condition; [reflexivity|]; try apply d_end; exact Sm.
Qed.

(** A yield and what follows it. *)
Lemma restricted_yield g nl w r : derives g NYield ((nl, TIdent (s2b "yield")) :: w ++ r)%list r -> no_operand_over_line w.
Proof.
  intros D. prods_of D; all_steps D; subst; injection E as ? ? E; subst.
  - rewrite <- E in C. exact (line_after _ _ _ C).
  - apply andb_true_iff in C. destruct C as (C & _). exact (line_after _ _ _ C).
  - left. apply app_nil_inv in E. exact E.
Qed.

Local Opaque parse.
(** ** What an update expression ends with *)
Definition update_token (t : token) : bool := is_punc PlusPlus t || is_punc MinusMinus t.
Definition ends_other (w : list lookahead) : Prop :=
  forall u b t, w = (u ++ [(b, t)])%list -> update_token t = false.

Lemma ends_nil : ends_other [].
Proof. intros u b t H. destruct u; discriminate. Qed.
Lemma ends_app_right v w : w <> [] -> ends_other w -> ends_other (v ++ w).
Proof.
  intros N H u b t E. destruct (exists_last N) as (w' & x & ->). rewrite app_assoc in E. apply app_inj_tail in E.
  destruct E as (_ & ->). exact (H w' b t eq_refl).
Qed.
Lemma ends_app v w : ends_other v -> ends_other w -> ends_other (v ++ w).
Proof.
  intros Hv Hw. destruct w as [|x w]; [rewrite app_nil_r; exact Hv|]. apply ends_app_right; [discriminate|exact Hw].
Qed.

Definition quiet_term (t : term) : bool := match t with P PlusPlus | P MinusMinus => false | _ => true end.
Definition quiet_nt (n : nt) : bool :=
  match n with
  | NLeftHand _ | NLeftHandTail _ | NPrimary | NArray | NObject | NTemplate | NTemplateRest | NParenthesized
  | NFunctionExpression | NFunctionRest _ _ | NParameters | NBlock | NArguments => true
  | _ => false
  end.
Definition quiet (s : sym) : bool :=
  match s with T ts => forallb quiet_term ts | N n _ => quiet_nt n | _ => true end.
Fixpoint strongly_quiet (l : list sym) : bool :=
  match l with
  | [] => false
  | x :: l' => strongly_quiet l' || (match x with T _ => quiet x && forallb quiet l' | _ => false end)
  end.
Lemma quiet_prods n : quiet_nt n = true -> forallb (fun a => strongly_quiet a || forallb quiet a) (prods n) = true.
Proof. all_prods n; intros H; try discriminate H; reflexivity. Qed.
Lemma quiet_one g ts t : forallb quiet_term ts = true -> one_of g ts t = true -> update_token t = false.
Proof.
  intros H K. unfold one_of in K. apply existsb_exists in K. destruct K as (x & I & M). rewrite forallb_forall in H. specialize (H x I).
  destruct x, t; try discriminate; try reflexivity. cbn in M. destruct (punctuator_eq_dec p p0); [subst|discriminate].
  destruct p0; try discriminate; reflexivity.
Qed.
Lemma quiet_ends :
  (forall g n i r, derives g n i r -> quiet_nt n = true -> exists w, i = (w ++ r)%list /\ ends_other w) /\
  (forall g alpha i r, derives_seq g alpha i r ->
     (forallb quiet alpha = true -> exists w, i = (w ++ r)%list /\ ends_other w) /\
     (strongly_quiet alpha = true -> exists w, i = (w ++ r)%list /\ w <> [] /\ ends_other w)).
Proof.
  apply derives_both.
  - intros g n alpha i r In _ (IH1 & IH2) Q. pose proof (quiet_prods n Q) as H. rewrite forallb_forall in H.
    specialize (H alpha In). apply orb_true_iff in H. destruct H as [H|H]; [|exact (IH1 H)].
    destruct (IH2 H) as (w & ? & _ & ?). eauto.
  - intros g i. split; [|discriminate]. intros _. exists []. split; [reflexivity|exact ends_nil].
  - intros g ts nl t i alpha r O _ (IH1 & IH2). split.
    + cbn. intros H. apply andb_true_iff in H. destruct H as (H1 & H2). destruct (IH1 H2) as (w & -> & W).
      exists ((nl, t) :: w). split; [reflexivity|]. apply (ends_app [(nl, t)]); [|exact W].
      intros u b t' E. destruct u as [|? [|]]; try discriminate. injection E as <- <-. exact (quiet_one _ _ _ H1 O).
    + cbn. intros H. apply orb_true_iff in H. destruct H as [H|H].
      * destruct (IH2 H) as (w & -> & N & W). exists ((nl, t) :: w). split; [reflexivity|]. split; [discriminate|].
        apply (ends_app_right [(nl, t)]); assumption.
      * apply andb_true_iff in H. destruct H as (H1 & H2). destruct (IH1 H2) as (w & -> & W).
        exists ((nl, t) :: w). split; [reflexivity|]. split; [discriminate|]. apply (ends_app [(nl, t)]); [|exact W].
        intros u b t' E. destruct u as [|? [|]]; try discriminate. injection E as <- <-. exact (quiet_one _ _ _ H1 O).
  - intros g n ch i m alpha r D IHn _ (IH1 & IH2). split.
    + cbn. intros H. apply andb_true_iff in H. destruct H as (H1 & H2). destruct (IH1 H2) as (w & -> & W).
      destruct (IHn H1) as (v & -> & V). exists (v ++ w)%list. rewrite app_assoc. split; [reflexivity|]. apply ends_app; assumption.
    + cbn. rewrite orb_false_r. intros H. destruct (IH2 H) as (w & -> & N & W).
      destruct (derives_prefix _ _ _ _ D) as (v & ->). exists (v ++ w)%list. rewrite app_assoc. split; [reflexivity|]. split.
      * destruct v; [exact N|discriminate].
      * apply ends_app_right; assumption.
  - intros g b nl i alpha r _ (IH1 & IH2). split.
    + cbn. intros H. destruct (IH1 H) as (w & -> & W). exists ((nl, TPunctuator Semicolon) :: w). split; [reflexivity|].
      apply (ends_app [_]); [|exact W]. intros u b' t' E. destruct u as [|? [|]]; try discriminate. injection E as <- <-. reflexivity.
    + cbn. rewrite orb_false_r. intros H. destruct (IH2 H) as (w & -> & N & W). exists ((nl, TPunctuator Semicolon) :: w).
      split; [reflexivity|]. split; [discriminate|]. apply (ends_app_right [_]); assumption.
  - intros g b i alpha r _ _ _ (IH1 & IH2). split; cbn; [exact IH1|]. rewrite orb_false_r. exact IH2.
  - intros g c i alpha r _ _ (IH1 & IH2). split; cbn; [exact IH1|]. rewrite orb_false_r. exact IH2.
Qed.

Lemma update_nonempty g w r : derives g NUpdate (w ++ r)%list r -> w <> [].
Proof.
  intros D ->. pose proof (parse0_consumption F_update g r) as C. pose proof (parse0_first F_update g r) as F.
  apply (complete_holds NUpdate (fun _ _ => F_update) _ _ _ 0 eq_refl) in D.
  change (parse0 F_update g r = ok r) in D. rewrite D in C, F. cbn [consumption consuming] in C.
  destruct r; [cbn in F; discriminate F|cbn [length] in C; lia].
Qed.
Lemma restricted_update n : forall g u b t r, length u <= n -> update_token t = true ->
  derives g NUpdate ((u ++ [(b, t)]) ++ r)%list r -> b = false.
Proof.
  assert (Same : forall u b t (v r : list lookahead), ((u ++ [(b, t)]) ++ r)%list = (v ++ r)%list -> v = (u ++ [(b, t)])%list)
    by (intros u b t v r H; apply app_inv_tail in H; auto).
  induction n as [|n IH]; intros g u b t r L U D; prods_of D; all_steps D; subst.
  all: try (match goal with M : derives _ (NLeftHand _) _ _ |- _ => 
     apply (proj1 quiet_ends) in M; [|reflexivity]; destruct M as (v & M & V) end).
  all: try (apply Same in M; specialize (V u b t M); congruence).
  all: try (change ((nl, t0) :: i)%list with ([(nl, t0)] ++ i)%list in M; rewrite app_assoc in M; apply Same in M; 
       apply app_inj_tail in M; destruct M as (_ & M); injection M as -> ->; unfold no_line_break in C; cbn in C; 
       destruct b; [discriminate|reflexivity]).
  - destruct u; [|cbn in L; lia]. injection E as <- <- <-. exfalso. apply (update_nonempty g [] _ M). reflexivity.
  - destruct u as [|x u].
    + injection E as <- <- <-. exfalso. apply (update_nonempty g [] _ M). reflexivity.
    + cbn in E. injection E as -> <-. eapply (IH g u b t); [cbn in L; lia|exact U|exact M].
Qed.

(** ** At any moment of a parse *)
Section During.
Context {T : Type}.
Variable next : T -> hint -> tres (token * token_range * T).
Variable rf : nat.

Lemma during_good t s n f s' : during next rf t s -> exec next rf body n f s = ROk (Some tt) s' ->
  exists w, ps_popped s' = (ps_popped s ++ w)%list /\ good f (ps_flags s) (w ++ waiting s')%list (waiting s').
Proof.
  intros D H. apply during_moment in D. destruct (matched_good next rf n f s s' (m_inv _ _ _ _ D) H) as (w & P & G).
  exists w. split; [exact P|]. specialize (G []). rewrite !app_nil_r in G. exact G.
Qed.

Theorem c32_statement t s n s' k nl w : during next rf t s -> exec next rf body n F_statement s = ROk (Some tt) s' ->
  In k restricted_words -> ps_popped s' = (ps_popped s ++ (nl, TIdent (s2b k)) :: w)%list -> no_operand_over_line w.
Proof.
  intros D H Ik P. destruct (during_good _ _ _ _ _ D H) as (w' & P' & G). rewrite P in P'. apply app_inv_head in P'. subst w'.
  exact (restricted_statement _ _ _ _ _ Ik G).
Qed.
Theorem c32_yield t s n s' nl w : during next rf t s -> exec next rf body n F_yield s = ROk (Some tt) s' ->
  ps_popped s' = (ps_popped s ++ (nl, TIdent (s2b "yield")) :: w)%list -> no_operand_over_line w.
Proof.
  intros D H P. destruct (during_good _ _ _ _ _ D H) as (w' & P' & G). rewrite P in P'. apply app_inv_head in P'. subst w'.
  exact (restricted_yield _ _ _ _ G).
Qed.
Theorem c32_update t s n s' w nl tok : during next rf t s -> exec next rf body n F_update s = ROk (Some tt) s' ->
  ps_popped s' = (ps_popped s ++ w ++ [(nl, tok)])%list -> tok = TPunctuator PlusPlus \/ tok = TPunctuator MinusMinus -> nl = false.
Proof.
  intros D H P Z. destruct (during_good _ _ _ _ _ D H) as (w' & P' & G). rewrite P in P'. apply app_inv_head in P'. subst w'.
  refine (restricted_update _ _ _ _ _ _ (le_n _) _ G). destruct Z as [-> | ->]; reflexivity.
Qed.
Theorem c32_ends t s n r k nl tok more : during next rf t s -> exec next rf body n F_statement s = r ->
  In k restricted_words ->
  match r with
  | ROk (Some _) _ => True
  | ROk None s' | RErr _ s' => (ps_popped s' ++ waiting s')%list <> (ps_popped s ++ (nl, TIdent (s2b k)) :: (true, tok) :: more)%list
  | _ => True
  end.
Proof.
  intros D H Ik. apply during_moment in D. pose proof (m_inv _ _ _ _ D) as V.
  destruct r as [[u|] s'|x s'|p|s']; try exact Logic.I; intros E; destruct (restricted_complete (ps_flags s) k nl tok more Ik) as (r & Dr).
  - pose proof (missed_bad next rf n F_statement NStatement s s' V eq_refl H []) as M. rewrite app_nil_r in M.
    pose proof (exec_replayed next rf TEOF n F_statement s V) as R. rewrite H in R. cbn [replayed] in R.
    destruct R as (_ & _ & l & G & R). pose proof (read_split _ _ _ _ _ V G) as P.
    specialize (R []). pose proof (consumption_holds TEOF n F_statement (ps_flags s) (buffered s ++ l ++ [])%list) as C. rewrite R in C.
    cbn [consumption] in C. destruct C as (C & _). rewrite !app_nil_r in C. rewrite C in P. apply app_inv_tail in P.
    rewrite P in E. apply app_inv_head in E. rewrite E in M. exact (M _ Dr).
  - pose proof (failed_bad next rf n F_statement NStatement s s' x V eq_refl H _ E [] r) as M. rewrite app_nil_r in M. exact (M Dr).
Qed.

(** ** C34 *)
Hypothesis no_hints : forall t h h', next t h = next t h'.

Lemma read_no_hints n : forall t h h' ln, read_token next n t h ln = read_token next n t h' ln.
Proof.
  induction n as [|n IH]; intros t h h' ln; [reflexivity|]. cbn [read_token]. rewrite (no_hints t h h').
  destruct (next t h') as [[[tk rg] t']|p]; [|reflexivity].
  destruct tk; try reflexivity; apply IH.
Qed.
Lemma fetches_cons n t la t1 l t2 h : read_token next n t h false = RdOk la t1 -> fetches next n t1 l t2 ->
  fetches next n t (la :: l) t2.
Proof.
  intros R F. apply (fetches_app next n t [la] t1 l t2); [|exact F]. apply (fetches_snoc next n t [] t h la t1); [apply fetches_nil|exact R].
Qed.
Lemma fetches_first n t l t' : fetches next n t l t' ->
  (l = [] /\ t' = t) \/ exists h la t1 l', l = la :: l' /\ read_token next n t h false = RdOk la t1 /\ fetches next n t1 l' t'.
Proof.
  intros F. induction F as [t|t l t1 h la t2 F IH R].
  - auto.
  - right. destruct IH as [(-> & ->)|(h' & la' & t1' & l' & -> & R' & F')].
    + exists h, la, t2, []. split; [reflexivity|]. split; [exact R|apply fetches_nil].
    + exists h', la', t1', (l' ++ [la])%list. split; [reflexivity|]. split; [exact R'|].
      exact (fetches_snoc next n _ _ _ _ _ _ F' R).
Qed.
Lemma fetches_same n l1 : forall t t1 l2 t2, fetches next n t l1 t1 -> fetches next n t l2 t2 ->
  (exists l, l2 = (l1 ++ l)%list) \/ (exists l, l1 = (l2 ++ l)%list).
Proof.
  induction l1 as [|a l1 IH]; intros t t1 l2 t2 F1 F2; [left; exists l2; reflexivity|].
  apply fetches_first in F1. destruct F1 as [(F1 & _)|(h & la & u & l' & F1 & R & F)]; [discriminate|]. injection F1 as <- <-.
  apply fetches_first in F2. destruct F2 as [(-> & _)|(h2 & la2 & u2 & l2' & -> & R2 & F2)]; [right; exists (a :: l1); reflexivity|].
  rewrite (read_no_hints n t h2 h) in R2. rewrite R in R2. injection R2 as <- <-.
  destruct (IH _ _ _ _ F F2) as [(l & ->)|(l & ->)]; [left|right]; exists l; reflexivity.
Qed.

Lemma fancy_half n m p q s s1 : inv s -> exec next rf body n (F_fancy p) s = ROk (Some tt) s1 ->
  match exec next rf body m (F_fancy q) s with
  | ROk (Some _) s2 => ps_popped s2 = ps_popped s1
  | ROk None _ | RErr _ _ => False
  | _ => True
  end.
Proof.
  intros V H1. pose proof (exec_replayed next rf TEOF n (F_fancy p) s V) as R1. rewrite H1 in R1. cbn [replayed] in R1.
  destruct R1 as (_ & _ & l1 & G1 & R1). pose proof (read_split _ _ _ _ _ V G1) as P1.
  assert (Key : forall l2 L2 L1, (l1 ++ L1)%list = (l2 ++ L2)%list -> 
     forall r, aexec TEOF m (F_fancy q) (ps_flags s) (buffered s ++ l2 ++ L2)%list = r -> not_fuel r -> r = ok (buffered s1 ++ L1)%list).
  { intros l2 L2 L1 E r Hr NF. specialize (R1 L1). rewrite E in R1. rewrite <- Hr.
    rewrite (not_fuel_parse TEOF teof_end) in R1 by (rewrite R1; exact Logic.I).
    rewrite (not_fuel_parse TEOF teof_end) by (rewrite Hr; exact NF). exact (fancy_irrelevant _ _ _ _ _ R1). }
  pose proof (exec_replayed next rf TEOF m (F_fancy q) s V) as R2.
  destruct (exec next rf body m (F_fancy q) s) as [v s2|x s2|w|s2]; try exact Logic.I; cbn [replayed] in R2.
  - destruct R2 as (_ & _ & l2 & G2 & R2). pose proof (read_split _ _ _ _ _ V G2) as P2.
    destruct (fetches_same _ _ _ _ _ _ (proj2 (proj2 G1)) (proj2 (proj2 G2))) as [(l & E)|(l & E)].
    + specialize (Key l2 [] l (eq_sym (eq_trans (app_nil_r l2) E)) _ (R2 []) Logic.I). injection Key as -> K.
      rewrite app_nil_r in K. rewrite K, E, !app_assoc in P2. rewrite app_assoc in P1. rewrite <- P1 in P2.
      rewrite <- !app_assoc in P2. apply app_inv_tail in P2. exact P2.
    + assert (E' : (l1 ++ [])%list = (l2 ++ l)%list) by (rewrite app_nil_r; exact E).
      specialize (Key l2 l [] E' _ (R2 l) Logic.I). injection Key as -> K.
      rewrite app_nil_r in K. rewrite <- K, E, !app_assoc in P1. rewrite app_assoc in P2. rewrite <- P2 in P1.
      rewrite <- !app_assoc in P1. apply app_inv_tail in P1. symmetry. exact P1.
  - destruct R2 as (_ & l2 & G2 & R2).
    destruct (fetches_same _ _ _ _ _ _ (proj2 (proj2 G1)) (proj2 (proj2 G2))) as [(l & E)|(l & E)].
    + specialize (Key l2 [] l (eq_sym (eq_trans (app_nil_r l2) E)) _ (R2 []) Logic.I). discriminate.
    + assert (E' : (l1 ++ [])%list = (l2 ++ l)%list) by (rewrite app_nil_r; exact E).
      specialize (Key l2 l [] E' _ (R2 l) Logic.I). discriminate.
Qed.
Theorem c34 t s n m p q : during next rf t s ->
  match exec next rf body n (F_fancy p) s, exec next rf body m (F_fancy q) s with
  | ROk (Some _) s1, ROk (Some _) s2 => ps_popped s1 = ps_popped s2
  | ROk (Some _) _, ROk None _ | ROk (Some _) _, RErr _ _ => False
  | ROk None _, ROk (Some _) _ | RErr _ _, ROk (Some _) _ => False
  | _, _ => True
  end.
Proof.
  intros D. apply during_moment in D. pose proof (m_inv _ _ _ _ D) as V.
  pose proof (fancy_half n m p q s) as A. pose proof (fancy_half m n q p s) as B.
  destruct (exec next rf body n (F_fancy p) s) as [[[]|] s1|x1 s1|w1|s1]; destruct (exec next rf body m (F_fancy q) s) as [[[]|] s2|x2 s2|w2|s2];
    try exact Logic.I; try exact (A _ V eq_refl); try exact (B _ V eq_refl).
Qed.
End During.
Theorem c32_ends' : forall T (next : T -> hint -> tres (token * token_range * T)) rf t s n r k nl tok more,
  during next rf t s -> exec next rf body n F_statement s = r -> In k restricted_words ->
  match r with
  | ROk None s' | RErr _ s' =>
    (ps_popped s' ++ waiting s')%list <> (ps_popped s ++ (nl, TIdent (s2b k)) :: (true, tok) :: more)%list
  | _ => True
  end.
Proof.
  intros T next rf t s n r k nl tok more D H Ik. pose proof (c32_ends next rf t s n r k nl tok more D H Ik) as X.
  destruct r as [[u|] s'|x s'|p|s']; exact X.
Qed.
