(** Completeness for the [for] statement and the binary operators. *)
From Coq Require Import String List Arith NArith Bool Lia.
From Verif Require Import Base Tokens ByteFacts ParserCore ParserBody AbstractParser ParserExec ParserTerminates
  SpecGrammar GrammarFirst GrammarRules Precedence CompleteBase.
Import ListNotations.
Local Open Scope string_scope.
Local Opaque parse.

Lemma more_eq k g i r : parse0 (L_for_declarators k) g i = ok r ->
  if is_punc Comma (tok0 i) then exists m, ainterp TEOF parse0 (for_declarator k) g (tl i) = ok m /\ parse0 (L_for_declarators k) g m = ok r
  else r = i.
Proof.
  rewrite (parse0_eq (L_for_declarators k)). cbn [body]. unfold parse_for_declarators_loop. cbn [ainterp abind]. rewrite punc_eq. unfold eats.
  destruct (is_punc Comma (tok0 i)); cbn.
  - destruct (ainterp _ _ (for_declarator k) g _) as [[[]|] m|? ?|?|?]; cbn; intros H; try discriminate. eauto.
  - congruence.
Qed.
Lemma opt_expression g i r : done g NOptExpression i r -> exists v, parse0 F_expression g i = AOk v r.
Proof.
  intros H. invert; [eauto|]. firsts. norm. exists None. apply first_none. falsify. 
Qed.
Ltac more :=
  match goal with D : parse0 (L_for_declarators ?k) ?g ?m = ok ?r |- _ =>
    apply more_eq in D; destruct (is_punc Comma (tok0 m)) eqn:?; [|subst r];
    [let A := fresh "D" in let B := fresh "D" in destruct D as (? & A & B); cbn [for_declarator ainterp] in A|..] end.
Ltac bindings k := destruct k; invert; try more; firsts; norm; positive; types; tokens_known; unfold for_declaration.
Lemma for_declaration_run k hk g i r (H : done g (NForVariables k) i r) :
  exists p t m, ainterp TEOF parse0 (for_declaration k hk) g i = AOk (ForHead hk p t m) r /\ negb p || t = true.
Proof.
  enough (W : wpr TEOF parse0 (for_declaration k hk) g i (fun y => exists p t m, y = AOk (ForHead hk p t m) r /\ negb p || t = true)) by exact W.
  bindings k. all: run. all: try (do 3 eexists; split; reflexivity).
Qed.

Lemma for_constants_run hk g i r (H : done g NForConstants i r) :
  exists p m, ainterp TEOF parse0 (for_declaration ForLexical hk) g i = AOk (ForHead hk p true m) r.
Proof.
  enough (W : wpr TEOF parse0 (for_declaration ForLexical hk) g i (fun y => exists p m, y = AOk (ForHead hk p true m) r)) by exact W.
  bindings tt. all: run. all: try (do 2 eexists; reflexivity).
Qed.
Lemma for_binding_run k hk g i r (H : done g NForBinding i r) :
  exists p, ainterp TEOF parse0 (for_declaration k hk) g i = AOk (ForHead hk p false false) r.
Proof.
  enough (W : wpr TEOF parse0 (for_declaration k hk) g i (fun y => exists p, y = AOk (ForHead hk p false false) r)) by exact W.
  bindings k. all: run. all: try (eexists; reflexivity).
Qed.

Definition head_is g i h r : Prop := ainterp TEOF parse0 parse_for_head g i = AOk h r.
Lemma head_var g i r h : tok0 i = TIdent (s2b "var") -> ainterp TEOF parse0 (for_declaration ForVar HVar) g (tl i) = AOk h r -> head_is g i h r.
Proof.
  intros T H. enough (W : wpr TEOF parse0 parse_for_head g i (fun y => y = AOk h r)) by exact W. unfold parse_for_head.
  wstep. wstep; [exact H|kill].
Qed.
Lemma head_const g i r h : tok0 i = TIdent (s2b "const") -> ainterp TEOF parse0 (for_declaration ForLexical HConst) g (tl i) = AOk h r -> head_is g i h r.
Proof.
  intros T H. enough (W : wpr TEOF parse0 parse_for_head g i (fun y => y = AOk h r)) by exact W. unfold parse_for_head.
  wstep. wstep; [kill|]. wstep. wstep; [exact H|kill].
Qed.
Lemma head_let g i r h : tok0 i = TIdent (s2b "let") -> for_let g i = true -> ainterp TEOF parse0 (for_declaration ForLexical HLet) g (tl i) = AOk h r -> head_is g i h r.
Proof.
  intros T L H. enough (W : wpr TEOF parse0 parse_for_head g i (fun y => y = AOk h r)) by exact W. unfold parse_for_head.
  rewrite for_let_eq in L. apply andb_true_iff in L. destruct L as [L _].
  wstep. wstep; [kill|]. wstep. wstep; [kill|]. wstep. wstep. rewrite L. wstep. wstep; [exact H|kill].
Qed.
Lemma head_expression g i r : both (no [K "var"; K "const"]) no_for_let g i = true -> done (set_flag g FIn false) NOptExpression i r ->
  head_is g i (ForHead HExpression false false false) r.
Proof.
  intros C D. apply opt_expression in D. destruct D as [v D].
  assert (E : ainterp TEOF parse0 for_expression_head g i = AOk (ForHead HExpression false false false) r).
  { unfold for_expression_head. cbn [ainterp abind]. rewrite D. destruct v; reflexivity. }
  enough (W : wpr TEOF parse0 parse_for_head g i (fun y => y = AOk (ForHead HExpression false false false) r)) by exact W. unfold parse_for_head.
  unfold both, no_for_let in C. rewrite no_eq, for_let_eq in C. unfold starts in C. rewrite !one_of_cons, one_of_nil, !matches_K in C.
  split_facts.
  wstep. wstep; [kill|]. wstep. wstep; [kill|]. wstep. wstep. wstep; [|exact E].
  wstep. wstep; [|exact E]. kill. 
Qed.

(** The whole statement, given what its head was. *)
Ltac for_start R := match goal with |- parse0 ?f ?g ?i = ?x => apply (wp_enter f g i (fun y => y = x)); cbn [body] end;
  unfold parse_for_statement; wstep; wstep; [|kill]; wstep; wstep; [|kill]; wstep; wstep; wstep; unfold wpr; rewrite R; cbn [kont].
Lemma for_three g i h a b c d r v w :
  tok0 i = TIdent (s2b "for") -> tok0 (tl i) = TPunctuator ParenOpen -> head_is g (tl (tl i)) h a -> fst (for_allowed h) = true ->
  tok0 a = TPunctuator Semicolon -> parse0 F_expression g (tl a) = AOk v b -> tok0 b = TPunctuator Semicolon ->
  parse0 F_expression g (tl b) = AOk w c -> tok0 c = TPunctuator ParenClose -> tl c = d -> parse0 F_statement g d = ok r ->
  parse0 F_for g i = ok r.
Proof.
  intros T0 T1 R A T2 E1 T3 E2 T4 <- E3. for_start R. rewrite A. run; kill.
Qed.
Lemma for_in_of g i h a b c r :
  tok0 i = TIdent (s2b "for") -> tok0 (tl i) = TPunctuator ParenOpen -> head_is g (tl (tl i)) h a -> snd (for_allowed h) = true ->
  is_keyword "in" (tok0 a) = true \/ is_keyword "of" (tok0 a) = true -> parse0 F_assignment (set_flag g FIn true) (tl a) = ok b ->
  tok0 b = TPunctuator ParenClose -> tl b = c -> parse0 F_statement g c = ok r ->
  parse0 F_for g i = ok r.
Proof.
  intros T0 T1 R A T2 E1 T3 <- E2. for_start R. rewrite A. unfold parse_for_in_of. destruct T2 as [T2|T2]; run; try kill.
Qed.

Ltac invert_seq :=
  repeat (match goal with
  | H : done_seq _ [] _ _ |- _ => apply i_end in H; subst
  | H : done_seq _ (T _ :: _) _ _ |- _ => let H' := fresh "T" in apply i_token in H; destruct H as [H' H]
  | H : done_seq _ (N _ _ :: _) _ _ |- _ => let H' := fresh "D" in apply i_nonterminal in H; destruct H as (? & H' & H)
  | H : done_seq _ (When _ :: _) _ _ |- _ => let H' := fresh "W" in apply i_when in H; destruct H as [H' H]
  end; cbn [changed fold_left fst snd] in *).
Lemma starts_P p g i : starts [P p] g i = true -> tok0 i = TPunctuator p.
Proof. unfold starts. rewrite one_of_1, matches_P. apply punc_tok. Qed.
Lemma starts_K k g i : starts [K k] g i = true -> tok0 i = TIdent (s2b k).
Proof. unfold starts. rewrite one_of_1, matches_K. apply keyword_tok. Qed.
Lemma starts_KK k l g i : starts [K k; K l] g i = true -> is_keyword k (tok0 i) = true \/ is_keyword l (tok0 i) = true.
Proof. unfold starts. rewrite !one_of_cons, one_of_nil, !matches_K, orb_false_r. apply orb_true_iff. Qed.
Ltac for_facts :=
  repeat match goal with
  | H : starts [P _] _ _ = true |- _ => apply starts_P in H
  | H : starts [K _] _ _ = true |- _ => apply starts_K in H
  | H : starts [K _; K _] _ _ = true |- _ => apply starts_KK in H
  | H : done _ NStatement _ _ |- _ => pose proof (i_fn _ _ _ _ _ H eq_refl 0); clear H
  | H : done _ NAssignment _ _ |- _ => pose proof (i_fn _ _ _ _ _ H eq_refl 0); clear H
  | H : done ?g NOptExpression _ _, _ : head_is _ _ _ _ |- _ => apply opt_expression in H; destruct H
  end.
Lemma c_for : complete_at NFor.
Proof.
  cbn [complete_at fn_of]. intros g i r alpha I0 D p. cbn [prods In] in I0. decompose [or] I0; try contradiction; subst alpha; clear I0.
  all: invert_seq; for_facts.
  - destruct (for_declaration_run _ HVar _ _ _ D0) as (a & b & c & R & E). apply head_var in R; [|assumption]. clear D0. for_facts.
    eapply for_three; try eassumption; try reflexivity.
  - destruct (for_declaration_run _ HLet _ _ _ D0) as (a & b & c & R & E). apply head_let in R; [|assumption..]. clear D0. for_facts.
    eapply for_three; try eassumption; try reflexivity.
  - destruct (for_constants_run HConst _ _ _ D0) as (a & b & R). apply head_const in R; [|assumption..]. clear D0. for_facts.
    eapply for_three; try eassumption; try reflexivity.
  - apply head_expression in D0; [|assumption]. for_facts. eapply for_three; try eassumption; try reflexivity.
  - assert (exists h, head_is g (tl (tl i)) h x /\ snd (for_allowed h) = true) as (h & R & E).
    { destruct T1 as [T1|T1]; apply keyword_tok in T1.
      - destruct (for_binding_run ForVar HVar _ _ _ D0) as (a & R). apply head_var in R; [|assumption]. eexists. split; [exact R|reflexivity].
      - destruct (for_binding_run ForLexical HConst _ _ _ D0) as (a & R). apply head_const in R; [|assumption]. eexists. split; [exact R|reflexivity]. }
    eapply for_in_of; try eassumption; reflexivity.
  - destruct (for_binding_run ForLexical HLet _ _ _ D0) as (a & R). apply head_let in R; [|assumption..].
    eapply for_in_of; try eassumption; reflexivity.
  - apply head_expression in D0; [|assumption]. eapply for_in_of; try eassumption; reflexivity.
Qed.

Lemma c_binary : complete_at NBinary.
Proof.
  cbn [complete_at fn_of]. intros g i r alpha I0 D p. cbn [prods In] in I0. decompose [or] I0; try contradiction; subst alpha; clear I0.
  invert. apply fancy_flat. exists x. auto.
Qed.
Lemma operator_here g i : starts binary_operator g i = true -> precedence_here g i <> None.
Proof.
  unfold starts, precedence_here. intros H E. apply binary_none in E. destruct E as [E _]. rewrite E in H. discriminate.
Qed.
Lemma in_here g i : allow_in g = true -> is_keyword "in" (tok0 i) = true -> precedence_here g i <> None.
Proof.
  unfold precedence_here. intros H H' E. apply binary_none in E. destruct E as [_ E]. rewrite E in H' by exact H. discriminate.
Qed.
Lemma tail_run g i m r p : precedence_here g i <> None -> parse0 F_unary g (tl i) = ok m ->
  (forall p, parse0 (L_fancy p (allow_in g)) g m = ok r) -> parse0 (L_fancy p (allow_in g)) g i = ok r.
Proof.
  intros N U H. apply loop_eq. destruct (precedence_here g i) as [q|]; [|congruence]. destruct (_ && _); [exists m; auto|].
  exists r. split; [apply fancy_flat; exists m; auto|]. eapply loop_idem, (H 0).
Qed.
Lemma c_binary_tail : complete_at NBinaryTail.
Proof.
  cbn [complete_at fn_of]. intros g i r alpha I0 D p. cbn [prods In] in I0. decompose [or] I0; try contradiction; subst alpha; clear I0.
  all: invert.
  - eapply tail_run; try eassumption. eapply operator_here. eassumption.
  - eapply tail_run; try eassumption. apply in_here; [exact (eqb_prop _ _ W)|]. apply starts_K in T. rewrite T. reflexivity.
  - apply loop_stopped. unfold precedence_here. destruct (binary_precedence _ _) eqn:E; [exfalso|reflexivity].
    rewrite no_eq in W0. apply binary_some in E. apply negb_true_iff in W0. unfold starts in W0. rewrite one_of_cons, matches_K in W0.
    apply orb_false_elim in W0. destruct E as [E|[_ E]]; [rewrite E in W0|rewrite E in W0]; destruct W0; discriminate.
  - apply loop_stopped. unfold precedence_here. destruct (binary_precedence _ _) eqn:E; [exfalso|reflexivity].
    rewrite no_eq in W0. apply binary_some in E. apply negb_true_iff in W0. unfold starts in W0.
    apply eqb_prop in W. destruct E as [E|[E _]]; [rewrite E in W0; discriminate|]. change (allow_in g = false) in W. congruence.
Qed.
