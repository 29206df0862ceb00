(** Proofs that the items displayed for a tree are a phrase for it. *)
From Coq Require Import String List NArith Bool Arith Lia.
From Verif Require Import Base Tokens SpecTokens SpecHints ByteFacts Formatter SpecFormatter FormatterFacts Nodes SpecNodes NodeItems NodeTokens.
From Verif Require Import Statements SpecStatements StatementItems SpecFaithful SpecPhrases.
Import ListNotations.

Definition tk (l : list item) : list token := map tok_of l.
Lemma tk_app a b : tk (a ++ b) = tk a ++ tk b.
Proof. apply map_app. Qed.
Lemma tk_wrapped x : tk (wrapped x) = mk ParenOpen :: tk x ++ [mk ParenClose].
Proof. unfold wrapped. cbn [tk map]. fold (tk (x ++ [Mark Fp_ParenR])). rewrite tk_app. reflexivity. Qed.
Lemma tk_word k x : tk (word k :: x) = TIdent (fkeyword_text k) :: tk x.
Proof. reflexivity. Qed.
Lemma tk_mark p x : tk (Mark p :: x) = TPunctuator (pun p) :: tk x.
Proof. reflexivity. Qed.

Definition unargued (e : expression) : bool := match e with E_new_empty _ => true | _ => false end.
Definition placed (p : precedence) (e : expression) : Prop :=
  let l := tk (items p e) in
  phrase Expression_ e l /\
  (2 <= rank p -> phrase Assignment_ e l) /\
  (4 <= rank p \/ tight e = true -> phrase Left_hand e l) /\
  (18 <= rank p -> if calls e then phrase Call_ e l else
     phrase New_ e l /\ (19 <= rank p \/ unargued e = false -> phrase Member_ e l)).

Lemma left_placed p e : phrase Left_hand e (tk (items p e)) ->
  (18 <= rank p -> if calls e then phrase Call_ e (tk (items p e)) else
     phrase New_ e (tk (items p e)) /\ (19 <= rank p \/ unargued e = false -> phrase Member_ e (tk (items p e)))) -> placed p e.
Proof. intros L M. pose proof (ph_assignment _ _ L). split; [apply ph_expression; auto|]. auto. Qed.
Lemma member_placed p e : phrase Member_ e (tk (items p e)) -> calls e = false -> placed p e.
Proof. intros M C. pose proof (ph_new_member _ _ M). apply left_placed; [apply ph_left_new; auto|]. rewrite C. auto. Qed.
Lemma call_placed p e : phrase Call_ e (tk (items p e)) -> calls e = true -> placed p e.
Proof. intros M C. apply left_placed; [apply ph_left_call; auto|]. rewrite C. auto. Qed.
Lemma primary_placed p e : phrase Primary_ e (tk (items p e)) -> calls e = false -> placed p e.
Proof. intros M. apply member_placed, ph_member, M. Qed.
Lemma parenthesized_placed p e x : items p e = wrapped x -> phrase Expression_ e (tk x) -> calls e = false -> placed p e.
Proof. intros E X. apply primary_placed. rewrite E, tk_wrapped. apply ph_parenthesized, X. Qed.
Lemma not_sequence e l : phrase Expression_ e l -> sequence_ e = false -> phrase Assignment_ e l.
Proof. intros P S. inversion P; subst; [assumption|discriminate S]. Qed.

Lemma items_phrase :
  (forall e, well_formed e -> faithful e -> forall p, placed p e) /\
  (forall a, well_formed_access a -> faithful_access a -> property a (tk (items_access a))) /\
  (forall a, well_formed_argument a -> faithful_argument a -> forall p,
     2 <= rank p \/ match a with Arg_expression e | Arg_spread e => sequence_ e = false end -> passes a (tk (items_argument p a))) /\
  (forall l, well_formed_args l -> faithful_args l -> forall x, passed No_args x (tk (items_last x)) -> passed l x (tk (items_args l ++ items_last x))) /\
  (forall x, well_formed_last x -> faithful_last x -> passed No_args x (tk (items_last x))).
Proof.
  apply node_ind; cbn [well_formed well_formed_access well_formed_argument well_formed_args well_formed_last faithful faithful_access faithful_argument faithful_args faithful_last items_access items_argument items_args items_last];
    try (intros; contradiction).
  - intros value raw _ -> p. apply primary_placed; constructor.
  - intros _ _ p. apply primary_placed; constructor.
  - intros _ _ p. apply primary_placed; constructor.
  - intros [] _ _ p; apply primary_placed; constructor.
  - intros s _ _ p. apply primary_placed; constructor.
  - intros value raw _ -> p. apply primary_placed; constructor.
  - intros o IHo a IHa (Wo & Wa & _) (Fo & Fa) p. destruct (IHo Wo Fo Pr_Member) as (_ & _ & _ & M). specialize (M ltac:(cbn; lia)).
    destruct (calls o) eqn:C; [apply call_placed|apply member_placed]; cbn [items calls]; try exact C; rewrite tk_app; [apply ph_call_property|apply ph_property]; auto.
    apply M. left. cbn. lia.
  - intros a IHa Wa Fa p. apply member_placed; [|reflexivity]. cbn [items]. rewrite tk_word. apply ph_super_property; auto.
  - intros c IHc l IHl x IHx (Wc & Wl & Wx & _) ((Fc & N) & Fl & Fx) p. apply call_placed; [|reflexivity]. cbn [items]. rewrite tk_app, tk_wrapped.
    destruct (IHc Wc Fc Pr_New) as (_ & _ & _ & M). specialize (M ltac:(cbn; lia)).
    destruct (calls c); [apply ph_call_call|apply ph_call]; auto. apply M. right. destruct c; try reflexivity. destruct (N c). reflexivity.
  - intros c IHc l IHl x IHx (Wc & Wl & Wx & _) ((Fc & N) & Fl & Fx) p.
    assert (M : phrase Member_ (E_new c l x) (tk (word Fk_New :: items Pr_Member c ++ wrapped (items_args l ++ items_last x)))).
    { rewrite tk_word, tk_app, tk_wrapped. apply ph_new; auto. destruct (IHc Wc Fc Pr_Member) as (_ & _ & _ & M). rewrite N in M. apply M; cbn; lia. }
    destruct (below Pr_Member p) eqn:B.
    + eapply parenthesized_placed; [cbn [items]; rewrite B; reflexivity| |reflexivity]. apply ph_expression, ph_assignment, ph_left_new, ph_new_member, M.
    + apply member_placed; [|reflexivity]. cbn [items]. rewrite B. exact M.
  - intros c IHc Wc (Fc & N) p.
    assert (M : phrase New_ (E_new_empty c) (tk (word Fk_New :: items Pr_New c))).
    { rewrite tk_word. apply ph_new_empty. destruct (IHc Wc Fc Pr_New) as (_ & _ & _ & M). rewrite N in M. apply M; cbn; lia. }
    destruct (below Pr_New p) eqn:B.
    + eapply parenthesized_placed; [cbn [items]; rewrite B; reflexivity| |reflexivity]. apply ph_expression, ph_assignment, ph_left_new, M.
    + unfold placed. cbn zeta. apply Nat.ltb_ge in B. apply left_placed; cbn [items]; unfold below; apply Nat.ltb_ge in B; rewrite B; [apply ph_left_new, M|]. intros _. cbn [calls]. split; [exact M|].
      apply Nat.ltb_ge in B. intros [K|K]; [cbn in *; lia|discriminate K].
  - intros l IHl x IHx (Wl & Wx & _) (Fl & Fx) p. apply call_placed; [|reflexivity]. cbn [items]. rewrite tk_word, tk_wrapped. apply ph_super_call; auto.
  - intros t IHt c IHc a IHa (Wt & Wc & Wa) (Ft & Fc & Fa) p.
    assert (M : phrase Assignment_ (E_conditional t c a) (tk (items Pr_LogicalOr t ++ Mark Fp_Question :: items Pr_Assignment c ++ Mark Fp_Colon :: items Pr_Assignment a))).
    { rewrite tk_app, tk_mark, tk_app, tk_mark. apply ph_conditional; [eapply IHt|eapply IHc|eapply IHa]; auto; cbn; lia. }
    destruct (below Pr_Conditional p) eqn:B.
    + eapply parenthesized_placed; [cbn [items]; rewrite B; reflexivity| |reflexivity]. apply ph_expression, M.
    + unfold placed. cbn [items]. rewrite B. apply Nat.ltb_ge in B. cbn [rank] in B. split; [apply ph_expression, M|]. split; [auto|]. split; [intros [K|K]; [lia|discriminate K]|lia].
  - intros x IHx y IHy (Wx & Wy) (Fx & Fy) p.
    assert (M : phrase Expression_ (E_sequence x y) (tk (items Pr_Normal x ++ Mark Fp_Comma :: items Pr_Assignment y))).
    { rewrite tk_app, tk_mark. apply ph_sequence; [apply IHx; auto|eapply IHy; auto; cbn; lia]. }
    destruct (below Pr_Normal p) eqn:B.
    + eapply parenthesized_placed; [cbn [items]; rewrite B; reflexivity| |reflexivity]. exact M.
    + unfold placed. cbn [items]. rewrite B. apply Nat.ltb_ge in B. cbn [rank] in B. split; [exact M|]. split; [lia|]. split; [intros [K|K]; [lia|discriminate K]|lia].
  - intros value raw _ ->. constructor.
  - intros e IHe We Fe. rewrite tk_mark, tk_app. apply pr_computed. apply IHe; auto.
  - intros e IHe We Fe p K. apply ps_expression. destruct (IHe We Fe p) as (X & A & _). destruct K; [auto|apply not_sequence; auto].
  - intros e IHe We Fe p K. rewrite tk_mark. apply ps_spread. destruct (IHe We Fe p) as (X & A & _). destruct K; [auto|apply not_sequence; auto].
  - intros _ _ x X. exact X.
  - intros a IHa l IHl (Wa & Wl) (Fa & Fl) x X. rewrite <- app_assoc, tk_app. cbn [app]. rewrite tk_mark. apply pa_comma; [apply IHa; auto|apply IHl; auto].
  - constructor.
  - intros a IHa Wa (Fa & S). apply pa_last. apply IHa; auto.
Qed.
Lemma expression_phrase e p : well_formed e -> faithful e -> phrase Expression_ e (tk (items p e)).
Proof. intros W F. apply (proj1 items_phrase e W F p). Qed.
Lemma assignment_phrase e : well_formed e -> faithful e -> phrase Assignment_ e (tk (items Pr_Assignment e)).
Proof. intros W F. apply (proj1 items_phrase e W F Pr_Assignment). cbn. lia. Qed.

(** ** Statements *)
Lemma tk_curlied x : tk (curlied x) = in_braces (tk x).
Proof. unfold curlied. cbn [tk map]. fold (tk (x ++ [Mark Fp_CurlyR])). rewrite tk_app. reflexivity. Qed.
Lemma declarator_phrase kind d : declared kind d -> faithful_declarator d -> declares d (tk (items_declarator d)).
Proof.
  destruct d as [[w raw] [e|]]; cbn [declared faithful_declarator optional]; intros (_ & We & _) (R & Fe); unfold unraw in R; cbn [snd] in R; subst raw.
  - apply de_initialized. apply assignment_phrase; auto.
  - apply de_name.
Qed.
Lemma declarators_phrase kind ds last : Forall (declared kind) ds -> declared kind last -> Forall faithful_declarator ds -> faithful_declarator last ->
  declares_list ds last (tk (concat (map (fun d => items_declarator d ++ [Mark Fp_Comma]) ds) ++ items_declarator last)).
Proof.
  induction 1 as [|d ds Wd _ IH]; intros Wl Fs Fl; [apply dl_one; eapply declarator_phrase; eassumption|].
  inversion_clear Fs. cbn [map concat]. rewrite <- !app_assoc, tk_app. cbn [app]. rewrite tk_mark. apply dl_more; [eapply declarator_phrase; eassumption|auto].
Qed.
Lemma keyword_declares d : TIdent (fkeyword_text (declaring_keyword d)) = declares_with d.
Proof. destruct d; reflexivity. Qed.
Lemma maybe_phrase e : optional well_formed e -> optional faithful e -> maybe (phrase Expression_) e (tk (items_option (items Pr_Normal) e)).
Proof. destruct e; cbn [optional items_option]; intros W F; [apply mb_some, expression_phrase; auto|apply mb_none]. Qed.
Lemma maybe_label x : optional named x -> optional unraw x -> maybe label_ x (tk (items_option (fun x => [items_name x]) x)).
Proof. destruct x as [[w raw]|]; cbn [optional items_option]; intros _ F; [|apply mb_none]. unfold unraw in F. cbn in F. subst raw. apply mb_some. split; reflexivity. Qed.
Lemma maybe_parameter x : optional unraw x -> maybe parameter x (tk (items_option items_param x)).
Proof. destruct x as [[w raw]|]; cbn [optional items_option]; intros F; [|apply mb_none]. unfold unraw in F. cbn in F. subst raw. apply mb_some. split; reflexivity. Qed.
Lemma left_phrase l : for_left_formed l -> faithful_left l -> loops_over l (tk (items_for_left l)).
Proof.
  destruct l as [d [w raw] init|[w raw]|o a]; cbn [for_left_formed faithful_left items_for_left].
  - intros (_ & -> & _) (R & _). unfold unraw in R. cbn in R. subst raw. cbn [items_option]. rewrite tk_word, keyword_declares. apply lo_declaration.
  - intros _ R. unfold unraw in R. cbn in R. subst raw. apply lo_name.
  - intros W F. apply lo_member. apply (proj1 items_phrase _ W F Pr_Normal). right. reflexivity.
Qed.
Lemma takes_none s : takes_else (braced true s) = false.
Proof.
  induction s using statement_mut with (P0 := fun _ => True) (P1 := fun _ => True); cbn [braced takes_else]; auto.
Qed.
Lemma wrapped_head k x y : tk (word k :: wrapped x ++ y) = TIdent (fkeyword_text k) :: parenthesized (tk x) ++ tk y.
Proof. rewrite tk_word, tk_app, tk_wrapped. reflexivity. Qed.
Lemma rhs_phrase e : well_formed e -> faithful e -> sequence_ e = false -> phrase Assignment_ e (tk (items Pr_Normal e)).
Proof. intros W F S. apply not_sequence; [apply expression_phrase; auto|exact S]. Qed.

Ltac exprs := try (apply expression_phrase; assumption).
Lemma statement_phrase :
  (forall s, formed s -> faithful_statement s -> forall o, stands (braced o s) (tk (items_statement o s))) /\
  (forall l, (forall final, formed_list final l -> faithful_statements l -> stand (braced_list l) (tk (items_statements l)))) /\
  (forall l, (forall first, formed_clauses first l -> faithful_clauses l -> cases (braced_clauses l) (tk (items_clauses l)))).
Proof.
  apply statement_node_ind; cbn [formed formed_list formed_clauses faithful_statement faithful_statements faithful_clauses braced braced_list braced_clauses items_statement items_statements items_clauses].
  - intros body IH W F o. rewrite tk_curlied. apply sd_block. eapply IH; eassumption.
  - intros kind ds last (Wd & Wl) (Fd & Fl) o. unfold items_declaration. rewrite tk_word, keyword_declares, app_assoc, tk_app. apply sd_declaration. eapply declarators_phrase; eassumption.
  - intros _ _ o. apply sd_empty.
  - intros e W F o. rewrite tk_app. apply sd_expression. exprs.
  - intros e s IH (W & Fs & _) (F & Fa) o. specialize (IH Fs Fa false).
    assert (S : stands (St_if e (braced false s)) (tk (word Fk_If :: wrapped (items Pr_Normal e) ++ items_statement false s))).
    { rewrite wrapped_head. apply sd_if; [exprs|exact IH]. }
    destruct o; [|exact S]. rewrite tk_curlied. apply sd_block. rewrite <- (app_nil_r (tk _)). apply sd_more; [exact S|constructor].
  - intros e c IHc a IHa (W & (Fc & _) & (Fa & _) & _) (F & Ac & Aa) o. rewrite wrapped_head, tk_app, tk_word. apply sd_if_else; [exprs|apply IHc; auto|apply takes_none|apply IHa; auto].
  - intros i t u s IH (Wi & Wt & Wu & Fs & _) (Fi & Ft & Fu & Fa) o. rewrite wrapped_head, tk_app, tk_mark, tk_app, tk_mark. apply sd_for; [|apply maybe_phrase; auto|apply maybe_phrase; auto|apply IH; auto].
    destruct i as [[|e]|]; cbn [optional items_option items_for_init] in *; [contradiction|apply mb_some; cbn [starts]; exprs|apply mb_none].
  - intros l e s IH (Wl & (W & S) & Fs & _) (Fl & F & Fa) o. unfold items_for_head. rewrite wrapped_head, tk_app, tk_word. apply sd_for_in; [apply left_phrase; auto|exprs|apply IH; auto].
  - intros l e s IH (Wl & (W & S) & Fs & _) (Fl & F & Fa) o. unfold items_for_head. rewrite wrapped_head, tk_app, tk_word. apply sd_for_of; [apply left_phrase; auto|apply rhs_phrase; auto|apply IH; auto].
  - contradiction.
  - intros e s IH (W & Fs & _) (F & Fa) o. rewrite wrapped_head. apply sd_while; [exprs|apply IH; auto].
  - intros s IH e (W & (Fs & _) & _) (Fa & F) o. rewrite tk_word, tk_app, wrapped_head. apply sd_do; [exprs|apply IH; auto].
  - intros e c IH (W & Fc) (F & Fa) o. rewrite wrapped_head, tk_curlied. apply sd_switch; [exprs|eapply IH; eassumption].
  - intros e s IH (W & Fs & _) (F & Fa) o. rewrite wrapped_head. apply sd_with; [exprs|apply IH; auto].
  - intros [w raw] s IH (_ & Fs & _) (R & Fa) o. unfold unraw in R. cbn in R. subst raw. apply sd_labelled. apply IH; auto.
  - intros e W F o. apply sd_throw. exprs.
  - intros b IHb p h IHh (Wb & _ & _ & Wh) (Fb & Fp & Fh) o. rewrite tk_word, tk_app, tk_word, tk_app, !tk_curlied. apply sd_catch; [eapply IHb; eassumption|apply maybe_parameter; auto|eapply IHh; eassumption].
  - intros b IHb p h IHh f IHf (Wb & _ & _ & Wh & Wf) (Fb & Fp & Fh & Ff) o. rewrite tk_word, tk_app, tk_word, !tk_app, tk_word, !tk_curlied.
    apply sd_catch_finally; [eapply IHb; eassumption|apply maybe_parameter; auto|eapply IHh; eassumption|eapply IHf; eassumption].
  - intros b IHb f IHf (Wb & Wf) (Fb & Ff) o. rewrite tk_word, tk_app, tk_word, !tk_curlied. apply sd_finally; [eapply IHb; eassumption|eapply IHf; eassumption].
  - intros x W F o. unfold items_jump. rewrite tk_word, tk_app. apply sd_continue, maybe_label; auto.
  - intros x W F o. unfold items_jump. rewrite tk_word, tk_app. apply sd_break, maybe_label; auto.
  - intros e W F o. rewrite tk_word, tk_app. apply sd_return, maybe_phrase; auto.
  - intros _ _ o. apply sd_debugger.
  - intros _ _ _. apply sd_none.
  - intros s IHs l IHl final (Ws & _ & Wl) (Fs & Fl). rewrite tk_app. apply sd_more; [apply IHs; auto|eapply IHl; eassumption].
  - intros _ _ _. apply cs_none.
  - intros t c IHc l IHl first (Wt & _ & Wc & Wl) (Ft & Fc & Fl). destruct t as [e|]; cbn [optional app] in *.
    + rewrite tk_word, tk_app, tk_mark, tk_app. apply cs_case; [exprs|eapply IHc; eassumption|eapply IHl; eassumption].
    + rewrite tk_word, tk_mark, tk_app. apply cs_default; [eapply IHc; eassumption|eapply IHl; eassumption].
Qed.
