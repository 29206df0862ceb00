(** Proofs about the items displayed for statements. *)
From Coq Require Import String List NArith Bool Arith Lia.
From Verif Require Import Base Tokens SpecTokens SpecHints ByteFacts Formatter SpecFormatter FormatterFacts Nodes SpecNodes NodeItems Statements SpecStatements.
Import ListNotations.

Scheme statement_mut := Induction for statement Sort Prop
  with statements_mut := Induction for statements Sort Prop
  with clauses_mut := Induction for clauses Sort Prop.
Combined Scheme statement_node_ind from statement_mut, statements_mut, clauses_mut.

Definition curlied (l : list item) : list item := Mark Fp_CurlyL :: l ++ [Mark Fp_CurlyR].
Definition items_name (x : identifier) : item := Word (given (fst x) (snd x)).
Definition items_option {A} (f : A -> list item) (o : option A) : list item := match o with Some x => f x | None => [] end.
Definition items_initializer (p : precedence) (e : expression) : list item := Mark Fp_Eq :: items p e.
Definition items_declarator (d : declarator) : list item :=
  match d with Declarator id init => items_name id :: items_option (items_initializer Pr_Assignment) init end.
Definition items_declaration (kind : declaring) (ds : list declarator) (last : declarator) : list item :=
  word (declaring_keyword kind) :: concat (map (fun d => items_declarator d ++ [Mark Fp_Comma]) ds) ++ items_declarator last ++ [Mark Fp_Semicolon].
Definition items_for_init (i : for_init) : list item :=
  match i with Init_expression e => items Pr_Normal e | Init_declaration kind ds last => items_declaration kind ds last end.
Definition items_for_left (l : for_left) : list item :=
  match l with
  | Left_declaration kind id init => word (declaring_keyword kind) :: items_name id :: items_option (items_initializer Pr_Assignment) init
  | Left_identifier id => [items_name id]
  | Left_member object property => items Pr_Normal (E_member object property)
  end.
Definition items_for_head (l : for_left) (k : fkeyword) (rhs : expression) : list item :=
  wrapped (items_for_left l ++ word k :: items Pr_Normal rhs).
Definition items_jump (k : fkeyword) (label : option identifier) : list item :=
  word k :: items_option (fun x => [items_name x]) label ++ [Mark Fp_Semicolon].
Definition items_param (x : identifier) : list item := wrapped [items_name x].

Fixpoint items_statement (o : bool) (s : statement) : list item :=
  match s with
  | St_block body => curlied (items_statements body)
  | St_declaration kind ds last => items_declaration kind ds last
  | St_empty => [Mark Fp_Semicolon]
  | St_expression e => items Pr_Normal e ++ [Mark Fp_Semicolon]
  | St_if test consequent =>
    let l := word Fk_If :: wrapped (items Pr_Normal test) ++ items_statement false consequent in
    if o then curlied l else l
  | St_if_else test consequent alternate =>
    word Fk_If :: wrapped (items Pr_Normal test) ++ items_statement true consequent ++ word Fk_Else :: items_statement o alternate
  | St_for init test update body =>
    word Fk_For ::
    wrapped (items_option items_for_init init ++ Mark Fp_Semicolon :: items_option (items Pr_Normal) test ++
      Mark Fp_Semicolon :: items_option (items Pr_Normal) update) ++ items_statement o body
  | St_for_in lhs rhs body => word Fk_For :: items_for_head lhs Fk_In rhs ++ items_statement o body
  | St_for_of lhs rhs body => word Fk_For :: items_for_head lhs Fk_Of rhs ++ items_statement o body
  | St_for_await lhs rhs body => word Fk_For :: word Fk_Await :: items_for_head lhs Fk_Of rhs ++ items_statement o body
  | St_while test body => word Fk_While :: wrapped (items Pr_Normal test) ++ items_statement o body
  | St_do_while body test =>
    word Fk_Do :: items_statement o body ++ word Fk_While :: wrapped (items Pr_Normal test) ++ [Mark Fp_Semicolon]
  | St_switch discriminant cases =>
    word Fk_Switch :: wrapped (items Pr_Normal discriminant) ++ curlied (items_clauses cases)
  | St_with object body => word Fk_With :: wrapped (items Pr_Normal object) ++ items_statement o body
  | St_labelled label body => items_name label :: Mark Fp_Colon :: items_statement o body
  | St_throw argument => word Fk_Throw :: items Pr_Normal argument
  | St_try_catch body param handler =>
    word Fk_Try :: curlied (items_statements body) ++ word Fk_Catch :: items_option items_param param ++ curlied (items_statements handler)
  | St_try_catch_finally body param handler finalizer =>
    word Fk_Try :: curlied (items_statements body) ++ word Fk_Catch :: items_option items_param param ++ curlied (items_statements handler) ++
    word Fk_Finally :: curlied (items_statements finalizer)
  | St_try_finally body finalizer =>
    word Fk_Try :: curlied (items_statements body) ++ word Fk_Finally :: curlied (items_statements finalizer)
  | St_continue label => items_jump Fk_Continue label
  | St_break label => items_jump Fk_Break label
  | St_return value => word Fk_Return :: items_option (items Pr_Normal) value ++ [Mark Fp_Semicolon]
  | St_debugger => [word Fk_Debugger; Mark Fp_Semicolon]
  end
with items_statements (l : statements) : list item :=
  match l with No_statements => [] | Cons_statement s rest => items_statement false s ++ items_statements rest end
with items_clauses (l : clauses) : list item :=
  match l with
  | No_clauses => []
  | Cons_clause test consequent rest =>
    match test with Some e => word Fk_Case :: items Pr_Normal e | None => [word Fk_Default] end ++
    Mark Fp_Colon :: items_statements consequent ++ items_clauses rest
  end.

(** In a scope of the lowest precedence and under no restriction. *)
Definition shows (s : scope) (u : uses) (l : list item) : Prop := prints s None u = (l, None).
Lemma shows_andthen s a b x y : shows s a x -> shows s b y -> shows s (a ;; b) (x ++ y).
Proof. unfold shows. intros A B. rewrite prints_andthen, A, B. reflexivity. Qed.
Lemma shows_keyword s k : shows s (keyword_ k) [word k].
Proof. reflexivity. Qed.
Lemma shows_punct s p : shows s (punct_ p) [Mark p].
Proof. reflexivity. Qed.
Lemma shows_done s : shows s Done [].
Proof. reflexivity. Qed.
Lemma shows_name s x : shows s (fmt_identifier_node x) [items_name x].
Proof. reflexivity. Qed.
Lemma shows_parens s u l : shows (Scope Pr_Normal true false) u l -> shows s (hold L_wrap_parens u) (wrapped l).
Proof. unfold shows. intros H. rewrite prints_hold. cbn [brackets parens fst snd between]. rewrite H. reflexivity. Qed.
Lemma shows_curly s u l : shows (Scope (s_prec s) true false) u l -> shows s (hold L_wrap_curly u) (curlied l).
Proof. unfold shows. intros H. rewrite prints_hold. cbn [brackets curlies fst snd between]. rewrite H. reflexivity. Qed.
Lemma shows_option {A} (P : A -> Prop) s (f : A -> uses) g o : optional P o -> (forall x, P x -> shows s (f x) (g x)) -> shows s (fmt_option f o) (items_option g o).
Proof. intros W H. destruct o; [apply H, W|reflexivity]. Qed.
Lemma shows_expression s e : well_formed e -> shows s (fmt_expression e) (items (s_prec s) e).
Proof. intros W. apply (proj1 prints_items e W s None). Qed.
Lemma shows_required s p e : well_formed e -> shows s (hold (L_require_precedence p) (fmt_expression e)) (items p e).
Proof. intros W. unfold shows. rewrite prints_hold. cbn [brackets within]. rewrite (proj1 prints_items e W). reflexivity. Qed.
Lemma shows_under s l u x : brackets l s None = None -> match l with L_restrict_lookahead _ => False | _ => True end -> shows (within l s) u x -> shows s (hold l u) x.
Proof. unfold shows. intros B N H. rewrite prints_hold, B. destruct l; try contradiction N; rewrite H; reflexivity. Qed.
Lemma shows_initializer s e : well_formed e -> shows s (fmt_initializer e) (items_initializer Pr_Assignment e).
Proof. intros W. apply (shows_andthen _ _ _ [Mark Fp_Eq]); [apply shows_punct|apply shows_required, W]. Qed.
Lemma shows_declarator s kind d : declared kind d -> shows s (fmt_declarator d) (items_declarator d).
Proof.
  destruct d as [id init]. intros (_ & W & _). apply (shows_andthen _ _ _ [items_name id]); [apply shows_name|].
  eapply shows_option; [exact W|]. intros x. apply shows_initializer.
Qed.
Lemma shows_declaration s kind ds last : Forall (declared kind) ds -> declared kind last -> shows s (fmt_declaration kind ds last) (items_declaration kind ds last).
Proof.
  intros D L. unfold fmt_declaration, items_declaration. apply (shows_andthen _ _ _ [word (declaring_keyword kind)]); [apply shows_keyword|].
  apply shows_andthen; [|apply shows_andthen; [eapply shows_declarator, L|apply shows_punct]].
  apply shows_under; [reflexivity|exact I|]. cbn [within]. induction D as [|d ds W _ IH]; cbn [fold_right map concat]; [apply shows_done|].
  rewrite <- app_assoc. apply shows_andthen; [eapply shows_declarator, W|]. apply shows_andthen; [apply shows_punct|exact IH].
Qed.
Lemma prints_restricted_shows s r u l : shows s (hold (L_restrict_lookahead r) u) l <-> prints s (Some r) u = (l, snd (prints s (Some r) u)).
Proof.
  unfold shows. rewrite prints_hold. cbn [brackets within]. destruct (prints s (Some r) u) as [x [q|]]; cbn [fst snd]; split; congruence.
Qed.
Lemma shows_for_left s r lhs : for_left_formed lhs -> s_prec s = Pr_Normal -> shows s (hold (L_restrict_lookahead r) (fmt_for_left lhs)) (items_for_left lhs).
Proof.
  intros W P. apply prints_restricted_shows. destruct lhs as [kind id init|id|o a]; cbn [fmt_for_left items_for_left].
  - destruct W as (_ & -> & _). reflexivity.
  - reflexivity.
  - rewrite (proj1 prints_items _ W). rewrite P. reflexivity.
Qed.
Lemma shows_for_head s r lhs k rhs : for_left_formed lhs -> well_formed rhs -> shows s (fmt_for_head r lhs k rhs) (items_for_head lhs k rhs).
Proof.
  intros L R. apply shows_parens. apply shows_andthen; [apply shows_for_left; [exact L|reflexivity]|].
  apply (shows_andthen _ _ _ [word k]); [apply shows_keyword|apply shows_expression, R].
Qed.
Lemma shows_jump s k label : optional named label -> shows s (fmt_jump k label) (items_jump k label).
Proof.
  intros W. apply (shows_andthen _ _ _ [word k]); [apply shows_keyword|]. apply shows_andthen; [|apply shows_punct]. eapply shows_option; [exact W|]. intros x _. apply shows_name.
Qed.
Lemma shows_param s x : shows s (fmt_catch_param x) (items_param x).
Proof. apply shows_parens, shows_name. Qed.
Lemma shows_statement_expression s e : well_formed e -> shows s (fmt_expression_statement e) (items Pr_Normal e ++ [Mark Fp_Semicolon]).
Proof.
  intros W. unfold fmt_expression_statement. apply shows_andthen; [|apply shows_punct]. unfold shows. rewrite prints_hold. cbn [brackets within]. rewrite prints_hold. cbn [brackets within].
  rewrite (proj1 prints_items _ W). reflexivity.
Qed.

Ltac show_k k := apply (shows_andthen _ _ _ [word k]); [apply shows_keyword|].
Lemma shows_statements :
  (forall st, formed st -> forall s, s_prec s = Pr_Normal -> shows s (fmt_statement st) (items_statement (s_orphan s) st)) /\
  (forall l, forall final, formed_list final l -> forall s, s_prec s = Pr_Normal -> s_orphan s = false -> shows s (fmt_statements l) (items_statements l)) /\
  (forall l, forall first, formed_clauses first l -> forall s, s_prec s = Pr_Normal -> s_orphan s = false -> shows s (fmt_clauses l) (items_clauses l)).
Proof.
  apply statement_node_ind; cbn [formed formed_list formed_clauses fmt_statement fmt_statements fmt_clauses items_statement items_statements items_clauses].
  - intros body IH W s P. apply shows_curly. apply (IH true W); [exact P|reflexivity].
  - intros kind ds last (D & L) s _. apply shows_declaration; assumption.
  - intros _ s _. apply shows_punct.
  - intros e W s P. apply shows_statement_expression, W.
  - intros test c IH (W & Wc & _) s P.
    assert (G : forall s', s_prec s' = Pr_Normal -> s_orphan s' = false -> shows s' (keyword_ Fk_If ;; hold L_wrap_parens (fmt_expression test) ;; fmt_statement c)
      (word Fk_If :: wrapped (items Pr_Normal test) ++ items_statement false c)).
    { intros s' P' O'. show_k Fk_If. apply shows_andthen; [apply shows_parens, shows_expression, W|]. rewrite <- O'. apply IH; auto. }
    unfold shows. rewrite prints_hold. cbn [brackets]. destruct (s_orphan s) eqn:O; cbn [curlies fst snd between within]; (rewrite G; [reflexivity|assumption|auto]).
  - intros test c IHc a IHa (W & (Wc & _) & (Wa & _) & _) s P. show_k Fk_If. apply shows_andthen; [apply shows_parens, shows_expression, W|].
    apply shows_andthen; [apply shows_under; [reflexivity|exact I|]; cbn [within]; apply (IHc Wc (Scope (s_prec s) (s_in s) true)), P|]. show_k Fk_Else. apply IHa; auto.
  - intros init test update body IH (Wi & Wt & Wu & Wb & _) s P. show_k Fk_For. apply shows_andthen; [apply shows_parens|apply IH; auto].
    apply shows_andthen; [eapply shows_option; [exact Wi|]|apply (shows_andthen _ _ _ [Mark Fp_Semicolon]); [apply shows_punct|]].
    + intros i W. unfold fmt_for_init, items_for_init. apply prints_restricted_shows. rewrite prints_hold. cbn [brackets within]. destruct i as [|e]; [contradiction|].
      rewrite (proj1 prints_items _ W). reflexivity.
    + apply shows_andthen; [eapply shows_option; [exact Wt|]; intros x; apply shows_expression|].
      apply (shows_andthen _ _ _ [Mark Fp_Semicolon]); [apply shows_punct|]. eapply shows_option; [exact Wu|]. intros x; apply shows_expression.
  - intros lhs rhs body IH (L & (R & _) & Wb & _) s P. show_k Fk_For. apply shows_andthen; [apply shows_for_head; assumption|apply IH; auto].
  - intros lhs rhs body IH (L & (R & _) & Wb & _) s P. show_k Fk_For. apply shows_andthen; [apply shows_for_head; assumption|apply IH; auto].
  - contradiction.
  - intros test body IH (W & Wb & _) s P. show_k Fk_While. apply shows_andthen; [apply shows_parens, shows_expression, W|apply IH; auto].
  - intros body IH test (W & (Wb & _) & _) s P. show_k Fk_Do. apply shows_andthen; [apply IH; auto|]. show_k Fk_While.
    apply shows_andthen; [apply shows_parens, shows_expression, W|apply shows_punct].
  - intros e cases IH (W & Wc) s P. show_k Fk_Switch. apply shows_andthen; [apply shows_parens, shows_expression, W|]. apply shows_curly, (IH true Wc); [exact P|reflexivity].
  - intros e body IH (W & Wb & _) s P. show_k Fk_With. apply shows_andthen; [apply shows_parens, shows_expression, W|apply IH; auto].
  - intros label body IH (W & Wb & _) s P. apply (shows_andthen _ _ _ [items_name label]); [apply shows_name|].
    apply (shows_andthen _ _ _ [Mark Fp_Colon]); [apply shows_punct|apply IH; auto].
  - intros e W s P. show_k Fk_Throw. apply shows_required, W.
  - intros body IHb param handler IHh (Wb & _ & Wp & Wh) s P. show_k Fk_Try. apply shows_andthen; [apply shows_curly, (IHb true Wb); [exact P|reflexivity]|].
    show_k Fk_Catch. apply shows_andthen; [eapply shows_option; [exact Wp|]; intros x _; apply shows_param|]. apply shows_curly, (IHh true Wh); [exact P|reflexivity].
  - intros body IHb param handler IHh finalizer IHf (Wb & _ & Wp & Wh & Wf) s P. show_k Fk_Try. apply shows_andthen; [apply shows_curly, (IHb true Wb); [exact P|reflexivity]|].
    show_k Fk_Catch. apply shows_andthen; [eapply shows_option; [exact Wp|]; intros x _; apply shows_param|].
    apply shows_andthen; [apply shows_curly, (IHh true Wh); [exact P|reflexivity]|]. show_k Fk_Finally. apply shows_curly, (IHf true Wf); [exact P|reflexivity].
  - intros body IHb finalizer IHf (Wb & Wf) s P. show_k Fk_Try. apply shows_andthen; [apply shows_curly, (IHb true Wb); [exact P|reflexivity]|].
    show_k Fk_Finally. apply shows_curly, (IHf true Wf); [exact P|reflexivity].
  - intros label W s P. apply shows_jump, W.
  - intros label W s P. apply shows_jump, W.
  - intros value W s P. show_k Fk_Return. apply shows_andthen; [|apply shows_punct]. eapply shows_option; [exact W|]. intros x Wx. apply shows_required, Wx.
  - intros _ s P. show_k Fk_Debugger. apply shows_punct.
  - intros _ _ s _ _. apply shows_done.
  - intros st IHs l IHl final (W & _ & Wl) s P O. apply shows_andthen; [rewrite <- O; apply IHs; auto|apply (IHl final); auto].
  - intros _ _ s _ _. apply shows_done.
  - intros test c IHc l IHl first (Wt & _ & Wc & Wl) s P O. destruct test as [e|].
    + change ((word Fk_Case :: items Pr_Normal e) ++ Mark Fp_Colon :: items_statements c ++ items_clauses l)
        with (word Fk_Case :: items Pr_Normal e ++ Mark Fp_Colon :: items_statements c ++ items_clauses l).
      replace (word Fk_Case :: items Pr_Normal e ++ Mark Fp_Colon :: items_statements c ++ items_clauses l)
        with (([word Fk_Case] ++ items Pr_Normal e ++ [Mark Fp_Colon] ++ items_statements c) ++ items_clauses l) by (cbn; rewrite <- app_assoc; reflexivity).
      apply shows_andthen; [|apply (IHl false); auto]. apply shows_andthen; [apply shows_keyword|]. apply shows_andthen; [apply shows_required, Wt|].
      apply shows_andthen; [apply shows_punct|]. eapply IHc; eauto.
    + change ([word Fk_Default] ++ Mark Fp_Colon :: items_statements c ++ items_clauses l) with (([word Fk_Default] ++ [Mark Fp_Colon] ++ items_statements c) ++ items_clauses l).
      apply shows_andthen; [|apply (IHl false); auto]. apply shows_andthen; [apply shows_keyword|]. apply shows_andthen; [apply shows_punct|]. eapply IHc; eauto.
Qed.

Definition items_directives (ds : list bytes) : list item := concat (map (fun d => [Quoted d; Mark Fp_Semicolon]) ds).
Definition items_whole (ds : list bytes) (body : statements) : list item := items_directives ds ++ items_statements body.
Lemma displayed_whole ds body : formed_script ds body -> displayed (fmt_whole_script ds body) = items_whole ds body.
Proof.
  intros (D & W). enough (G : shows (Scope Pr_Normal true false) (fmt_whole_script ds body) (items_whole ds body)) by (unfold displayed; rewrite G; reflexivity).
  apply shows_under; [reflexivity|exact I|]. cbn [within s_prec s_in s_orphan]. apply shows_andthen; [|eapply (proj1 (proj2 shows_statements)); [exact W|reflexivity|reflexivity]].
  clear D. induction ds as [|d ds IH]; [apply shows_done|]. unfold items_directives. cbn [map concat fold_right]. fold (items_directives ds).
  apply (shows_andthen _ _ _ [Quoted d]); [reflexivity|]. apply (shows_andthen _ _ _ [Mark Fp_Semicolon]); [apply shows_punct|exact IH].
Qed.
