(** The tokens of displayed statements are derived by the grammar. *)
From Coq Require Import String List NArith Bool Arith Lia.
From Verif Require Import Base Tokens SpecTokens SpecHints ByteFacts ParserCore SpecParser SpecGrammar SpecLanguage
  Formatter SpecFormatter Nodes SpecNodes NodeItems NodeTokens Statements SpecStatements StatementItems.
Import ListNotations.

Definition eof : lookahead := (false, TEOF).
Lemma toks_cons i l : toks (i :: l) = (false, tok_of i) :: toks l.
Proof. reflexivity. Qed.
Lemma toks_curlied x : toks (curlied x) = pp CurlyOpen :: toks x ++ [pp CurlyClose].
Proof. unfold curlied. rewrite toks_cons, toks_app. reflexivity. Qed.
Lemma toks_word k l : toks (word k :: l) = kw k :: toks l.
Proof. reflexivity. Qed.
Lemma toks_mark p l : toks (Mark p :: l) = pp (pun p) :: toks l.
Proof. reflexivity. Qed.
Ltac flat := repeat first [rewrite toks_wrapped | rewrite toks_curlied | rewrite toks_word | rewrite toks_mark | rewrite toks_cons | rewrite toks_app | rewrite <- app_assoc | progress cbn [app pun] | progress change (toks []) with (@nil lookahead)].

(** ** Expressions *)
Lemma expression_derived b e m : well_formed e -> headed b closers m -> derives (g0 b) NExpression (toks (items Pr_Normal e) ++ m) m.
Proof. intros W H. apply listed_expression; [apply (proj1 items_suited e W Pr_Normal)|exact H]. Qed.
Lemma expression_starts e : well_formed e -> start (toks (items Pr_Normal e)).
Proof. intros W. apply listed_start, (proj1 items_suited e W Pr_Normal). Qed.
Lemma assignment_derived b e m : well_formed e -> headed b enders m -> derives (g0 b) NAssignment (toks (items Pr_Assignment e) ++ m) m.
Proof. intros W H. apply (proj1 (proj2 (proj1 items_suited e W Pr_Assignment))); [cbn; lia|exact H]. Qed.
Lemma no_sequence e : sequence_ e = false -> items Pr_Normal e = items Pr_Assignment e.
Proof. destruct e; try reflexivity. discriminate. Qed.
Lemma expression_mark b e p m : well_formed e -> In p closers -> derives (g0 b) NExpression (toks (items Pr_Normal e) ++ pp p :: m) (pp p :: m).
Proof. intros W H. apply expression_derived; [exact W|apply headed_mark, H]. Qed.
Lemma optional_derived o p m : optional well_formed o -> In p [Semicolon; ParenClose] ->
  derives (g0 false) NOptExpression (toks (items_option (items Pr_Normal) o) ++ pp p :: m) (pp p :: m).
Proof.
  intros W H. destruct o as [e|]; cbn [items_option].
  - production 0. nonterminal; [|apply d_end]. apply expression_mark; [exact W|]. cbn in *. intuition.
  - production 1. cond; [cbn in H; destruct H as [<-|[<-|[]]]; reflexivity|apply d_end].
Qed.

(** ** Declarations *)
Lemma bindable_name g w : g = g0 true \/ g = g0 false -> variable w -> one_of g [Bind] (TIdent w) = true.
Proof. intros G V. unfold one_of. cbn [existsb matches]. destruct G as [->| ->]; [rewrite (variable_bindable w V)|change (bindable (g0 false) w) with (bindable (g0 true) w); rewrite (variable_bindable w V)]; reflexivity. Qed.
Lemma initializer_derived b e m : well_formed e -> headed b enders m -> derives (g0 b) NInitializer (toks (items_initializer Pr_Assignment e) ++ m) m.
Proof. intros W H. unfold items_initializer. flat. production 0. terminal. nonterminal; [apply assignment_derived; assumption|apply d_end]. Qed.
Definition lexical_kind (kind : declaring) : bool := match kind with D_const => true | _ => false end.
Lemma headed_not_eq b m g : headed b [Comma; Semicolon] m -> no [P Eq_] g m = true.
Proof. intros H. heads H; reflexivity. Qed.
Lemma declarator_lexical kind d m : kind <> D_var -> declared kind d -> headed false [Comma; Semicolon] m ->
  derives (g0 false) (NLexical (lexical_kind kind)) (toks (items_declarator d) ++ m) m.
Proof.
  intros K W H. destruct d as [id [e|]]; destruct W as (V & We & C); cbn [items_declarator items_option]; flat.
  - production 1. apply d_token; [apply bindable_name; auto|]. nonterminal; [|apply d_end]. apply initializer_derived; [exact We|].
    apply (headed_weaker false [Comma; Semicolon]); [cbn; intuition|exact H].
  - destruct kind; [contradiction| |destruct (C eq_refl eq_refl)]. production 2. apply d_token; [apply bindable_name; auto|]. cond; [eapply headed_not_eq, H|apply d_end].
Qed.
Lemma declarator_variable d m : declared D_var d -> headed true [Comma; Semicolon] m -> derives (g0 true) NVariable (toks (items_declarator d) ++ m) m.
Proof.
  intros W H. destruct d as [id [e|]]; destruct W as (V & We & C); cbn [items_declarator items_option]; flat.
  - production 1. apply d_token; [apply bindable_name; auto|]. nonterminal; [|apply d_end]. apply initializer_derived; [exact We|].
    apply (headed_weaker true [Comma; Semicolon]); [cbn; intuition|exact H].
  - production 2. apply d_token; [apply bindable_name; auto|]. cond; [eapply headed_not_eq, H|apply d_end].
Qed.
(** The declarators behind the first one, each with a comma in front. *)
Definition commas (ds : list declarator) : tokens := concat (map (fun d => pp Comma :: toks (items_declarator d)) ds).
Lemma commas_headed b ds m : headed b [Comma; Semicolon] (commas ds ++ pp Semicolon :: m).
Proof. destruct ds; cbn; apply headed_mark; cbn; auto. Qed.
Lemma declarators_shifted ds last : exists d ds', toks (concat (map (fun d => items_declarator d ++ [Mark Fp_Comma]) ds) ++ items_declarator last) = toks (items_declarator d) ++ commas ds' /\
  forall P : declarator -> Prop, Forall P ds -> P last -> P d /\ Forall P ds'.
Proof.
  induction ds as [|d ds (d' & ds' & Q & H)]; cbn [map concat app].
  - exists last, []. split; [rewrite app_nil_r; reflexivity|]. auto.
  - exists d, (d' :: ds'). split.
    + rewrite <- !app_assoc, toks_app. f_equal. cbn [app]. rewrite toks_mark, Q. unfold commas. cbn [map concat]. reflexivity.
    + intros P D L. inversion D; subst. destruct (H P) as (A & B); auto.
Qed.
Lemma declaration_node kind ds last m : Forall (declared kind) ds -> declared kind last -> kind <> D_var ->
  derives (g0 false) (match kind with D_let => NLet | _ => NConst end) (toks (items_declaration kind ds last) ++ m) m.
Proof.
  intros D L K. unfold items_declaration. rewrite app_assoc. flat. destruct (declarators_shifted ds last) as (d & ds' & Q & H). rewrite app_assoc, <- toks_app, Q, <- app_assoc.
  destruct (H _ D L) as (Wd & Ws). clear Q H D L.
  assert (T : derives (g0 false) (NLexicalTail (lexical_kind kind)) (commas ds' ++ pp Semicolon :: m) (pp Semicolon :: m)).
  { induction Ws as [|x zs W _ IH]; [production 1; cond; [reflexivity|apply d_end]|]. unfold commas. cbn [map concat app]. fold (commas zs). rewrite <- app_assoc.
    production 0. terminal. nonterminal; [apply declarator_lexical; [exact K|exact W|apply commas_headed]|]. nonterminal; [exact IH|apply d_end]. }
  pose proof (declarator_lexical kind d _ K Wd (commas_headed false ds' m)) as F.
  destruct kind; [contradiction| |]; production 0; terminal;
    (nonterminal; [exact F|]); (nonterminal; [exact T|]); apply d_semicolon, d_end.
Qed.
Lemma declaration_item kind ds last m : Forall (declared kind) ds -> declared kind last -> kind <> D_var ->
  derives (g0 false) NDeclaration (toks (items_declaration kind ds last) ++ m) m.
Proof.
  intros D L K. pose proof (declaration_node kind ds last m D L K) as X.
  destruct kind; [contradiction|production 2|production 3]; (nonterminal; [exact X|apply d_end]).
Qed.
Lemma variable_statement ds last m : Forall (declared D_var) ds -> declared D_var last ->
  derives (g0 false) NVariableStatement (toks (items_declaration D_var ds last) ++ m) m.
Proof.
  intros D L. unfold items_declaration. rewrite app_assoc. flat. destruct (declarators_shifted ds last) as (d & ds' & Q & H). rewrite app_assoc, <- toks_app, Q, <- app_assoc.
  destruct (H _ D L) as (Wd & Ws). clear Q H D L.
  assert (T : derives (g0 false) NVariableTail (commas ds' ++ pp Semicolon :: m) (pp Semicolon :: m)).
  { induction Ws as [|x zs W _ IH]; [production 1; cond; [reflexivity|apply d_end]|]. unfold commas. cbn [map concat app]. fold (commas zs). rewrite <- app_assoc.
    production 0. terminal. nonterminal; [apply declarator_variable; [exact W|apply commas_headed]|]. nonterminal; [exact IH|apply d_end]. }
  production 0. terminal. nonterminal; [apply declarator_variable; [exact Wd|apply commas_headed]|]. nonterminal; [exact T|]. apply d_semicolon, d_end.
Qed.

(** ** Statements *)
Definition after (orphan : bool) (m : tokens) : Prop :=
  one_of no_parameters [K "finally"] (snd (next m)) = false /\ (orphan = false -> one_of no_parameters [K "else"] (snd (next m)) = false).
Definition at_end (m : tokens) : Prop := exists m', m = pp CurlyClose :: m' \/ m = eof :: m'.
Lemma at_end_headed b m : at_end m -> headed b closers m.
Proof. intros (m' & [->| ->]); [apply headed_mark; cbn; auto 20|]. eexists _, _. split; [reflexivity|]. right. left. reflexivity. Qed.
Lemma after_weaker o m : after false m -> after o m.
Proof. intros (A & B). split; auto. Qed.
Lemma throwing_weaker s : ends_throwing true s = true -> ends_throwing false s = true.
Proof. induction s; cbn [ends_throwing negb andb]; auto; discriminate. Qed.
Lemma throwing_any o s : ends_throwing o s = true -> ends_throwing false s = true.
Proof. destruct o; [apply throwing_weaker|auto]. Qed.

(** What a statement begins with. *)
Definition leads (s : bool) (x : tokens) : Prop := exists t x', x = (false, t) :: x' /\ one_of no_parameters [K "else"; K "finally"] t = false /\
  (s = false -> one_of no_parameters declaration_keyword t = false).
Lemma leads_after s x m o : leads s x -> after o (x ++ m).
Proof.
  intros (t & x' & -> & N & _). unfold after. cbn [app next hd snd]. unfold one_of in *. cbn [existsb] in *. rewrite !orb_false_r in *. apply orb_false_iff in N. split; [|intros _]; apply N.
Qed.
Lemma start_leads s x y : start x -> leads s (x ++ y).
Proof. intros (t & a' & -> & (_ & _ & _ & D & _ & E & _) & _). exists t, (a' ++ y). auto. Qed.
Lemma statement_leads s : formed s -> forall o, leads (lexical s) (toks (items_statement o s)).
Proof.
  assert (W : forall k b l, In k [Fk_If; Fk_For; Fk_While; Fk_Do; Fk_Switch; Fk_With; Fk_Throw; Fk_Try; Fk_Continue; Fk_Break; Fk_Return; Fk_Debugger; Fk_Var] ->
    leads b (toks (word k :: l))).
  { intros k b l H. eexists _, _. split; [reflexivity|]. cbn in H. repeat (destruct H as [<-|H]); try contradiction; split; auto. }
  destruct s; cbn [formed items_statement lexical]; intros F o; try contradiction F; try (apply W; cbn; tauto);
    try (eexists _, _; split; [reflexivity|]; split; [reflexivity|]; intros _; reflexivity).
  - destruct kind; [apply W; cbn; tauto| |]; (eexists _, _; split; [reflexivity|]; split; [reflexivity|]; discriminate).
  - rewrite toks_app. apply start_leads, expression_starts, F.
  - destruct o; [|apply W; cbn; tauto]. eexists _, _. split; [reflexivity|]. split; reflexivity.
  - destruct F as (V & _). change (toks (items_name label :: Mark Fp_Colon :: items_statement o s)) with ([(false, TIdent (given (fst label) (snd label)))] ++ toks (Mark Fp_Colon :: items_statement o s)).
    apply start_leads, one_start, variable_start, V.
Qed.

Definition in_place (o : bool) (s : statement) (m : tokens) : Prop := after o m /\ (ends_throwing o s = true -> at_end m).
Definition derived_statement (o : bool) (s : statement) : Prop := forall m, in_place o s m -> derives (g0 false) NStatement (toks (items_statement o s) ++ m) m.
Definition list_end (m : tokens) : Prop := after false m /\ no_item (g0 false) m = true.
Definition derived_list (final : bool) (l : statements) : Prop := forall m, list_end m -> (final = true -> at_end m) ->
  derives (g0 false) NStatementList (toks (items_statements l) ++ m) m.
Lemma curly_end m : list_end (pp CurlyClose :: m) /\ at_end (pp CurlyClose :: m).
Proof. split; [repeat split|exists m; auto]. Qed.
Lemma block_derived l m : derived_list true l -> derives (g0 false) NBlock (toks (curlied (items_statements l)) ++ m) m.
Proof. intros D. flat. production 0. terminal. nonterminal; [apply D; [apply curly_end|intros _; apply curly_end]|]. terminal. apply d_end. Qed.

Lemma item_derived n s m : n = NScriptItem \/ n = NStatementListItem -> formed s -> (lexical s = false -> derived_statement false s) -> in_place false s m ->
  derives (g0 false) n (toks (items_statement false s) ++ m) m.
Proof.
  intros N F D M. destruct (lexical s) eqn:L.
  - destruct s as [|kind ds last| | | | | | | | | | | | | | | | | | | | |]; try discriminate L. destruct F as (Fd & Fl).
    assert (X : derives (g0 false) NDeclaration (toks (items_declaration kind ds last) ++ m) m) by (apply declaration_item; auto; intros ->; discriminate L).
    destruct N as [->| ->]; production 0; (nonterminal; [exact X|apply d_end]).
  - pose proof (statement_leads s F false) as (t & x' & Q & _ & K). specialize (D eq_refl m M). rewrite Q in *. rewrite L in K.
    destruct N as [->| ->]; production 1; (cond; [unfold no; cbn [app next hd snd]; change (g0 false) with no_parameters; rewrite K; reflexivity|]); (nonterminal; [exact D|apply d_end]).
Qed.
Lemma list_cons final s l : formed s -> (lexical s = false -> derived_statement false s) -> (ends_throwing false s = true -> final = true /\ l = No_statements) ->
  formed_list final l -> derived_list final l -> derived_list final (Cons_statement s l).
Proof.
  intros F D T Fl Dl m M E. cbn [items_statements]. rewrite toks_app, <- app_assoc. production 0. nonterminal; [|nonterminal; [apply Dl; [exact M|exact E]|apply d_end]].
  apply item_derived; auto. split.
  - destruct l as [|s' l]; [apply M|]. cbn [items_statements]. rewrite toks_app, <- app_assoc. eapply leads_after, statement_leads, Fl.
  - intros K. destruct (T K) as (-> & ->). apply E. reflexivity.
Qed.

Lemma after_mark o p m : after o (pp p :: m).
Proof. split; [|intros _]; reflexivity. Qed.
(** The head of a statement: a word and an expression in parentheses. *)
Lemma expression_closed e m : well_formed e -> derives (g0 true) NExpression (toks (items Pr_Normal e) ++ pp ParenClose :: m) (pp ParenClose :: m).
Proof. intros W. apply expression_mark; [exact W|cbn; auto]. Qed.
Lemma one_of_false g l t u : one_of g l t = false -> In u l -> matches g u t = false.
Proof. unfold one_of. intros E I. destruct (matches g u t) eqn:M; [|reflexivity]. rewrite <- E. symmetry. apply existsb_exists. exists u. auto. Qed.
Lemma start_for y m : start y -> both (no [K "var"; K "const"]) no_for_let (g0 false) (y ++ m) = true.
Proof.
  intros (t & y' & -> & (_ & _ & _ & D & S & _) & _). unfold both, no, no_for_let, for_let, pair. cbn [app next hd snd fst tl].
  unfold one_of at 1 2. cbn [existsb]. change (g0 false) with no_parameters.
  rewrite (one_of_false _ _ _ (K "var") S), (one_of_false _ _ _ (K "const") D), (one_of_false _ _ _ (K "let") D) by (cbn; tauto). reflexivity.
Qed.
Lemma for_each lhs k rhs x m r : for_left_formed lhs -> k = Fk_In \/ k = Fk_Of -> well_formed rhs -> sequence_ rhs = false ->
  derives (g0 false) NStatement (x ++ m) r ->
  derives (g0 false) NFor (toks (word Fk_For :: items_for_head lhs k rhs) ++ x ++ m) r.
Proof.
  intros L Kk R Q D. unfold items_for_head. flat.
  assert (KW : one_of (g0 false) [K "in"; K "of"] (TIdent (fkeyword_text k)) = true) by (destruct Kk; subst; reflexivity).
  assert (A : derives (g0 true) NAssignment (toks (items Pr_Normal rhs) ++ pp ParenClose :: x ++ m) (pp ParenClose :: x ++ m)).
  { rewrite (no_sequence rhs Q). apply assignment_derived; [exact R|apply headed_paren]. }
  assert (KN : forall l, no l (g0 false) (kw k :: toks (items Pr_Normal rhs) ++ pp ParenClose :: x ++ m) = negb (one_of (g0 false) l (TIdent (fkeyword_text k)))) by reflexivity.
  assert (E : forall y, listed y -> derives (g0 false) NFor (kw Fk_For :: pp ParenOpen :: y ++ kw k :: toks (items Pr_Normal rhs) ++ pp ParenClose :: x ++ m) r).
  { intros y Y. production 6. terminal. terminal. cond; [apply start_for, listed_start, Y|].
    apply d_nonterminal with (m := kw k :: toks (items Pr_Normal rhs) ++ pp ParenClose :: x ++ m).
    - change (changed (g0 false) [(FIn, false)]) with (g0 false). production 0. nonterminal; [|apply d_end]. apply listed_expression; [exact Y|].
      eexists _, _. split; [reflexivity|]. right. right. split; [reflexivity|]. destruct Kk; subst; auto.
    - apply d_token; [exact KW|]. nonterminal; [exact A|]. terminal. nonterminal; [exact D|apply d_end]. }
  destruct lhs as [kind id init|id|o a]; cbn [items_for_left for_left_formed] in *.
  - destruct L as (V & -> & O). cbn [items_option]. flat.
    assert (B : derives (g0 false) NForBinding ((false, TIdent (given (fst id) (snd id))) :: kw k :: toks (items Pr_Normal rhs) ++ pp ParenClose :: x ++ m) (kw k :: toks (items Pr_Normal rhs) ++ pp ParenClose :: x ++ m)).
    { production 1. apply d_token; [apply bindable_name; auto|]. cond; [rewrite KN; destruct Kk; subst; reflexivity|apply d_end]. }
    destruct kind.
    + production 4. terminal. terminal. terminal. nonterminal; [exact B|]. apply d_token; [exact KW|]. nonterminal; [exact A|]. terminal. nonterminal; [exact D|apply d_end].
    + production 5. terminal. terminal. cond.
      { unfold for_let, pair. cbn [next hd tl snd fst andb]. unfold tok_of, items_name. change (one_of (g0 false) [K "let"] (TIdent (fkeyword_text Fk_Let))) with true.
        unfold one_of. cbn [existsb matches word_in]. destruct V as (_ & P & _). unfold word_in. cbn [existsb].
        rewrite (not_word _ "in" P) by (cbn; tauto). destruct (beqb (given (fst id) (snd id)) (s2b "of")) eqn:Eo; [apply beqb_eq in Eo; destruct (O eq_refl Eo)|]. reflexivity. }
      terminal. nonterminal; [exact B|]. apply d_token; [exact KW|]. nonterminal; [exact A|]. terminal. nonterminal; [exact D|apply d_end].
    + production 4. terminal. terminal. terminal. nonterminal; [exact B|]. apply d_token; [exact KW|]. nonterminal; [exact A|]. terminal. nonterminal; [exact D|apply d_end].
  - apply E, assign_listed, lhs_assign, l_primary, variable_primary, L.
  - apply E, (proj1 items_suited (E_member o a) L Pr_Normal).
Qed.

Lemma finally_none m o : after o m -> derives (g0 false) NFinally m m.
Proof. intros (A & _). production 1. cond; [unfold no; change (g0 false) with no_parameters; rewrite A; reflexivity|apply d_end]. Qed.
Lemma clause_end l m : formed_clauses false l -> list_end (toks (items_clauses l) ++ pp CurlyClose :: m) /\
  (match l with No_clauses => true | _ => false end = true -> at_end (toks (items_clauses l) ++ pp CurlyClose :: m)).
Proof.
  destruct l as [|[e|] c l]; cbn [formed_clauses items_clauses].
  - intros _. split; [apply curly_end|intros _; apply curly_end].
  - intros (W & _). split; [|discriminate]. destruct (expression_starts e W) as (t & y & Q & (_ & _ & _ & _ & _ & _ & N) & _). flat. rewrite Q. cbn [app].
    split; [split; [|intros _]; reflexivity|]. unfold no_item, both, no_pair, pair, no. cbn [next hd tl snd fst]. rewrite (no_colon (g0 false) t N), andb_false_r. reflexivity.
  - intros (_ & K & _). discriminate (K eq_refl).
Qed.
Ltac statement := cbn [formed items_statement] in *.
Lemma derived_statements :
  (forall s, formed s -> lexical s = false -> forall o, derived_statement o s) /\
  (forall l, forall final, formed_list final l -> derived_list final l) /\
  (forall l, forall first, formed_clauses first l -> forall d m, (first = true -> d = false) ->
    derives (g0 false) (NClauses d) (toks (items_clauses l) ++ pp CurlyClose :: m) (pp CurlyClose :: m)).
Proof.
  apply statement_node_ind; cbn [formed formed_list formed_clauses].
  - intros body IH F _ o m _. statement. production 0. nonterminal; [apply block_derived, IH, F|apply d_end].
  - intros kind ds last (D & L) Lx o m _. statement. production 2. nonterminal; [|apply d_end]. destruct kind; try discriminate Lx. apply variable_statement; assumption.
  - intros _ _ o m _. statement. production 1. terminal. apply d_end.
  - intros e W _ o m _. statement. flat. pose proof (expression_mark true e Semicolon m W ltac:(cbn; auto)) as D.
    destruct (expression_starts e W) as (t & a' & Q & (_ & _ & _ & S1 & S2 & _) & C). rewrite Q in *.
    production 13. cond.
    + unfold both, no at 1, no_pair, pair. change (g0 false) with no_parameters. cbn [next hd app snd tl]. rewrite S2. cbn [negb andb].
      rewrite no_colon; [rewrite !andb_false_r; reflexivity|]. destruct a' as [|u a']; [discriminate|]. apply (C u a' eq_refl).
    + nonterminal; [|apply d_end]. production 0. eapply d_nonterminal; [exact D|]. apply d_semicolon, d_end.
  - intros test c IH (W & F & L) _ o m (A & T).
    assert (G : forall m, in_place false c m -> derives (g0 false) NIf (toks (word Fk_If :: wrapped (items Pr_Normal test) ++ items_statement false c) ++ m) m).
    { intros m' M. flat. production 1. terminal. terminal. nonterminal; [apply expression_closed, W|]. terminal. nonterminal; [apply (IH F L false), M|].
      cond; [|apply d_end]. unfold no. change (g0 false) with no_parameters. rewrite (proj2 (proj1 M) eq_refl). reflexivity. }
    destruct o; cbn [items_statement].
    + production 0. nonterminal; [|apply d_end]. rewrite toks_curlied. cbn [app]. rewrite <- app_assoc. cbn [app]. production 0. terminal.
      apply d_nonterminal with (m := pp CurlyClose :: m); [|terminal; apply d_end]. change (changed (g0 false) [(FTemplate, false)]) with (g0 false).
      set (x := toks (word Fk_If :: wrapped (items Pr_Normal test) ++ items_statement false c)) in *. production 0.
      apply d_nonterminal with (m := pp CurlyClose :: m).
      * production 1. cond; [reflexivity|]. nonterminal; [|apply d_end]. production 3. nonterminal; [|apply d_end]. apply G. split; [apply after_mark|intros _; apply curly_end].
      * nonterminal; [|apply d_end]. production 1. cond; [reflexivity|apply d_end].
    + production 3. nonterminal; [apply G|apply d_end]. split; [exact A|exact T].
  - intros test c IHc a IHa (W & (Fc & Lc) & (Fa & La) & N) _ o m (A & T). statement. flat. production 3. nonterminal; [|apply d_end]. production 0. terminal. terminal.
    nonterminal; [apply expression_closed, W|]. terminal. nonterminal; [apply (IHc Fc Lc true); split; [split; [reflexivity|discriminate]|rewrite N; discriminate]|].
    terminal. nonterminal; [apply (IHa Fa La o); split; assumption|apply d_end].
  - intros init test update body IH (Wi & Wt & Wu & F & L) _ o m (A & Th). statement. flat. production 4. nonterminal; [|apply d_end]. production 0. nonterminal; [|apply d_end]. production 2. nonterminal; [|apply d_end].
    set (rest := pp ParenClose :: toks (items_statement o body) ++ m).
    assert (B : derives_seq (g0 false) [N NOptExpression []; T [P Semicolon]; N NOptExpression []; T [P ParenClose]; N NStatement []]
      (toks (items_option (items Pr_Normal) test) ++ pp Semicolon :: toks (items_option (items Pr_Normal) update) ++ rest) m).
    { nonterminal; [apply optional_derived; [exact Wt|cbn; auto]|]. terminal. nonterminal; [apply optional_derived; [exact Wu|cbn; auto]|]. terminal.
      nonterminal; [apply (IH F L o); split; assumption|apply d_end]. }
    production 3. terminal. terminal. cond.
    + destruct init as [[|e]|]; cbn [items_option items_for_init optional] in *; [contradiction| |reflexivity]. apply start_for, expression_starts, Wi.
    + apply d_nonterminal with (m := pp Semicolon :: toks (items_option (items Pr_Normal) test) ++ pp Semicolon :: toks (items_option (items Pr_Normal) update) ++ rest);
        [change (changed (g0 false) [(FIn, false)]) with (g0 false)|terminal; exact B].
      destruct init as [[|e]|]; cbn [items_option items_for_init optional] in *; [contradiction| |].
      * apply (optional_derived (Some e)); [exact Wi|cbn; auto].
      * apply (optional_derived None); [exact I|cbn; auto].
  - intros lhs rhs body IH (Wl & (R & Q) & F & L) _ o m M. statement. rewrite app_comm_cons, toks_app, <- app_assoc. production 4. nonterminal; [|apply d_end]. production 0. nonterminal; [|apply d_end].
    production 2. nonterminal; [|apply d_end]. apply for_each; auto. apply (IH F L o), M.
  - intros lhs rhs body IH (Wl & (R & Q) & F & L) _ o m M. statement. rewrite app_comm_cons, toks_app, <- app_assoc. production 4. nonterminal; [|apply d_end]. production 0. nonterminal; [|apply d_end].
    production 2. nonterminal; [|apply d_end]. apply for_each; auto. apply (IH F L o), M.
  - contradiction.
  - intros test body IH (W & F & L) _ o m M. statement. flat. production 4. nonterminal; [|apply d_end]. production 0. nonterminal; [|apply d_end]. production 1. nonterminal; [|apply d_end].
    production 0. terminal. terminal. nonterminal; [apply expression_closed, W|]. terminal. nonterminal; [apply (IH F L o), M|apply d_end].
  - intros body IH test (W & (F & L) & N) _ o m M. statement. flat. production 4. nonterminal; [|apply d_end]. production 0. nonterminal; [|apply d_end]. production 0. nonterminal; [|apply d_end].
    production 0. terminal. nonterminal; [apply (IH F L o); split; [split; [|intros _]; reflexivity|intros K; apply throwing_any in K; congruence]|].
    terminal. terminal. nonterminal; [apply expression_closed, W|]. terminal. apply d_semicolon, d_end.
  - intros e cases IH (W & F) _ o m _. statement. flat. production 4. nonterminal; [|apply d_end]. production 1. nonterminal; [|apply d_end].
    production 0. terminal. terminal. nonterminal; [apply expression_closed, W|]. terminal. terminal. nonterminal; [apply (IH true F); auto|]. terminal. apply d_end.
  - intros e body IH (W & F & L) _ o m M. statement. flat. production 8. nonterminal; [|apply d_end].
    production 0. terminal. terminal. nonterminal; [apply expression_closed, W|]. terminal. nonterminal; [apply (IH F L o), M|apply d_end].
  - intros label body IH (V & F & L) _ o m M. statement. flat. production 12. cond.
    + destruct (variable_start _ V) as (_ & _ & _ & _ & S & _). unfold no. cbn [next hd snd]. change (g0 false) with no_parameters. unfold items_name, tok_of. rewrite S. reflexivity.
    + nonterminal; [|apply d_end]. production 0. terminal. terminal. nonterminal; [apply (IH F L o), M|apply d_end].
  - intros e W _ o m (_ & T). statement. flat. production 9. nonterminal; [|apply d_end]. production 0. terminal.
    cond; [destruct (expression_starts e W) as (t & a' & Q & _); rewrite Q; reflexivity|]. nonterminal; [apply expression_derived; [exact W|apply at_end_headed, T; reflexivity]|apply d_end].
  - intros body IHb param handler IHh (Fb & N & Wp & Fh) _ o m (A & _). statement. destruct param as [x|]; [|contradiction]. cbn [items_option]. unfold items_param.
    rewrite toks_word. cbn [app]. rewrite toks_app, <- app_assoc, toks_word. cbn [app]. rewrite toks_app, <- app_assoc, toks_wrapped. cbn [toks map app].
    production 10. nonterminal; [|apply d_end]. production 0. terminal. nonterminal; [apply block_derived, IHb, Fb|]. terminal. terminal.
    nonterminal; [production 1; apply d_token; [apply bindable_name; auto|apply d_end]|]. terminal. nonterminal; [apply block_derived, IHh, Fh|]. nonterminal; [eapply finally_none, A|apply d_end].
  - intros body IHb param handler IHh finalizer IHf (Fb & N & Wp & Fh & Ff) _ o m (A & _). statement. destruct param as [x|]; [|contradiction]. cbn [items_option]. unfold items_param.
    rewrite toks_word. cbn [app]. rewrite toks_app, <- app_assoc, toks_word. cbn [app]. rewrite toks_app, <- app_assoc, toks_wrapped, toks_app, <- app_assoc, toks_word. cbn [toks map app].
    production 10. nonterminal; [|apply d_end]. production 0. terminal. nonterminal; [apply block_derived, IHb, Fb|]. terminal. terminal.
    nonterminal; [production 1; apply d_token; [apply bindable_name; auto|apply d_end]|]. terminal. nonterminal; [apply block_derived, IHh, Fh|].
    nonterminal; [|apply d_end]. production 0. terminal. nonterminal; [apply block_derived, IHf, Ff|apply d_end].
  - intros body IHb finalizer IHf (Fb & Ff) _ o m (A & _). statement. rewrite toks_word. cbn [app]. rewrite toks_app, <- app_assoc, toks_word. cbn [app].
    production 10. nonterminal; [|apply d_end]. production 1. terminal. nonterminal; [apply block_derived, IHb, Fb|]. cond; [reflexivity|].
    nonterminal; [|apply d_end]. production 0. terminal. nonterminal; [apply block_derived, IHf, Ff|apply d_end].
  - intros label W _ o m _. statement. unfold items_jump. production 5. nonterminal; [|apply d_end]. destruct label as [x|]; cbn [items_option]; flat.
    + production 0. terminal. cond; [reflexivity|]. apply d_token; [apply bindable_name; auto|]. apply d_semicolon, d_end.
    + production 1. terminal. cond; [reflexivity|]. apply d_semicolon, d_end.
  - intros label W _ o m _. statement. unfold items_jump. production 6. nonterminal; [|apply d_end]. destruct label as [x|]; cbn [items_option]; flat.
    + production 0. terminal. cond; [reflexivity|]. apply d_token; [apply bindable_name; auto|]. apply d_semicolon, d_end.
    + production 1. terminal. cond; [reflexivity|]. apply d_semicolon, d_end.
  - intros value W _ o m _. statement. production 7. nonterminal; [|apply d_end]. destruct value as [e|]; cbn [items_option]; flat.
    + production 0. terminal. cond; [destruct (expression_starts e W) as (t & a' & Q & _); rewrite Q; reflexivity|].
      nonterminal; [apply (expression_mark true); [exact W|cbn; auto]|]. apply d_semicolon, d_end.
    + production 1. terminal. cond; [reflexivity|]. apply d_semicolon, d_end.
  - intros _ _ o m _. statement. flat. production 11. nonterminal; [|apply d_end]. production 0. terminal. apply d_semicolon, d_end.
  - intros final _ m M _. cbn [items_statements toks map app]. production 1. cond; [apply M|apply d_end].
  - intros s IHs l IHl final (F & T & Fl). apply list_cons; auto.
  - intros first _ d m _. cbn [items_clauses toks map app]. destruct d; [production 1|production 2]; (cond; [reflexivity|apply d_end]).
  - intros test c IHc l IHl first (W & N & Fc & Fl) d m D. cbn [items_clauses]. destruct (clause_end l m Fl) as (E1 & E2). specialize (IHc _ Fc _ E1 E2).
    destruct test as [e|].
    + assert (B : derives (g0 false) NCaseClause (toks (word Fk_Case :: items Pr_Normal e ++ Mark Fp_Colon :: items_statements c) ++ toks (items_clauses l) ++ pp CurlyClose :: m) (toks (items_clauses l) ++ pp CurlyClose :: m)).
      { flat. production 0. terminal. nonterminal; [apply (expression_mark true); [exact W|cbn; auto]|]. terminal. nonterminal; [exact IHc|apply d_end]. }
      replace (toks ((word Fk_Case :: items Pr_Normal e) ++ Mark Fp_Colon :: items_statements c ++ items_clauses l) ++ pp CurlyClose :: m)
        with (toks (word Fk_Case :: items Pr_Normal e ++ Mark Fp_Colon :: items_statements c) ++ toks (items_clauses l) ++ pp CurlyClose :: m) by (flat; reflexivity).
      destruct d; [production 0|production 1]; (nonterminal; [exact B|]); (nonterminal; [apply (IHl false Fl); discriminate|apply d_end]).
    + assert (B : derives (g0 false) NDefaultClause (toks (word Fk_Default :: Mark Fp_Colon :: items_statements c) ++ toks (items_clauses l) ++ pp CurlyClose :: m) (toks (items_clauses l) ++ pp CurlyClose :: m)).
      { flat. production 0. terminal. terminal. nonterminal; [exact IHc|apply d_end]. }
      replace (toks ([word Fk_Default] ++ Mark Fp_Colon :: items_statements c ++ items_clauses l) ++ pp CurlyClose :: m)
        with (toks (word Fk_Default :: Mark Fp_Colon :: items_statements c) ++ toks (items_clauses l) ++ pp CurlyClose :: m) by (flat; reflexivity).
      rewrite (D (N eq_refl)). production 0. nonterminal; [exact B|]. nonterminal; [apply (IHl false Fl); discriminate|apply d_end].
Qed.

(** ** Scripts *)
Fixpoint with_directives (ds : list bytes) (body : statements) : statements :=
  match ds with [] => body | d :: ds' => Cons_statement (St_expression (E_string d (Some d))) (with_directives ds' body) end.
Lemma items_with_directives ds body : items_whole ds body = items_statements (with_directives ds body).
Proof. unfold items_whole, items_directives. induction ds as [|d ds IH]; [reflexivity|]. cbn [with_directives items_statements map concat]. rewrite <- IH. reflexivity. Qed.
Lemma formed_with_directives ds body : formed_script ds body -> formed_list true (with_directives ds body).
Proof. intros (D & F). induction D as [|d ds W _ IH]; cbn [with_directives formed_list]; [exact F|]. split; [exact W|]. split; [discriminate|exact IH]. Qed.
Lemma whole_program ds body : formed_script ds body -> program (toks (items_whole ds body) ++ [eof]).
Proof.
  intros F. apply formed_with_directives in F. rewrite items_with_directives. generalize dependent (with_directives ds body). clear ds body. intros l F.
  production 0. apply d_nonterminal with (m := [eof]); [cbn [changed fold_left]|terminal; apply d_end].
  assert (E : forall final l, formed_list final l -> final = true -> derives no_parameters NModuleItems (toks (items_statements l) ++ [eof]) [eof]); [|apply (E true l F eq_refl)].
  clear l F. intros final l. induction l as [|s l IH]; cbn [formed_list items_statements]; intros F ->.
  - production 1. cond; [reflexivity|apply d_end].
  - destruct F as (Fs & T & Fl). flat. production 0. nonterminal; [|nonterminal; [apply IH; auto|apply d_end]]. production 0. nonterminal; [|apply d_end].
    apply (item_derived NScriptItem s); auto; [intros L; apply derived_statements; auto|]. split.
    + destruct l as [|s' l]; [split; [|intros _]; reflexivity|]. cbn [items_statements]. rewrite toks_app, <- app_assoc. eapply leads_after, statement_leads, Fl.
    + intros K. destruct (T K) as (_ & ->). exists []. right. reflexivity.
Qed.
