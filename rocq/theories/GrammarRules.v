(** Rules for derivations in terms of the tests the parser makes, what success of each parse function
    means in the grammar, and the tactics of the soundness proof. *)
From Coq Require Import String List Arith NArith Bool Lia.
From Verif Require Import Base Tokens ByteFacts ParserCore ParserBody AbstractParser ParserExec ParserTerminates SpecGrammar GrammarFirst.
Import ListNotations.
Local Open Scope string_scope.

(** ** Rules for derivations, in terms of the tests of the parser *)

Lemma next_cur i : SpecGrammar.next i = cur0 i.
Proof. reflexivity. Qed.

Lemma one_of_strict g ts i : one_of g ts (tok0 i) = true -> one_of g ts TEOF = false ->
  exists nl, i = (nl, tok0 i) :: tl i.
Proof.
  intros H N. destruct i as [|[nl t] i]; [cbn in H; congruence|]. exists nl. reflexivity.
Qed.
Lemma d_tok g ts i alpha r : one_of g ts (tok0 i) = true -> one_of g ts TEOF = false ->
  derives_seq g alpha (tl i) r -> derives_seq g (T ts :: alpha) i r.
Proof.
  intros H N D. destruct (one_of_strict g ts i H N) as [nl E]. rewrite E. apply d_token; [exact H|exact D].
Qed.
Lemma d_semi g b i alpha r : is_punc Semicolon (tok0 i) = true ->
  derives_seq g alpha (tl i) r -> derives_seq g (Semi b :: alpha) i r.
Proof.
  intros H D. destruct i as [|[nl t] i]; [discriminate|]. destruct t as [[]| | | | | | | | |]; try discriminate.
  apply d_semicolon. exact D.
Qed.
Lemma d_asi g b i alpha r : is_punc Semicolon (tok0 i) = false -> asi TEOF b i = true ->
  derives_seq g alpha i r -> derives_seq g (Semi b :: alpha) i r.
Proof.
  intros H A D. apply d_inserted; [|exact A|exact D]. intros E. unfold tok in H. rewrite <- next_cur, E in H. discriminate.
Qed.

Lemma second_ident i : is_ident (tok0 i) = true -> second0 i = Some (cur0 (tl i)).
Proof. unfold second. destruct (tok0 i); try discriminate. reflexivity. Qed.
Lemma second_not_ident i : is_ident (tok0 i) = false -> second0 i = None.
Proof. unfold second. destruct (tok0 i); try discriminate; reflexivity. Qed.

Lemma pair_eq ts sl us g i : pair ts sl us g i =
  one_of g ts (tok0 i) && one_of g us (tok0 (tl i)) && negb (sl && fst (cur0 (tl i))).
Proof. reflexivity. Qed.

Lemma keyword_not_ident k t : is_ident t = false -> is_keyword k t = false.
Proof. destruct t; try discriminate; reflexivity. Qed.

Lemma one_of_1 g k t : one_of g [k] t = matches g k t.
Proof. apply orb_false_r. Qed.

Lemma async_arrow_eq g i : pair [K "async"] true [Bind] g i = maybe_async_arrow g (second0 i) && is_keyword "async" (tok0 i).
Proof.
  rewrite pair_eq, !one_of_1, matches_K, matches_Bind. destruct (is_ident (tok0 i)) eqn:I.
  - rewrite second_ident by exact I. unfold tok at 2. destruct (cur0 (tl i)) as [[] [ | | | | |n| | | |]]; cbn [fst snd maybe_async_arrow is_binding_token negb andb];
      rewrite ?andb_false_r, ?andb_true_r; try reflexivity. apply andb_comm.
  - rewrite second_not_ident, keyword_not_ident by exact I. reflexivity.
Qed.
Lemma async_function_eq g i : async_function g i = maybe_async_function (second0 i) && is_keyword "async" (tok0 i).
Proof.
  unfold async_function. rewrite pair_eq, !one_of_1, !matches_K. destruct (is_ident (tok0 i)) eqn:I.
  - rewrite second_ident by exact I. unfold tok at 2. destruct (cur0 (tl i)) as [[] [ | | | | |n| | | |]]; cbn [fst snd maybe_async_function is_keyword negb andb];
      rewrite ?andb_false_r, ?andb_true_r; try reflexivity. apply andb_comm.
  - rewrite second_not_ident, keyword_not_ident by exact I. reflexivity.
Qed.
Lemma function_function_eq g i : pair [K "function"] true [K "function"] g i = maybe_async_function (second0 i) && is_keyword "function" (tok0 i).
Proof.
  rewrite pair_eq, !one_of_1, !matches_K. destruct (is_ident (tok0 i)) eqn:I.
  - rewrite second_ident by exact I. unfold tok at 2. destruct (cur0 (tl i)) as [[] [ | | | | |n| | | |]]; cbn [fst snd maybe_async_function is_keyword negb andb];
      rewrite ?andb_false_r, ?andb_true_r; try reflexivity. apply andb_comm.
  - rewrite second_not_ident, keyword_not_ident by exact I. reflexivity.
Qed.
Lemma name_function_eq g i : pair [Name] true [K "function"] g i = maybe_async_function (second0 i).
Proof.
  rewrite pair_eq, !one_of_1, !matches_K, matches_Name. destruct (is_ident (tok0 i)) eqn:I.
  - rewrite second_ident by exact I. unfold tok. destruct (cur0 (tl i)) as [[] [ | | | | |n| | | |]]; cbn [fst snd maybe_async_function is_keyword negb andb];
      rewrite ?andb_false_r, ?andb_true_r; try reflexivity.
  - rewrite second_not_ident by exact I. reflexivity.
Qed.
Lemma no_function_start_eq g i : no_function_start g i = negb (function_starts i).
Proof.
  unfold no_function_start, function_starts. rewrite async_function_eq, name_function_eq, one_of_1, matches_K.
  fold (tok0 i). destruct (maybe_async_function (second0 i)); cbn [andb negb]; rewrite ?andb_false_r, ?andb_true_r; reflexivity.
Qed.
Lemma labelled_eq g i : pair [Name] false [P Colon] g i = label_starts i.
Proof.
  rewrite pair_eq, !one_of_1, !matches_P, matches_Name. unfold label_starts. destruct (is_ident (tok0 i)) eqn:I.
  - rewrite second_ident by exact I. unfold tok. destruct (cur0 (tl i)) as [[] [[]| | | | | | | | |]]; reflexivity.
  - rewrite second_not_ident by exact I. reflexivity.
Qed.
Lemma for_let_eq g i : for_let g i = for_maybe_decl (second0 i) && is_keyword "let" (tok0 i).
Proof.
  unfold for_let. rewrite pair_eq, one_of_1, matches_K. destruct (is_ident (tok0 i)) eqn:I.
  - rewrite second_ident by exact I. unfold tok at 2. destruct (cur0 (tl i)) as [nl [p| | | | |n| | | |]]; cbn [fst snd for_maybe_decl negb andb];
      rewrite ?andb_false_r, ?andb_true_r; try reflexivity.
    + destruct p; cbn; rewrite ?andb_false_r, ?andb_true_r; reflexivity.
    + rewrite andb_comm, !one_of_cons. cbn [matches word_in existsb]. unfold one_of. cbn [existsb].
      fold (kw "in" n) (kw "of" n). destruct (kw "in" n), (kw "of" n); reflexivity.
  - rewrite second_not_ident, keyword_not_ident by exact I. reflexivity.
Qed.

(** ** The conditions of the grammar, proved from the tests of the parser *)
Lemma no_eq l g i : no l g i = negb (starts l g i).
Proof. reflexivity. Qed.
Lemma property_name_start_eq g i : starts property_name_start g i =
  (is_ident (tok0 i) || is_string (tok0 i) || is_numeric (tok0 i) || is_punc SquareOpen (tok0 i)).
Proof.
  unfold starts, property_name_start. rewrite !one_of_cons, one_of_nil, !matches_P, matches_Name, matches_Num, matches_Str.
  rewrite !orb_false_r, !orb_assoc. reflexivity.
Qed.
Lemma pattern_start_eq g i : starts pattern_start g i = (is_punc CurlyOpen (tok0 i) || is_punc SquareOpen (tok0 i)).
Proof. unfold starts, pattern_start. rewrite !one_of_cons, one_of_nil, !matches_P, !orb_false_r. reflexivity. Qed.
Lemma template_start_eq g i : starts [TplWhole; TplHead] g i = is_template_start (tok0 i).
Proof. unfold starts. rewrite !one_of_cons, one_of_nil. destruct (tok0 i) as [| | | | | | | |[]|]; reflexivity. Qed.

Lemma no_line_break_eq g i : no_line_break g i = negb (fst (cur0 i)).
Proof. reflexivity. Qed.
Lemma line_break_eq g i : line_break g i = fst (cur0 i).
Proof. reflexivity. Qed.
Lemma unary_unknown t : unary_type_of t = UUnknown ->
  is_keyword "await" t = false /\ is_punc Plus t = false /\ is_punc Minus t = false /\ is_punc Tilde t = false /\ is_punc Exclam t = false /\ is_keyword "delete" t = false /\ is_keyword "void" t = false /\ is_keyword "typeof" t = false.
Proof.
  destruct t as [[]| | | | |n| | | |]; try discriminate; intros H; try (repeat split; reflexivity).
  cbn [unary_type_of is_keyword is_punc] in *.
  destruct (kw "delete" n), (kw "void" n), (kw "typeof" n), (kw "await" n); try discriminate. repeat split; reflexivity.
Qed.

Lemma reify_none t : reify_of t = None -> forall g, one_of g (P Arrow :: assignment_operator) t = false.
Proof. destruct t as [[]| | | | | | | | |]; try discriminate; reflexivity. Qed.
Lemma reify_arrow_tok t : reify_of t = Some ReifyArrow -> is_punc Arrow t = true.
Proof. destruct t as [[]| | | | | | | | |]; try discriminate; reflexivity. Qed.
Lemma reify_assign_tok t : reify_of t = Some ReifyAssign -> forall g, one_of g assignment_operator t = true.
Proof. destruct t as [[]| | | | | | | | |]; try discriminate; reflexivity. Qed.
Lemma no_statement_keyword g i : statement_type_of (tok0 i) = SUnknown -> one_of g statement_keyword (tok0 i) = false.
Proof. intros H. change (starts statement_keyword g i = false). rewrite statement_keyword_eq, H. reflexivity. Qed.
Lemma template_start_head t : is_template_start t = true -> template_format_of t = TF_Head -> forall g, one_of g [TplHead] t = true.
Proof. destruct t as [| | | | | | | |[]|]; try discriminate; reflexivity. Qed.
Lemma template_start_whole t : is_template_start t = true -> template_format_of t <> TF_Head -> forall g, one_of g [TplWhole] t = true.
Proof. destruct t as [| | | | | | | |[]|]; cbn; try discriminate; try contradiction; reflexivity. Qed.
Lemma template_end_tail t : is_template_end t = true -> template_format_of t = TF_Tail -> forall g, one_of g [TplTail] t = true.
Proof. destruct t as [| | | | | | | |[]|]; try discriminate; reflexivity. Qed.
Lemma template_end_middle t : is_template_end t = true -> template_format_of t <> TF_Tail -> forall g, one_of g [TplMiddle] t = true.
Proof. destruct t as [| | | | | | | |[]|]; cbn; try discriminate; try contradiction; reflexivity. Qed.
Lemma identifier_not_function g i : is_binding_token g (tok0 i) = true ->
  match second0 i with Some (_, TIdent name) => kw "function" name = false | _ => True end ->
  no_pair [Bind] false [K "function"] g i = true.
Proof.
  intros B H. unfold no_pair. rewrite pair_eq, !one_of_1, matches_Bind, matches_K, B. 
  assert (I : is_ident (tok0 i) = true) by (destruct (tok0 i); try discriminate; reflexivity).
  rewrite second_ident in H by exact I. unfold tok. destruct (cur0 (tl i)) as [nl [ | | | | |name| | | |]]; try reflexivity.
  cbn [snd is_keyword]. rewrite H. reflexivity.
Qed.

Lemma primary_function g t : primary_type_of g t = Some PrFunction -> is_keyword "function" t = true.
Proof.
  destruct t as [[]| | | | |m| | | |]; try discriminate. cbn [primary_type_of is_keyword].
  repeat match goal with |- context [kw ?k m] => destruct (kw k m); try discriminate; try reflexivity end.
  destruct (is_binding_identifier g m); discriminate.
Qed.
Lemma two_keywords a b t : s2b a <> s2b b -> is_keyword a t = true -> is_keyword b t = true -> False.
Proof. intros N A B. destruct t; try discriminate. apply kw_true in A, B. congruence. Qed.

Lemma binary_some b t p : binary_precedence b t = Some p ->
  (forall g, one_of g binary_operator t = true) \/ (b = true /\ is_keyword "in" t = true).
Proof.
  destruct t as [[]| | | | |m| | | |]; try discriminate; intros H; try (left; reflexivity).
  cbn [binary_precedence is_keyword] in *. destruct (kw "in" m) eqn:A, b; cbn [andb] in H;
    try (right; split; reflexivity); destruct (kw "instanceof" m) eqn:B; try discriminate; left; intros g;
    apply kw_true in B; subst; reflexivity.
Qed.
Lemma binary_none b t : binary_precedence b t = None ->
  (forall g, one_of g binary_operator t = false) /\ (b = true -> is_keyword "in" t = false).
Proof.
  destruct t as [[]| | | | |m| | | |]; try discriminate; intros H; try (split; reflexivity).
  cbn [binary_precedence is_keyword] in *. destruct (kw "in" m) eqn:A, b; cbn [andb] in H; try discriminate;
    destruct (kw "instanceof" m) eqn:B; try discriminate; split; try discriminate; try reflexivity; intros g;
    unfold binary_operator; cbn [map]; rewrite !one_of_cons, one_of_nil, !matches_K; cbn [is_keyword]; rewrite B; reflexivity.
Qed.

(** ** Derivations consume their input from the front *)
Scheme derives_mut := Minimality for derives Sort Prop
  with derives_seq_mut := Minimality for derives_seq Sort Prop.
Combined Scheme derives_both from derives_mut, derives_seq_mut.

Lemma derives_le : (forall g n i r, derives g n i r -> length r <= length i) /\
  (forall g alpha i r, derives_seq g alpha i r -> length r <= length i).
Proof. apply derives_both; intros; cbn [length] in *; lia. Qed.

(** A derivation step, as a proposition. *)
Lemma derives_inv g n i r : derives g n i r -> exists alpha, In alpha (prods n) /\ derives_seq g alpha i r.
Proof. intros H. inversion H; subst. eauto. Qed.

Definition binary_here (g : grammar_flags) (i : input) : Prop :=
  one_of g binary_operator (tok0 i) = true \/ (allow_in g = true /\ is_keyword "in" (tok0 i) = true).
Definition binary_ends (g : grammar_flags) (i : input) : Prop :=
  one_of g binary_operator (tok0 i) = false /\ (allow_in g = true -> is_keyword "in" (tok0 i) = false).

Lemma tail_end g i : binary_ends g i -> derives g NBinaryTail i i.
Proof.
  intros [A B]. destruct (allow_in g) eqn:E.
  - specialize (B eq_refl). eapply by_production; [right; right; left; reflexivity|].
    eapply d_condition; [unfold only_if, param; rewrite E; reflexivity|].
    eapply d_condition; [|apply d_end]. rewrite no_eq. unfold starts. rewrite one_of_cons, matches_K, A, B. reflexivity.
  - eapply by_production; [right; right; right; left; reflexivity|].
    eapply d_condition; [unfold only_if, param; rewrite E; reflexivity|].
    eapply d_condition; [|apply d_end]. rewrite no_eq. unfold starts. rewrite A. reflexivity.
Qed.
Lemma tail_step g i m r : binary_here g i -> derives g NUnary (tl i) m -> derives g NBinaryTail m r -> derives g NBinaryTail i r.
Proof.
  intros [A|[A B]] U R.
  - eapply by_production; [left; reflexivity|]. eapply d_tok; [exact A|reflexivity|].
    eapply d_nonterminal; [exact U|]. eapply d_nonterminal; [exact R|apply d_end].
  - eapply by_production; [right; left; reflexivity|].
    eapply d_condition; [unfold only_if, param; rewrite A; reflexivity|].
    eapply d_tok; [rewrite one_of_1, matches_K; exact B|reflexivity|].
    eapply d_nonterminal; [exact U|]. eapply d_nonterminal; [exact R|apply d_end].
Qed.
Ltac inv_seq :=
  repeat match goal with
  | H : derives_seq _ [] _ _ |- _ => inversion H; subst; clear H
  | H : derives_seq _ (_ :: _) _ _ |- _ => inversion H; subst; clear H
  | H : In _ [] |- _ => destruct H
  end.
Lemma tail_inv g i r : derives g NBinaryTail i r ->
  (r = i /\ binary_ends g i) \/
  (binary_here g i /\ length (tl i) < length i /\ exists m, derives g NUnary (tl i) m /\ derives g NBinaryTail m r).
Proof.
  intros H. destruct (derives_inv _ _ _ _ H) as (alpha & I & D). cbn [prods In] in I.
  decompose [or] I; try contradiction; subst alpha; inv_seq; cbn [changed fold_left tl length] in *.
  - right. split; [left; assumption|]. split; [lia|]. eexists. split; eassumption.
  - right. match goal with H : only_if _ _ _ _ = true |- _ => unfold only_if, param in H end.
    split; [right; destruct (allow_in g); [|discriminate]; split; [reflexivity|rewrite one_of_1, matches_K in *; assumption]|].
    split; [lia|]. eexists. split; eassumption.
  - left. split; [reflexivity|]. match goal with H : only_if _ _ _ _ = true |- _ => unfold only_if, param in H end.
    match goal with H : no _ _ _ = true |- _ => rewrite no_eq in H; unfold starts in H; rewrite one_of_cons, matches_K in H;
      apply negb_true_iff, orb_false_elim in H; destruct H end.
    split; [assumption|]. intros _. assumption.
  - left. split; [reflexivity|]. match goal with H : only_if _ _ _ _ = true |- _ => unfold only_if, param in H end.
    match goal with H : no _ _ _ = true |- _ => rewrite no_eq in H; unfold starts in H; apply negb_true_iff in H end.
    split; [assumption|]. destruct (allow_in g); discriminate.
Qed.
Lemma tail_app g k : forall i m r, length i <= k -> derives g NBinaryTail i m -> derives g NBinaryTail m r -> derives g NBinaryTail i r.
Proof.
  induction k as [|k IHk]; intros i m r L A B; destruct (tail_inv _ _ _ A) as [[-> _]|(H & L' & j & U & R)]; try assumption; [lia|].
  apply (tail_step g i j); [exact H|exact U|]. apply (IHk j m r); try assumption.
  apply (proj1 derives_le) in U. lia.
Qed.
Lemma binary_inv g i r : derives g NBinary i r -> exists m, derives g NUnary i m /\ derives g NBinaryTail m r.
Proof.
  intros H. destruct (derives_inv _ _ _ _ H) as (alpha & I & D). cbn [prods In] in I.
  decompose [or] I; try contradiction; subst alpha; inv_seq; cbn [changed fold_left] in *. eauto.
Qed.
Lemma binary_intro g i m r : derives g NUnary i m -> derives g NBinaryTail m r -> derives g NBinary i r.
Proof.
  intros U R. eapply by_production; [left; reflexivity|]. eapply d_nonterminal; [exact U|].
  eapply d_nonterminal; [exact R|apply d_end].
Qed.

(** What success of each parse function means. *)
Definition good (f : fn) (g : grammar_flags) (i r : input) : Prop :=
  match f with
  | F_script_item => derives g NScriptItem i r
  | F_module_item => derives g NModuleItem i r
  | L_script => True
  | L_module => derives g NModuleItems i r
  | F_expression => derives g NExpression i r
  | L_expression => derives g NExpressionTail i r
  | F_assignment | F_reify_assignment => derives g NAssignment i r
  | F_reify_arrow => derives g NArrowBody i r
  | F_yield => derives g NYield i r
  | F_conditional => derives g NConditional i r
  | F_fancy _ => derives g NBinary i r
  | L_fancy _ b => b = allow_in g -> derives g NBinaryTail i r
  | F_exponential => forall r', derives g NBinaryTail r r' -> derives g NBinary i r'
  | F_unary | F_delete | F_void | F_typeof | F_plus | F_minus | F_tilde | F_exclam | F_await => derives g NUnary i r
  | F_update => derives g NUpdate i r
  | F_left_hand c => derives g (NLeftHand c) i r
  | L_left_hand c => derives g (NLeftHandTail c) i r
  | F_call_arguments => derives g NArguments i r
  | L_call_arguments => derives g NArgumentList i r
  | F_meta_property => True
  | F_primary => derives g NPrimary i r
  | F_array_literal => derives g NArray i r
  | L_array_literal => derives g NElements i r
  | F_object_literal => derives g NObject i r
  | L_object_literal => derives g NProperties i r
  | F_object_property => derives g NProperty i r
  | F_array_item => derives g NElement i r
  | F_template_literal => derives g NTemplate i r
  | L_template_literal => derives g NTemplateRest i r
  | F_cover_parenthesized => derives g NParenthesized i r
  | L_cover_parenthesized => derives g NParenthesizedTail i r
  | F_statement => derives g NStatement i r
  | F_statement_list_item => derives g NStatementListItem i r
  | L_statement_list => derives g NStatementList i r
  | F_block => derives g NBlock i r
  | F_variable_statement => derives g NVariableStatement i r
  | L_variable_statement => derives g NVariableTail i r
  | F_var_declarator => derives g NVariable i r
  | F_binding_pattern => derives g NPattern i r
  | F_object_binding_pattern => derives g NObjectPattern i r
  | L_object_binding_pattern => derives g NPatternProperties i r
  | F_binding_property => derives g NPatternProperty i r
  | F_property_name => derives g NPropertyName i r
  | F_computed_property_name => derives g NComputedName i r
  | F_array_binding_pattern => derives g NArrayPattern i r
  | L_array_binding_pattern => derives g NPatternElements i r
  | F_binding_rest_element => derives g NRestElement i r
  | F_binding_element => derives g NPatternElement i r
  | F_initializer => derives g NInitializer i r
  | F_expression_statement => derives g NExpressionStatement i r
  | F_if => derives g NIf i r
  | F_breakable => derives g NBreakable i r
  | F_iteration => derives g NIteration i r
  | F_do_while => derives g NDoWhile i r
  | F_while => derives g NWhile i r
  | F_for => derives g NFor i r
  | L_for_declarators k => derives g (NForMore k) i r
  | F_switch => derives g NSwitch i r
  | L_switch d => derives g (NClauses d) i r
  | F_default_clause => derives g NDefaultClause i r
  | F_case_clause => derives g NCaseClause i r
  | F_return => derives g NReturn i r
  | F_with => derives g NWith i r
  | F_labelled => derives g NLabelled i r
  | F_throw => derives g NThrow i r
  | F_try => derives g NTry i r
  | F_declaration => derives g NDeclaration i r
  | F_let_declaration => derives g NLet i r
  | F_const_declaration => derives g NConst i r
  | L_lexical_declarators q => derives g (NLexicalTail q) i r
  | F_lexical_declarator q => derives g (NLexical q) i r
  | F_function_declaration => derives g NFunctionDeclaration i r
  | F_function_expression => is_keyword "function" (tok0 i) = true -> derives g NFunctionExpression i r
  | F_function_params => derives g NParameters i r
  | L_function_params => derives g NParameterList i r
  | F_class_declaration => derives g NClass i r
  | F_class_heritage => derives g NHeritage i r
  | F_class_body => derives g NClassBody i r
  | L_class_body => derives g NClassItems i r
  | F_class_item => derives g NClassItem i r
  | F_method_tail h => derives g (NMethodTail h) i r
  | F_import_declaration => derives g NImport i r
  | L_import_specifiers => derives g NImportSpecifiers i r
  | F_export_declaration => derives g NExport i r
  | L_export_specifiers => derives g NExportSpecifiers i r
  end.

Definition sound (f : fn) (g : grammar_flags) (i : input) (r : ares (option unit)) : Prop :=
  match r with AOk (Some _) r' => good f g i r' | _ => True end.

(** ** Tactics *)

(** Rewrite with the recorded tests until the goal, an equation of booleans, is closed. *)
Ltac tests :=
  unfold no_item, both, no_pair, no_for_let, labelled;
  rewrite ?no_line_break_eq, ?line_break_eq, ?no_eq, ?async_arrow_eq, ?async_function_eq, ?function_function_eq, ?no_function_start_eq, ?labelled_eq, ?for_let_eq;
  unfold starts in *; unfold only_if, param, unary_operator, assignment_operator, property_name_start, pattern_start; cbn [map];
  rewrite ?one_of_app, ?one_of_cons, ?one_of_nil, ?matches_P, ?matches_K, ?matches_Name, ?matches_Bind, ?matches_Num,
    ?matches_Str, ?matches_RegEx, ?matches_Eof;
  repeat match goal with
  | H : ?x = ?b |- context [?x] => lazymatch b with true => rewrite H | false => rewrite H end
  | H : tok0 ?i = _ |- context [tok0 ?i] => rewrite H
  | H : unary_type_of ?t = UUnknown |- _ => apply unary_unknown in H; decompose [and] H; clear H
  end;
  cbn [orb andb negb]; rewrite ?orb_true_r;
  reflexivity.

(** Split the recorded facts on starts. *)
Ltac facts :=
  repeat match goal with
  | H : starts property_name_start _ _ = _ |- _ => rewrite property_name_start_eq in H
  | H : starts pattern_start _ _ = _ |- _ => rewrite pattern_start_eq in H
  | H : ?a || ?b = false |- _ => let H' := fresh in apply orb_false_elim in H; destruct H as [H H']
  | H : negb ?a = true |- _ => apply negb_true_iff in H
  | H : negb ?a = false |- _ => apply negb_false_iff in H
  end.

Ltac alternative := (left; reflexivity) + (right; alternative).

Ltac dnt_hook := fail.
Ltac dseq :=
  lazymatch goal with
  | |- derives_seq _ [] _ _ => apply d_end
  | |- derives_seq _ (T _ :: _) _ _ => eapply d_tok; [solve [eassumption|tests]|reflexivity|dseq]
  | |- derives_seq _ (N _ _ :: _) _ _ =>
    eapply d_nonterminal; [cbn [changed fold_left fst snd]; solve [eassumption|dprod]|dseq]
  | |- derives_seq _ (Semi _ :: _) _ _ =>
    first [eapply d_semi; [eassumption|dseq]|eapply d_asi; [eassumption|eassumption|dseq]]
  | |- derives_seq _ (When _ :: _) _ _ => eapply d_condition; [solve [eassumption|tests]|dseq]
  end
with dprod := once (eapply by_production; [cbn [prods app map flat_map star]; alternative|]; dseq).
Ltac fin := cbn [sound good]; first [exact I|assumption|facts; solve [dprod]|idtac].

Ltac on_call IH :=
  match goal with
  | |- context [aexec ?e ?n ?f ?g ?i] =>
    let G := fresh "G" in let F := fresh "F" in let C := fresh in let H0 := fresh in
    generalize (IH f g i) (first_holds n f g i) (consumption_holds e n f g i); destruct (aexec e n f g i) as [[[]|] ?|? ?|?|?];
      cbn [firstness consumption]; cbn [first consuming total negb]; cbv zeta;
      [intros G F _|intros _ F [C H0]; first [discriminate H0|clear H0; subst]|intros _ _ _|intros _ _ []|intros _ _ _]; 
      rewrite ?starts_flag in * by discriminate; cbn [sound good] in *; hnf_kont
  end.

