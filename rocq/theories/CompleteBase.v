(** Completeness: whatever derives from a nonterminal is what its parse function consumes.
    The induction hypothesis as an inductive relation, and the tactics. *)
From Coq Require Import String List Arith NArith Bool Lia.
From Verif Require Import Base Tokens ByteFacts ParserCore ParserBody AbstractParser ParserExec ParserTerminates
  SpecGrammar GrammarFirst GrammarRules Precedence.
Import ListNotations.
Local Open Scope string_scope.

(** The parse function of a nonterminal; some nonterminals have none. *)
Definition fn_of (n : nt) : option (nat -> grammar_flags -> fn) :=
  let some f := Some (fun (_ : nat) (_ : grammar_flags) => f) in
  match n with
  | NModuleItems => some L_module
  | NModuleItem => some F_module_item
  | NScriptItem => some F_script_item
  | NImport => some F_import_declaration
  | NImportSpecifiers => some L_import_specifiers
  | NExport => some F_export_declaration
  | NExportSpecifiers => some L_export_specifiers
  | NStatementList => some L_statement_list
  | NStatementListItem => some F_statement_list_item
  | NStatement => some F_statement
  | NBlock => some F_block
  | NDeclaration => some F_declaration
  | NLexical q => some (F_lexical_declarator q)
  | NLexicalTail q => some (L_lexical_declarators q)
  | NLet => some F_let_declaration
  | NConst => some F_const_declaration
  | NVariableStatement => some F_variable_statement
  | NVariableTail => some L_variable_statement
  | NVariable => some F_var_declarator
  | NIf => some F_if
  | NBreakable => some F_breakable
  | NIteration => some F_iteration
  | NDoWhile => some F_do_while
  | NWhile => some F_while
  | NFor => some F_for
  | NForMore k => some (L_for_declarators k)
  | NSwitch => some F_switch
  | NClauses d => some (L_switch d)
  | NCaseClause => some F_case_clause
  | NDefaultClause => some F_default_clause
  | NReturn => some F_return
  | NWith => some F_with
  | NLabelled => some F_labelled
  | NThrow => some F_throw
  | NTry => some F_try
  | NExpressionStatement => some F_expression_statement
  | NPattern => some F_binding_pattern
  | NObjectPattern => some F_object_binding_pattern
  | NPatternProperties => some L_object_binding_pattern
  | NPatternProperty => some F_binding_property
  | NPropertyName => some F_property_name
  | NComputedName => some F_computed_property_name
  | NArrayPattern => some F_array_binding_pattern
  | NPatternElements => some L_array_binding_pattern
  | NRestElement => some F_binding_rest_element
  | NPatternElement => some F_binding_element
  | NInitializer => some F_initializer
  | NFunctionDeclaration => some F_function_declaration
  | NParameters => some F_function_params
  | NParameterList => some L_function_params
  | NClass => some F_class_declaration
  | NHeritage => None
  | NClassBody => some F_class_body
  | NClassItems => some L_class_body
  | NClassItem => some F_class_item
  | NMethodTail h => some (F_method_tail h)
  | NExpression => some F_expression
  | NExpressionTail => some L_expression
  | NAssignment => some F_assignment
  | NArrowBody => some F_reify_arrow
  | NYield => some F_yield
  | NConditional => some F_conditional
  | NBinary => Some (fun p _ => F_fancy p)
  | NBinaryTail => Some (fun p g => L_fancy p (allow_in g))
  | NUnary => some F_unary
  | NUpdate => some F_update
  | NLeftHand c => some (F_left_hand c)
  | NLeftHandTail c => some (L_left_hand c)
  | NArguments => some F_call_arguments
  | NArgumentList => some L_call_arguments
  | NPrimary => some F_primary
  | NArray => some F_array_literal
  | NElements => some L_array_literal
  | NElement => some F_array_item
  | NObject => some F_object_literal
  | NProperties => some L_object_literal
  | NProperty => some F_object_property
  | NTemplate => some F_template_literal
  | NTemplateRest => some L_template_literal
  | NParenthesized => some F_cover_parenthesized
  | NParenthesizedTail => some L_cover_parenthesized
  | _ => None
  end.

(** A derivation whose parts with parse functions are known to be parsed. *)
Inductive done : grammar_flags -> nt -> input -> input -> Prop :=
| done_fn g n i r F : fn_of n = Some F -> (forall p, parse0 (F p g) g i = ok r) -> done g n i r
| done_other g n i r alpha : fn_of n = None -> In alpha (prods n) -> done_seq g alpha i r -> done g n i r
with done_seq : grammar_flags -> list sym -> input -> input -> Prop :=
| done_end g i : done_seq g [] i i
| done_token g ts nl t i alpha r :
    one_of g ts t = true -> done_seq g alpha i r -> done_seq g (T ts :: alpha) ((nl, t) :: i) r
| done_nonterminal g n ch i m alpha r :
    done (changed g ch) n i m -> done_seq g alpha m r -> done_seq g (N n ch :: alpha) i r
| done_semicolon g b nl i alpha r :
    done_seq g alpha i r -> done_seq g (Semi b :: alpha) ((nl, TPunctuator Semicolon) :: i) r
| done_inserted g b i alpha r :
    snd (SpecGrammar.next i) <> TPunctuator Semicolon -> insertable b i = true ->
    done_seq g alpha i r -> done_seq g (Semi b :: alpha) i r
| done_condition g c i alpha r :
    c g i = true -> done_seq g alpha i r -> done_seq g (When c :: alpha) i r.

(** Inversions *)
Lemma i_end g i r : done_seq g [] i r -> r = i.
Proof. inversion 1. reflexivity. Qed.
Lemma i_token g ts a i r : done_seq g (T ts :: a) i r -> starts ts g i = true /\ done_seq g a (tl i) r.
Proof. inversion 1; subst. split; assumption. Qed.
Lemma i_nonterminal g n ch a i r : done_seq g (N n ch :: a) i r -> exists m, done (changed g ch) n i m /\ done_seq g a m r.
Proof. inversion 1; subst. eauto. Qed.
Lemma i_semi g b a i r : done_seq g (Semi b :: a) i r ->
  (is_punc Semicolon (tok0 i) = true /\ done_seq g a (tl i) r) \/
  (is_punc Semicolon (tok0 i) = false /\ asi TEOF b i = true /\ done_seq g a i r).
Proof.
  inversion 1; subst; [left; split; [reflexivity|assumption]|right]. split; [|split; assumption].
  match goal with H : _ <> _ |- _ => revert H end. unfold SpecGrammar.next, tok, cur.
  destruct (snd _) as [[]| | | | | | | | |]; try reflexivity. intros H0. exfalso. apply H0. reflexivity.
Qed.
Lemma i_when g c a i r : done_seq g (When c :: a) i r -> c g i = true /\ done_seq g a i r.
Proof. inversion 1; subst. split; assumption. Qed.
Lemma i_fn g n i r F : done g n i r -> fn_of n = Some F -> forall p, parse0 (F p g) g i = ok r.
Proof. inversion 1; subst; intros E; [|congruence]. replace F with F0 by congruence. assumption. Qed.
Lemma i_other g n i r : done g n i r -> fn_of n = None -> exists alpha, In alpha (prods n) /\ done_seq g alpha i r.
Proof. inversion 1; subst; intros E; [congruence|eauto]. Qed.

Lemma first_none f g i : first f g i = false -> parse0 f g i = AOk None i.
Proof.
  intros H. pose proof (parse0_first f g i) as F. pose proof (parse0_consumption f g i) as C.
  pose proof (parse_not_fuel TEOF teof_end f g i) as N. destruct (parse0 f g i) as [[[]|] j|? ?|?|?]; cbn in F, C, N.
  all: try congruence; try contradiction. destruct C as [-> _]. reflexivity.
Qed.
Lemma first_some f g i r : parse0 f g i = ok r -> first f g i = true.
Proof. intros H. pose proof (parse0_first f g i) as F. rewrite H in F. exact F. Qed.

Lemma punc_tok p t : is_punc p t = true -> t = TPunctuator p.
Proof. destruct t; try discriminate. cbn. unfold peqb. destruct (punctuator_eq_dec _ _); [congruence|discriminate]. Qed.
Lemma keyword_tok k t : is_keyword k t = true -> t = TIdent (s2b k).
Proof. destruct t; try discriminate. intros H. apply kw_true in H. congruence. Qed.

Lemma wp_enter f g i (Q : _ -> Prop) : wpr TEOF parse0 (body f) g i Q -> Q (parse0 f g i).
Proof. unfold wpr. rewrite <- parse0_eq. exact (fun H => H). Qed.

(** ** Tactics *)
Ltac in_cases H :=
  cbn [prods In app map flat_map star] in H;
  repeat match type of H with
  | _ \/ _ => destruct H as [H|H]
  | False => destruct H
  end; [subst..|].
Ltac invert :=
  repeat (match goal with
  | H : done_seq _ [] _ _ |- _ => apply i_end in H; subst
  | H : done_seq _ (T _ :: _) _ _ |- _ => let H' := fresh "T" in apply i_token in H; destruct H as [H' H]
  | H : done_seq _ (N _ _ :: _) _ _ |- _ => let H' := fresh "D" in apply i_nonterminal in H; destruct H as (? & H' & H)
  | H : done_seq _ (Semi _ :: _) _ _ |- _ => let H' := fresh "S" in apply i_semi in H; destruct H as [[H' H]|(H' & ? & H)]
  | H : done_seq _ (When _ :: _) _ _ |- _ => let H' := fresh "W" in apply i_when in H; destruct H as [H' H]
  | H : done _ ?n _ _ |- _ =>
    let e := eval cbn [fn_of] in (fn_of n) in
    lazymatch e with
    | Some (fun _ _ => ?f) => let H' := fresh "D" in pose proof (i_fn _ _ _ _ _ H eq_refl 0) as H'; cbv beta in H'; clear H
    | Some _ => let H' := fresh "D" in pose proof (i_fn _ _ _ _ _ H eq_refl) as H'; cbv beta in H'; clear H
    | None => apply i_other in H; [|reflexivity]; let alpha := fresh in let H' := fresh in destruct H as (alpha & H' & H);
        cbn [prods In app map flat_map star] in H'; decompose [or] H'; clear H'; try contradiction; subst alpha
    end
  end; cbn [changed fold_left fst snd function_params function_body] in *).

Lemma st_cons a l g i : starts (a :: l) g i = matches g a (tok0 i) || starts l g i.
Proof. reflexivity. Qed.
Lemma st_nil g i : starts [] g i = false.
Proof. reflexivity. Qed.
Lemma st_app a l g i : starts (a ++ l) g i = starts a g i || starts l g i.
Proof. apply existsb_app. Qed.

Lemma async_arrow_line g i : maybe_async_arrow g (second0 i) = true -> fst (cur0 (tl i)) = false.
Proof. unfold second. destruct (tok0 i); try discriminate. destruct (cur0 (tl i)) as [[] []]; try discriminate; reflexivity. Qed.

Ltac split_facts :=
  repeat match goal with
  | H : ?a || ?b = false |- _ => let H' := fresh in apply orb_false_elim in H; destruct H as [H H']
  | H : negb ?a = true |- _ => apply negb_true_iff in H
  | H : negb ?a = false |- _ => apply negb_false_iff in H
  | H : ?a && ?b = true |- _ => let H' := fresh in apply andb_true_iff in H; destruct H as [H H']
  | H : ?x = ?x |- _ => clear H
  | H : eqb _ _ = true |- _ => apply eqb_prop in H
  | H : true = false |- _ => discriminate H
  | H : false = true |- _ => discriminate H
  | H : ?x = true, H' : ?x = false |- _ => rewrite H in H'; discriminate H'
  end.
Ltac norm :=
  unfold unary_operator, no_item, both, no_pair, no_for_let, only_if, param, function_starts in *;
  rewrite ?no_line_break_eq, ?line_break_eq, ?no_eq, ?async_arrow_eq, ?async_function_eq, ?function_function_eq,
    ?no_function_start_eq, ?labelled_eq, ?for_let_eq in *;
  rewrite ?st_app, ?st_cons, ?st_nil, ?matches_P, ?matches_K, ?matches_Name, ?matches_Bind, ?matches_Num, ?matches_Str,
    ?matches_RegEx, ?matches_Eof, ?property_name_start_eq, ?pattern_start_eq, ?orb_false_r in *;
  split_facts.

(** Add what success of the parts tells about their first tokens. *)
Definition marked (P : Prop) : Prop := P.
Ltac firsts :=
  repeat match goal with
  | H : parse0 ?f ?g ?i = ok ?r |- _ =>
    let H' := fresh "F" in pose proof (first_some f g i r H) as H'; cbn [first] in H'; cbv zeta in H';
    change (marked (parse0 f g i = ok r)) in H
  | H : forall p, parse0 _ _ _ = ok _ |- _ => 
    let H' := fresh "F" in pose proof (first_some _ _ _ _ (H 0)) as H'; cbn [first] in H'; cbv zeta in H';
    match type of H with ?T => change (marked T) in H end
  end; unfold marked in *; rewrite ?starts_flag, ?is_binding_token_flag in * by discriminate.

(** Tokens that are known. *)
Ltac tokens_known :=
  repeat match goal with
  | H : is_punc ?p (tok0 ?i) = true |- _ => apply punc_tok in H
  | H : is_keyword ?k (tok0 ?i) = true |- _ => apply keyword_tok in H
  end.

Lemma ident_tok t : is_ident t = true -> exists n, t = TIdent n.
Proof. destruct t; try discriminate. eauto. Qed.
Lemma binding_tok g t : is_binding_token g t = true -> exists n, t = TIdent n /\ is_binding_identifier g n = true.
Proof. destruct t; try discriminate. eauto. Qed.
Lemma string_tok t : is_string t = true -> exists n, t = TString n.
Proof. destruct t; try discriminate. eauto. Qed.
Lemma numeric_tok t : is_numeric t = true -> exists n, t = TNumeric n.
Proof. destruct t; try discriminate. eauto. Qed.
Lemma tstart_tok t : is_template_start t = true -> exists f a b, t = TTemplate f a b.
Proof. destruct t; try discriminate. eauto. Qed.
Lemma whole_tok g t : matches g TplWhole t = true -> exists a b, t = TTemplate TF_NoSubstitution a b.
Proof. destruct t as [| | | | | | | |[]|]; try discriminate; eauto. Qed.
Lemma head_tok g t : matches g TplHead t = true -> exists a b, t = TTemplate TF_Head a b.
Proof. destruct t as [| | | | | | | |[]|]; try discriminate; eauto. Qed.
Lemma middle_tok g t : matches g TplMiddle t = true -> exists a b, t = TTemplate TF_Middle a b.
Proof. destruct t as [| | | | | | | |[]|]; try discriminate; eauto. Qed.
Lemma tail_tok g t : matches g TplTail t = true -> exists a b, t = TTemplate TF_Tail a b.
Proof. destruct t as [| | | | | | | |[]|]; try discriminate; eauto. Qed.
Lemma regex_tok t : is_regex t = true -> exists a b, t = TRegExp a b.
Proof. destruct t; try discriminate; eauto. Qed.
Lemma no_template g t : matches g TplWhole t = false -> matches g TplHead t = false -> is_template_start t = false.
Proof. destruct t as [| | | | | | | |[]|]; try discriminate; reflexivity. Qed.
Lemma binding_primary g t : is_binding_token g t = true -> primary_type_of g t = Some PrIdent.
Proof.
  destruct t as [| | | | |n| | | |]; try discriminate. cbn [is_binding_token primary_type_of]. intros H. rewrite H.
  repeat match goal with |- context [kw ?k n] => destruct (kw k n) eqn:?; [exfalso;
    match goal with E : kw k n = true |- _ => apply kw_true in E; subst n end; destruct g as [? [] [] ? ? ? [] ?]; cbv in H; discriminate|] end.
  reflexivity.
Qed.
Lemma no_statement g i : starts statement_keyword g i = false -> statement_type_of (tok0 i) = SUnknown.
Proof. rewrite statement_keyword_eq. destruct (statement_type_of (tok0 i)); try discriminate. reflexivity. Qed.
Lemma no_declaration g i : starts declaration_keyword g i = false -> decl_type_of (tok0 i) = None.
Proof. rewrite declaration_keyword_eq. destruct (decl_type_of (tok0 i)); try discriminate. reflexivity. Qed.
Lemma assign_reify g i : starts assignment_operator g i = true -> reify_of (tok0 i) = Some ReifyAssign.
Proof. unfold starts. destruct (tok0 i) as [[]| | | | | | | | |]; try discriminate; reflexivity. Qed.
Lemma no_reify g i : starts assignment_operator g i = false -> is_punc Arrow (tok0 i) = false -> reify_of (tok0 i) = None.
Proof. unfold starts. destruct (tok0 i) as [[]| | | | | | | | |]; try discriminate; reflexivity. Qed.
Lemma no_unary t : is_keyword "await" t = false -> is_punc Plus t = false -> is_punc Minus t = false -> is_punc Tilde t = false ->
  is_punc Exclam t = false -> is_keyword "delete" t = false -> is_keyword "void" t = false -> is_keyword "typeof" t = false ->
  unary_type_of t = UUnknown.
Proof.
  destruct t as [[]| | | | |n| | | |]; try discriminate; try reflexivity. cbn [is_keyword unary_type_of]. intros A _ _ _ _ B C D.
  rewrite A, B, C, D. reflexivity.
Qed.
Lemma second_known i n : tok0 i = TIdent n -> second0 i = Some (fst (cur0 (tl i)), tok0 (tl i)).
Proof. unfold second. intros ->. unfold tok. destruct (cur0 (tl i)). reflexivity. Qed.

Lemma bind_function_eq g i : pair [Bind] false [K "function"] g i = is_binding_token g (tok0 i) && is_keyword "function" (tok0 (tl i)).
Proof. rewrite pair_eq, !one_of_1, matches_Bind, matches_K, andb_true_r. reflexivity. Qed.
Lemma async_function_tok nl t : maybe_async_function (Some (nl, t)) = true -> t = TIdent (s2b "function").
Proof. destruct nl, t; try discriminate. cbn [maybe_async_function]. intros H. apply kw_true in H. subst. reflexivity. Qed.
Ltac types :=
  repeat match goal with
  | H : starts statement_keyword ?g ?i = false |- _ => lazymatch goal with E : statement_type_of (tok0 i) = _ |- _ => fail | _ => pose proof (no_statement g i H) end
  | H : starts declaration_keyword ?g ?i = false |- _ => lazymatch goal with E : decl_type_of (tok0 i) = _ |- _ => fail | _ => pose proof (no_declaration g i H) end
  | H : starts assignment_operator ?g ?i = true |- _ => lazymatch goal with E : reify_of (tok0 i) = _ |- _ => fail | _ => pose proof (assign_reify g i H) end
  | H : starts assignment_operator ?g ?i = false, H' : is_punc Arrow (tok0 ?i) = false |- _ => lazymatch goal with E : reify_of (tok0 i) = _ |- _ => fail | _ => pose proof (no_reify g i H H') end
  | H : is_binding_token ?g (tok0 ?i) = true |- _ => lazymatch goal with E : primary_type_of g (tok0 i) = _ |- _ => fail | _ => pose proof (binding_primary g _ H) end
  | H : is_keyword "typeof" ?t = false, H' : is_keyword "await" ?t = false |- _ =>
      lazymatch goal with E : unary_type_of t = _ |- _ => fail | _ => assert (unary_type_of t = UUnknown) by (apply no_unary; assumption) end
  | H : matches ?g TplWhole ?t = false, H' : matches ?g TplHead ?t = false |- _ =>
      lazymatch goal with E : is_template_start t = _ |- _ => fail | _ => pose proof (no_template g t H H') end
  end.
Ltac tokens_known ::=
  repeat match goal with
  | H : matches _ TplWhole (tok0 _) = true |- _ => let E := fresh "E" in destruct (whole_tok _ _ H) as (? & ? & E); clear H
  | H : matches _ TplHead (tok0 _) = true |- _ => let E := fresh "E" in destruct (head_tok _ _ H) as (? & ? & E); clear H
  | H : matches _ TplMiddle (tok0 _) = true |- _ => let E := fresh "E" in destruct (middle_tok _ _ H) as (? & ? & E); clear H
  | H : matches _ TplTail (tok0 _) = true |- _ => let E := fresh "E" in destruct (tail_tok _ _ H) as (? & ? & E); clear H
  | H : is_template_start (tok0 ?i) = true |- _ =>
     lazymatch goal with E : tok0 i = TTemplate _ _ _ |- _ => fail | _ => idtac end;
     let E := fresh "E" in destruct (tstart_tok _ H) as (? & ? & ? & E)
  | H : is_regex (tok0 _) = true |- _ => let E := fresh "E" in destruct (regex_tok _ H) as (? & ? & E); clear H
  | H : is_punc ?p (tok0 ?i) = true |- _ => apply punc_tok in H
  | H : is_keyword ?k (tok0 ?i) = true |- _ => apply keyword_tok in H
  | H : is_binding_token ?g (tok0 ?i) = true |- _ =>
     lazymatch goal with E : tok0 i = TIdent _ |- _ => fail | _ => idtac end;
     let n := fresh "name" in let E := fresh "E" in let B := fresh "B" in destruct (binding_tok _ _ H) as (n & E & B)
  | H : is_ident (tok0 ?i) = true |- _ =>
     lazymatch goal with E : tok0 i = TIdent _ |- _ => clear H | _ =>
     let n := fresh "name" in let E := fresh "E" in destruct (ident_tok _ H) as (n & E); clear H end
  | H : is_string (tok0 ?i) = true |- _ =>
     let n := fresh "name" in let E := fresh "E" in destruct (string_tok _ H) as (n & E); clear H
  | H : is_numeric (tok0 ?i) = true |- _ =>
     let n := fresh "name" in let E := fresh "E" in destruct (numeric_tok _ H) as (n & E); clear H
  end.

Ltac contra E H :=
  rewrite E in H; first [discriminate H|cbv in H; discriminate H].
Ltac kill :=
  split_facts; tokens_known;
  match goal with
  | H : ?x = true, H' : ?x = false |- _ => rewrite H in H'; discriminate H'
  | H : false = true |- _ => discriminate H
  | H : is_punc _ (TPunctuator _) = false |- _ => discriminate H
  | H : maybe_async_function (Some _) = true |- _ => apply async_function_tok in H; kill
  | H : matches _ _ (TTemplate _ _ _) = false |- _ => discriminate H
  | H : maybe_async_function (second0 ?i) = true, F : tok0 ?i = TIdent _, E : tok0 (tl ?i) = _ |- _ =>
     rewrite (second_known i _ F), E in H; destruct (fst (cur0 (tl i))); discriminate H
  | H : is_keyword ?k (TIdent ?n) = false, H' : kw ?k ?n = true |- _ => change (kw k n = false) in H; rewrite H in H'; discriminate H'
  | H : true = false |- _ => discriminate H
  | H : tok0 ?i = _, H' : tok0 ?i = _ |- _ => rewrite H in H'; discriminate H'
  | H : tok0 ?i = TIdent ?n, H' : tok0 ?i = TIdent (s2b ?k), B : is_binding_identifier ?g ?n = true |- _ =>
    is_var n; rewrite H in H'; injection H' as ->; clear - B; destruct g as [? [] [] ? ? ? [] ?]; cbv in B; discriminate B
  | H : _ || _ = true |- _ => repeat match goal with F : ?x = false |- _ => rewrite F in H end; discriminate H
  | E : tok0 ?i = _, H : context [tok0 ?i] |- _ => contra E H
  | E : tok0 ?i = _, H : starts _ _ ?i = _ |- _ => unfold starts in H; contra E H
  | E : tok0 ?i = _, H : label_starts ?i = _ |- _ => unfold label_starts, second in H; contra E H
  end.

Ltac falsify :=
  cbn [first]; cbv zeta; rewrite ?starts_flag, ?is_binding_token_flag by discriminate;
  repeat match goal with
  | H : ?x = false |- context [?x] => rewrite H
  | H : tok0 ?i = _ |- context [tok0 ?i] => rewrite H
  | H : tok0 ?i = _ |- context [starts _ _ ?i] => unfold starts; rewrite H
  | H : tok0 ?i = _ |- context [function_starts ?i] => unfold function_starts; rewrite H
  | H : _ = false |- context [function_starts ?i] => unfold function_starts; progress rewrite H
  | H : tok0 ?i = _ |- context [label_starts ?i] => unfold label_starts, second; rewrite H
  end; first [reflexivity|match goal with |- context [maybe_async_function ?x] => destruct (maybe_async_function x); reflexivity end|cbv; reflexivity|apply not_true_is_false; intro; kill].

Ltac enterable f :=
  lazymatch f with
  | F_class_heritage => idtac | F_function_expression => idtac | F_delete => idtac | F_void => idtac | F_typeof => idtac | F_plus => idtac | F_minus => idtac
  | F_tilde => idtac | F_exclam => idtac | F_await => idtac | F_reify_assignment => idtac
  end.
Ltac run_call :=
  match goal with
  | |- kont _ _ _ _ _ (parse0 ?f ?g ?i) =>
    first
    [ match goal with H : parse0 f g i = _ |- _ => rewrite H; hnf_kont end
    | match goal with H : forall p, parse0 _ _ _ = _ |- _ => rewrite H; hnf_kont end
    | rewrite (first_none f g i) by falsify; hnf_kont
    | enterable f; match goal with |- kont ?e ?c ?k ?g0 ?Q _ => apply (wp_enter f g i (kont e c k g0 Q)); cbn [body] end ]
  | |- match parse0 ?f ?g ?i with _ => _ end =>
    first
    [ match goal with H : parse0 f g i = _ |- _ => rewrite H; hnf_kont end
    | match goal with H : forall p, parse0 _ _ _ = _ |- _ => rewrite H; hnf_kont end
    | rewrite (first_none f g i) by falsify; hnf_kont ]
  | |- parse0 ?f ?g ?i = ?x =>
    first
    [ match goal with H : parse0 f g i = _ |- _ => rewrite H end
    | match goal with H : forall p, parse0 _ _ _ = _ |- _ => rewrite H end
    | rewrite (first_none f g i) by falsify
    | enterable f; apply (wp_enter f g i (fun y => y = x)); cbn [body]  ]
  end.
Ltac compute_head :=
  match goal with
  | |- wpr _ _ (match ?x with _ => _ end) _ _ _ =>
    lazymatch x with context [tok0 ?i] =>
      match goal with
      | H : x = _ |- _ => rewrite H
      | E : tok0 i = ?c |- _ =>
        let x' := eval pattern (tok0 i) in x in
        lazymatch x' with ?f _ => let v := eval cbv in (f c) in
          first [is_constructor v|lazymatch v with Some _ => idtac end];
          replace x with v by (rewrite E; reflexivity) end
      end
    | context [fst (cur0 ?i)] => match goal with H : fst (cur0 i) = _ |- _ => rewrite H; cbn [negb andb orb] end
    | context [second0 ?i] => match goal with H : x = _ |- _ => rewrite H | E : tok0 i = TIdent _ |- _ => rewrite (second_known i _ E) end
    | _ => match goal with H : x = _ |- _ => rewrite H end
    end; cbv iota beta
  end.
Ltac run := repeat (first [compute_head|wstep; cbv beta; try (exfalso; kill)|run_call]); try reflexivity.
Ltac positive :=
  repeat match goal with
  | H : (if ?b then _ else _) = _ |- _ => destruct b eqn:?
  | H : pair [Bind] false [K "function"] _ _ = _ |- _ => rewrite bind_function_eq in H
  | H : ?x = true, H' : ?x && _ = false |- _ => rewrite H, andb_true_l in H'
  | H : true && _ = _ |- _ => rewrite andb_true_l in H
  | H : false && _ = _ |- _ => rewrite andb_false_l in H
  | H : starts declaration_keyword _ _ || _ = true |- _ => fail
  | H : starts statement_keyword _ _ || _ = true |- _ => fail
  | H : ?a || ?b = true |- _ => apply orb_true_iff in H; destruct H as [H|H]
  end; split_facts;
  try match goal with H : maybe_async_arrow ?g (second0 ?i) = true |- _ => pose proof (async_arrow_line g i H) end.
Ltac enter := match goal with |- parse0 ?f ?g ?i = ?x => apply (wp_enter f g i (fun y => y = x)); cbn [body] end.
Ltac prep :=
  intros I0 D p; cbn [prods In app map flat_map star] in I0; decompose [or] I0; try contradiction; subst; clear I0; invert; firsts; norm; positive; types; tokens_known;
  try (exfalso; kill); enter.
Definition complete_at n := match fn_of n with None => True | Some F => 
   forall g i r alpha, In alpha (prods n) -> done_seq g alpha i r -> forall p, parse0 (F p g) g i = ok r end.
Ltac comp := cbn [complete_at fn_of]; intros g i r alpha; prep; try (unfold parse_method_tail; cbn [mh_kind mh_generator mh_async]); run.
