(** The tokens on which each parse function matches: a parse function returns [None]
    exactly when the next token (for some, the next two) cannot start its construct. *)
From Coq Require Import String List Arith NArith Bool Lia.
From Verif Require Import Base Tokens ByteFacts ParserCore ParserBody AbstractParser ParserExec ParserTerminates SpecGrammar.
Import ListNotations.
Local Open Scope string_scope.

Notation cur0 := (cur TEOF).
Notation tok0 := (tok TEOF).
Notation second0 := (second TEOF).

Lemma kw_true k n : kw k n = true -> n = s2b k.
Proof. apply beqb_eq. Qed.

Lemma bindable_eq g n : bindable g n = is_binding_identifier g n.
Proof.
  unfold bindable, is_binding_identifier, word_in, reserved_words, strict_reserved_words, reserved_keywords, future_strict_keywords.
  cbn [existsb].
  repeat match goal with |- context [beqb n (s2b ?k)] => change (beqb n (s2b k)) with (kw k n) end.
  destruct g as [? ay aw ? ? ? st ?]; cbn [is_strict allow_await allow_yield].
  repeat match goal with
  | |- context [kw ?k n] => let E := fresh in destruct (kw k n) eqn:E;
      [apply kw_true in E; subst n; destruct st, aw, ay; vm_compute; reflexivity|]; clear E; cbn [orb andb negb]
  end.
  destruct st, aw, ay; reflexivity.
Qed.

Lemma matches_P g p t : matches g (P p) t = is_punc p t.
Proof. destruct t; cbn; try reflexivity. unfold peqb. destruct (punctuator_eq_dec p p0), (punctuator_eq_dec p0 p); congruence. Qed.
Lemma matches_K g k t : matches g (K k) t = is_keyword k t.
Proof. destruct t; reflexivity. Qed.
Lemma matches_Name g t : matches g Name t = is_ident t.
Proof. destruct t; reflexivity. Qed.
Lemma matches_Bind g t : matches g Bind t = is_binding_token g t.
Proof. destruct t; try reflexivity. apply bindable_eq. Qed.
Lemma matches_Num g t : matches g Num t = is_numeric t.
Proof. destruct t; reflexivity. Qed.
Lemma matches_Str g t : matches g Str t = is_string t.
Proof. destruct t; reflexivity. Qed.
Lemma matches_RegEx g t : matches g RegEx t = is_regex t.
Proof. destruct t; reflexivity. Qed.
Lemma matches_Eof g t : matches g Eof t = is_eof t.
Proof. destruct t; reflexivity. Qed.
Lemma one_of_nil g t : one_of g [] t = false.
Proof. reflexivity. Qed.
Lemma one_of_cons g a l t : one_of g (a :: l) t = matches g a t || one_of g l t.
Proof. reflexivity. Qed.
Lemma one_of_app g l m t : one_of g (l ++ m) t = one_of g l t || one_of g m t.
Proof. apply existsb_app. Qed.

Definition starts (l : list term) (g : grammar_flags) (i : input) : bool := one_of g l (tok0 i).

Definition function_starts (i : input) : bool :=
  if maybe_async_function (second0 i) then is_keyword "async" (tok0 i) else is_keyword "function" (tok0 i).

Definition label_starts (i : input) : bool :=
  match second0 i with Some (_, TPunctuator Colon) => true | _ => false end.

Definition first (f : fn) (g : grammar_flags) (i : input) : bool :=
  let t := tok0 i in
  match f with
  | F_script_item | F_statement_list_item =>
    starts declaration_keyword g i || starts statement_keyword g i || label_starts i || starts expression_start g i
  | F_module_item =>
    starts declaration_keyword g i || starts statement_keyword g i || label_starts i || starts expression_start g i ||
    is_keyword "import" t || is_keyword "export" t
  | F_statement => starts statement_keyword g i || label_starts i || starts expression_start g i
  | F_declaration => starts declaration_keyword g i
  | F_expression | F_assignment | F_reify_arrow | F_expression_statement => starts expression_start g i
  | F_yield => is_keyword "yield" t
  | F_conditional | F_fancy _ | F_exponential | F_unary => starts unary_start g i
  | F_delete => is_keyword "delete" t
  | F_void => is_keyword "void" t
  | F_typeof => is_keyword "typeof" t
  | F_plus => is_punc Plus t
  | F_minus => is_punc Minus t
  | F_tilde => is_punc Tilde t
  | F_exclam => is_punc Exclam t
  | F_await => allow_await g && is_keyword "await" t
  | F_update => starts update_start g i
  | F_left_hand _ => starts left_hand_start g i
  | F_primary => starts primary_start g i
  | F_call_arguments | F_cover_parenthesized | F_function_params | F_method_tail _ => is_punc ParenOpen t
  | F_meta_property => is_keyword "new" t
  | F_array_literal | F_array_binding_pattern | F_computed_property_name => is_punc SquareOpen t
  | F_object_literal | F_object_binding_pattern | F_block => is_punc CurlyOpen t
  | F_object_property => starts property_start g i
  | F_template_literal => is_template_start t
  | F_variable_statement => is_keyword "var" t
  | F_binding_pattern => is_punc CurlyOpen t || is_punc SquareOpen t
  | F_binding_property | F_property_name => is_ident t || is_string t || is_numeric t || is_punc SquareOpen t
  | F_binding_rest_element => is_punc Ellipsis t
  | F_binding_element => is_punc CurlyOpen t || is_punc SquareOpen t || is_binding_token g t
  | F_initializer => is_punc Eq_ t
  | F_if => is_keyword "if" t
  | F_breakable => is_keyword "do" t || is_keyword "while" t || is_keyword "for" t || is_keyword "switch" t
  | F_iteration => is_keyword "do" t || is_keyword "while" t || is_keyword "for" t
  | F_do_while => is_keyword "do" t
  | F_while => is_keyword "while" t
  | F_for => is_keyword "for" t
  | F_switch => is_keyword "switch" t
  | F_default_clause => is_keyword "default" t
  | F_case_clause => is_keyword "case" t
  | F_return => is_keyword "return" t
  | F_with => is_keyword "with" t
  | F_labelled => label_starts i
  | F_throw => is_keyword "throw" t
  | F_try => is_keyword "try" t
  | F_let_declaration => is_keyword "let" t
  | F_const_declaration => is_keyword "const" t
  | F_function_declaration | F_function_expression => function_starts i
  | F_class_declaration => is_keyword "class" t
  | F_class_heritage => is_keyword "extends" t
  | F_class_item => is_punc Semicolon t || is_punc Star t || (is_ident t || is_string t || is_numeric t || is_punc SquareOpen t)
  | F_import_declaration => is_keyword "import" t
  | F_export_declaration => is_keyword "export" t
  | _ => true
  end.

Definition firstness (f : fn) (g : grammar_flags) (i : input) (r : ares (option unit)) : Prop :=
  match r with
  | AOk None _ => first f g i = false
  | AOk (Some _) _ | AErr _ _ => first f g i = true
  | _ => True
  end.

(** Facts about the starts of expressions. *)
Lemma primary_start_eq g i : starts primary_start g i =
  match primary_type_of g (tok0 i) with Some _ => true | None => false end.
Proof.
  unfold starts, primary_start. rewrite !one_of_cons, one_of_nil, matches_Bind, !matches_K. generalize (tok0 i). intros t.
  destruct t as [p| | | | |n| | |f ? ?|]; try reflexivity; [destruct p; reflexivity| |destruct f; reflexivity].
  cbn [is_keyword is_binding_token primary_type_of matches].
  repeat match goal with |- context [kw ?k n] => destruct (kw k n); cbn [orb]; try reflexivity end.
  destruct (is_binding_identifier g n); reflexivity.
Qed.
Lemma left_hand_start_eq g i : starts left_hand_start g i =
  is_keyword "new" (tok0 i) || (is_keyword "super" (tok0 i) || starts primary_start g i).
Proof. unfold starts, left_hand_start. rewrite !one_of_cons, !matches_K. reflexivity. Qed.
Lemma update_start_eq g i : starts update_start g i =
  is_punc PlusPlus (tok0 i) || (is_punc MinusMinus (tok0 i) || starts left_hand_start g i).
Proof. unfold starts, update_start. rewrite !one_of_cons, !matches_P. reflexivity. Qed.
Lemma unary_start_eq g i : starts unary_start g i =
  match unary_type_of (tok0 i) with UUnknown => starts update_start g i | _ => true end.
Proof.
  unfold starts, unary_start, unary_operator. rewrite one_of_cons, one_of_app, !one_of_cons, one_of_nil, !matches_K.
  generalize (one_of g update_start (tok0 i)). intros b. generalize (tok0 i). intros t.
  destruct t as [p| | | | |n| | |f ? ?|]; try reflexivity; [destruct p; reflexivity|].
  cbn [is_keyword unary_type_of matches].
  repeat match goal with |- context [kw ?k n] => destruct (kw k n); cbn [orb]; try reflexivity end.
Qed.
Lemma expression_start_eq g i : starts expression_start g i = is_keyword "yield" (tok0 i) || starts unary_start g i.
Proof. unfold starts, expression_start. rewrite !one_of_cons, !matches_K. reflexivity. Qed.
Lemma statement_keyword_eq g i : starts statement_keyword g i =
  match statement_type_of (tok0 i) with SUnknown => false | _ => true end.
Proof.
  unfold starts, statement_keyword. rewrite !one_of_cons, one_of_nil, !matches_K. generalize (tok0 i). intros t.
  destruct t as [p| | | | |n| | |f ? ?|]; try reflexivity; [destruct p; reflexivity|].
  cbn [is_keyword statement_type_of matches].
  repeat match goal with |- context [kw ?k n] => destruct (kw k n); cbn [orb]; try reflexivity end.
Qed.
Lemma declaration_keyword_eq g i : starts declaration_keyword g i =
  match decl_type_of (tok0 i) with None => false | _ => true end.
Proof.
  unfold starts, declaration_keyword. rewrite !one_of_cons, one_of_nil, !matches_K. generalize (tok0 i). intros t.
  destruct t as [p| | | | |n| | |f ? ?|]; try reflexivity.
  cbn [is_keyword decl_type_of matches].
  repeat match goal with |- context [kw ?k n] => destruct (kw k n); cbn [orb]; try reflexivity end.
Qed.
Lemma property_start_eq g i : starts property_start g i =
  is_punc Ellipsis (tok0 i) || (is_punc Star (tok0 i) || (is_ident (tok0 i) || is_string (tok0 i) || is_numeric (tok0 i) || is_punc SquareOpen (tok0 i))).
Proof.
  unfold starts, property_start, property_name_start. rewrite !one_of_cons, one_of_nil, !matches_P, matches_Name, matches_Num, matches_Str.
  rewrite !orb_false_r, !orb_assoc. reflexivity.
Qed.

Lemma keyword_ident k t : is_keyword k t = true -> is_ident t = true.
Proof. destruct t; cbn; try discriminate. reflexivity. Qed.
Lemma keyword_yield_unary g i : is_keyword "yield" (tok0 i) = true -> starts unary_start g i = false.
Proof.
  intros H. unfold starts. destruct (tok0 i); try discriminate. apply kw_true in H. subst.
  destruct g as [? ? [] ? ? ? [] ?]; reflexivity.
Qed.
Lemma labelled_second i x y : second0 i = Some (x, y) -> is_ident (tok0 i) = true.
Proof. unfold second. destruct (tok0 i); try discriminate. reflexivity. Qed.

Ltac first_norm :=
  rewrite ?expression_start_eq, ?unary_start_eq, ?update_start_eq, ?left_hand_start_eq, ?primary_start_eq,
    ?statement_keyword_eq, ?declaration_keyword_eq, ?property_start_eq in *; unfold function_starts, label_starts in *;
  repeat match goal with
  | H : ?a || ?b = false |- _ => let H' := fresh in apply orb_false_elim in H; destruct H as [H H']
  end;
  repeat match goal with H : ?x = ?y |- context [?x] => rewrite H end; cbn [orb andb].

Lemma async_starts g i : is_keyword "async" (tok0 i) = true -> starts expression_start g i = true.
Proof.
  intros H. unfold starts. destruct (tok0 i); try discriminate. apply kw_true in H. subst.
  destruct g as [? ? [] ? ? ? [] ?]; reflexivity.
Qed.

Lemma curly_starts g i : is_punc CurlyOpen (tok0 i) = true -> starts expression_start g i = true.
Proof. unfold starts. destruct (tok0 i) as [[]| | | | | | | | |]; try discriminate. reflexivity. Qed.

(** Only [is_strict] and [allow_await] matter. *)
Lemma is_binding_token_flag g f v t : f <> FAwait -> f <> FStrict -> is_binding_token (set_flag g f v) t = is_binding_token g t.
Proof. intros A S. destruct t; try reflexivity. unfold is_binding_token. rewrite <- !bindable_eq. destruct g, f; try reflexivity; contradiction. Qed.
Lemma matches_flag g f v t k : f <> FAwait -> f <> FStrict -> matches (set_flag g f v) k t = matches g k t.
Proof. intros A S. destruct k; try reflexivity. rewrite !matches_Bind. apply is_binding_token_flag; assumption. Qed.
Lemma one_of_flag l g f v t : f <> FAwait -> f <> FStrict -> one_of (set_flag g f v) l t = one_of g l t.
Proof. intros A S. induction l as [|k l IH]; [reflexivity|]. rewrite !one_of_cons, IH, matches_flag by assumption. reflexivity. Qed.
Lemma starts_flag l g f v i : f <> FAwait -> f <> FStrict -> starts l (set_flag g f v) i = starts l g i.
Proof. apply one_of_flag. Qed.

Ltac fin :=
  cbn [firstness first]; cbv zeta;
  first [exact I | assumption | reflexivity | discriminate
        | match goal with H : is_keyword "async" _ = true |- starts expression_start _ _ = _ => exact (async_starts _ _ H) end
        | match goal with H : is_punc CurlyOpen _ = true |- starts expression_start _ _ = _ => exact (curly_starts _ _ H) end
        | match goal with H : starts primary_start _ _ = true |- _ => rewrite left_hand_start_eq, H, !orb_true_r; reflexivity end
        | match goal with H : allow_await _ = _ |- _ => cbn; rewrite H; first [assumption|reflexivity] end
        | match goal with H : negb (allow_await ?g) = _ |- _ => destruct (allow_await g); first [discriminate H|first [assumption|reflexivity]] end
        | match goal with H : is_keyword _ (tok0 ?i) = true |- starts property_start _ ?i = _ =>
            rewrite property_start_eq, (keyword_ident _ _ H), ?orb_true_r; reflexivity end
        | match goal with H : is_keyword _ (tok0 ?i) = true |- _ || _ = _ => 
            rewrite (keyword_ident _ _ H), ?orb_true_r; reflexivity end
        | first_norm; first [reflexivity|assumption|discriminate|congruence]].

Ltac on_call IH :=
  match goal with
  | |- context [aexec ?e ?n ?f ?g ?i] =>
    let H := fresh "F" in let C := fresh in let H0 := fresh in
    generalize (IH f g i) (consumption_holds e n f g i); destruct (aexec e n f g i) as [[[]|] ?|? ?|?|?];
      cbn [firstness consumption]; cbn [first consuming total negb]; cbv zeta;
      [intros H _|intros H [C H0]; first [discriminate H0|clear H0; subst]|intros H _|intros _ []|intros _ _]; 
      rewrite ?starts_flag in * by discriminate; hnf_kont
  end.

Lemma first_holds n : forall f g i, firstness f g i (aexec TEOF n f g i).
Proof.
  induction n as [|n IH]; intros f g i; [exact I|].
  change (wpr TEOF (aexec TEOF n) (body f) g i (firstness f g i)).
  destruct f; cbn [body]; (repeat (try exact I; first [wstep|on_call IH]); fin).
Qed.
