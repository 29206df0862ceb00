(** Symbolic execution of the parse functions on the abstract parser: tactics, and the
    first consequence: a parse function that matches consumes a token (loops and array
    items may match nothing), and one that does not match consumes none. *)
From Coq Require Import String List Arith NArith Bool Lia.
From Verif Require Import Base Tokens ParserCore ParserBody AbstractParser.
Import ListNotations.

Create HintDb pf.
Global Hint Unfold parse_left_hand_side_expression parse_expression parse_expression_loop parse_assignment_tail parse_assignment_expression reify_arrow reify_assignment parse_yield_expression parse_conditional_expression parse_fancy parse_fancy_loop parse_exponential_expression parse_unary_expression parse_delete_expression parse_void_expression parse_typeof_expression parse_plus_expression parse_minus_expression parse_tilde_expression parse_exclam_expression parse_await_expression parse_update_expression parse_super_expression parse_left_hand_expression parse_left_hand_loop parse_call_arguments parse_call_arguments_plain parse_call_arguments_loop parse_meta_property_expression parse_this_expression parse_null_expression parse_true_expression parse_false_expression parse_numeric_expression parse_string_expression parse_regular_expression_literal_expression parse_identifier_reference_expression parse_class_expression parse_primary_expression parse_array_literal_expression parse_array_literal_loop parse_object_literal_expression parse_object_literal_loop parse_method_head parse_object_property parse_array_item parse_template_literal_expression parse_template_literal_loop pattern_or_identifier parse_cover_parenthesized_expression parse_cover_parenthesized_loop parse_empty_statement parse_continue_statement parse_break_statement parse_debugger_statement parse_statement parse_statement_list_item parse_statement_list_loop parse_block_statement parse_variable_statement parse_variable_statement_loop parse_var_declarator parse_binding_pattern parse_object_binding_pattern parse_object_binding_pattern_loop parse_binding_property parse_literal_property_name parse_property_name parse_computed_property_name parse_array_binding_pattern parse_array_binding_pattern_loop parse_binding_rest_element parse_binding_element parse_initializer parse_expression_statement parse_if_statement parse_breakable_statement parse_iteration_statement parse_do_while_statement parse_while_statement for_declarator parse_for_declarators_loop for_declaration for_expression_head parse_for_head parse_for_tail parse_for_in_of parse_for_statement parse_switch_statement parse_switch_loop parse_default_clause parse_case_clause parse_return_statement parse_with_statement parse_labelled_statement parse_throw_statement parse_finally parse_try_statement parse_declaration parse_let_declaration parse_const_declaration parse_lexical_declarators_loop parse_lexical_declarator parse_function_rest parse_function_declaration_tail parse_function_declaration parse_function_expression parse_function_params parse_function_params_next parse_function_params_loop parse_class_declaration parse_class_heritage parse_class_body parse_class_body_loop parse_class_item parse_method_tail parse_import_specifier parse_from_clause parse_import_names parse_import_specifiers_loop parse_import_declaration parse_export_specifier parse_export_specifiers_loop parse_export_declaration parse_script_item parse_module_item parse_script_loop parse_module_loop parse_script parse_module
  reference_identifier label_identifier semicolon semicolon_dowhile : pf.


(** ** Symbolic execution

    [wpr call p g i Q]: the result of [p] satisfies [Q]. *)
Definition wpr {A : Set} (e : token) (call : acall) (p : prog A) (g : grammar_flags) (i : input)
  (Q : ares A -> Prop) : Prop := Q (ainterp e call p g i).

Definition kont {A B : Set} (e : token) (call : acall) (k : A -> prog B) (g : grammar_flags) (Q : ares B -> Prop)
  (r : ares A) : Prop :=
  match r with
  | AOk a i => wpr e call (k a) g i Q
  | AErr x i => Q (AErr x i)
  | APanic w => Q (APanic w)
  | AFuel i => Q (AFuel i)
  end.

Section Rules.
Context (e : token) (call : acall).
Notation wp := (wpr e call).

Lemma wp_ret {A : Set} (a : A) g i (Q : _ -> Prop) : Q (AOk a i) -> wp (Ret a) g i Q.
Proof. exact (fun H => H). Qed.
Lemma wp_bind {A B : Set} (p : prog A) (k : A -> prog B) g i (Q : _ -> Prop) :
  wp p g i (kont e call k g Q) -> wp (Bind p k) g i Q.
Proof. unfold wpr, kont. cbn [ainterp]. destruct (ainterp e call p g i); exact (fun H => H). Qed.
Lemma wp_throw {A : Set} x g i (Q : _ -> Prop) : Q (AErr x i) -> wp (Throw x : prog A) g i Q.
Proof. exact (fun H => H). Qed.
Lemma wp_crash {A : Set} w g i (Q : _ -> Prop) : Q (APanic (P_unreachable w)) -> wp (Crash w : prog A) g i Q.
Proof. exact (fun H => H). Qed.
Lemma wp_with {A : Set} f v (p : prog A) g i (Q : _ -> Prop) :
  wp p (set_flag g f v) i Q -> wp (With f v p) g i Q.
Proof. exact (fun H => H). Qed.
Lemma wp_call f g i (Q : _ -> Prop) : Q (call f g i) -> wp (Call f) g i Q.
Proof. exact (fun H => H). Qed.
Lemma wp_token g i (Q : _ -> Prop) : Q (AOk (tok e i) i) -> wp token_ g i Q.
Proof. exact (fun H => H). Qed.
Lemma wp_noline g i (Q : _ -> Prop) : Q (AOk (negb (fst (cur e i))) i) -> wp no_line_terminator g i Q.
Proof. exact (fun H => H). Qed.
Lemma wp_lookahead g i (Q : _ -> Prop) : Q (AOk (second e i) i) -> wp ident_lookahead g i Q.
Proof. exact (fun H => H). Qed.
Lemma wp_flags g i (Q : _ -> Prop) : Q (AOk g i) -> wp get_flags g i Q.
Proof. exact (fun H => H). Qed.
Lemma wp_expect g i (Q : _ -> Prop) : Q (AOk tt i) -> wp expect_expression g i Q.
Proof. exact (fun H => H). Qed.
Lemma wp_pop g i (Q : _ -> Prop) : Q (AOk (tok e i) (tl i)) -> wp pop_ g i Q.
Proof. exact (fun H => H). Qed.

Lemma wp_eats p g i (Q : _ -> Prop) b :
  ainterp e call p g i = eats b i ->
  (b = true -> Q (AOk (Some tt) (tl i))) -> (b = false -> Q (AOk None i)) -> wp p g i Q.
Proof. intros H T F. unfold wpr. rewrite H. destruct b; [apply T|apply F]; reflexivity. Qed.
Lemma wp_semi b g i (Q : _ -> Prop) :
  (is_punc Semicolon (tok e i) = true -> Q (AOk (Some tt) (tl i))) ->
  (is_punc Semicolon (tok e i) = false -> asi e b i = true -> Q (AOk (Some tt) i)) ->
  (is_punc Semicolon (tok e i) = false -> asi e b i = false -> Q (AOk None i)) ->
  wp (semicolon_inner b) g i Q.
Proof.
  intros A B C. unfold wpr. rewrite semicolon_inner_eq.
  destruct (is_punc Semicolon (tok e i)); [auto|]. destruct (asi e b i); auto.
Qed.
Lemma wp_template g i (Q : _ -> Prop) :
  (is_template_start (tok e i) = true -> Q (AOk (Some (template_format_of (tok e i))) (tl i))) ->
  (is_template_start (tok e i) = false -> Q (AOk None i)) -> wp template g i Q.
Proof. intros T F. unfold wpr. rewrite template_eq. destruct (is_template_start (tok e i)); auto. Qed.
Lemma wp_template_tail g i (Q : _ -> Prop) :
  (is_template_end (tok e i) = true -> Q (AOk (Some (template_format_of (tok e i))) (tl i))) ->
  (is_template_end (tok e i) = false -> Q (AOk None i)) -> wp template_tail g i Q.
Proof. intros T F. unfold wpr. rewrite template_tail_eq. destruct (is_template_end (tok e i)); auto. Qed.
End Rules.

(** One step; [call_tac f g i] treats the call of [f]; leaves the goal alone when the
    program has been executed. *)
Ltac hnf_kont := cbv beta iota delta [kont].
Ltac wstep :=
  lazymatch goal with
  | |- wpr _ _ ?p _ _ _ =>
    lazymatch p with
    | Ret _ => apply wp_ret; hnf_kont
    | Bind _ _ => apply wp_bind
    | Throw _ => apply wp_throw; hnf_kont
    | Crash _ => apply wp_crash; hnf_kont
    | With _ _ _ => apply wp_with
    | Call _ => apply wp_call
    | token_ => apply wp_token; hnf_kont
    | no_line_terminator => apply wp_noline; hnf_kont
    | ident_lookahead => apply wp_lookahead; hnf_kont
    | get_flags => apply wp_flags; hnf_kont
    | expect_expression => apply wp_expect; hnf_kont
    | pop_ => apply wp_pop; hnf_kont
    | punc _ => eapply wp_eats; [apply punc_eq|intro; hnf_kont|intro; hnf_kont]
    | numeric => eapply wp_eats; [apply numeric_eq|intro; hnf_kont|intro; hnf_kont]
    | string_ => eapply wp_eats; [apply string_eq|intro; hnf_kont|intro; hnf_kont]
    | regex => eapply wp_eats; [apply regex_eq|intro; hnf_kont|intro; hnf_kont]
    | eof => eapply wp_eats; [apply eof_eq|intro; hnf_kont|intro; hnf_kont]
    | keyword _ => eapply wp_eats; [apply keyword_eq|intro; hnf_kont|intro; hnf_kont]
    | identifier => eapply wp_eats; [apply identifier_eq|intro; hnf_kont|intro; hnf_kont]
    | binding_identifier => eapply wp_eats; [apply binding_eq|intro; hnf_kont|intro; hnf_kont]
    | reference_identifier => eapply wp_eats; [apply binding_eq|intro; hnf_kont|intro; hnf_kont]
    | label_identifier => eapply wp_eats; [apply binding_eq|intro; hnf_kont|intro; hnf_kont]
    | semicolon => apply wp_semi; [intro; hnf_kont|intros ? ?; hnf_kont|intros ? ?; hnf_kont]
    | semicolon_dowhile => apply wp_semi; [intro; hnf_kont|intros ? ?; hnf_kont|intros ? ?; hnf_kont]
    | template => apply wp_template; [intro; hnf_kont|intro; hnf_kont]
    | template_tail => apply wp_template_tail; [intro; hnf_kont|intro; hnf_kont]
    | try_sequence _ => cbn [try_sequence]
    | match ?x with _ => _ end => destruct x eqn:?
    | ?f _ _ => unfold f; cbv beta
    | ?f _ => unfold f; cbv beta
    | ?f => unfold f
    end
  end.

(** Which parse functions consume a token whenever they match. *)
Definition consuming (f : fn) : bool :=
  match f with
  | L_script | L_module | L_expression | L_fancy _ _ | L_left_hand _ | L_call_arguments
  | L_array_literal | L_object_literal | L_cover_parenthesized | L_statement_list
  | L_variable_statement | L_object_binding_pattern | L_array_binding_pattern
  | L_for_declarators _ | L_switch _ | L_lexical_declarators _ | L_function_params
  | L_class_body | L_import_specifiers | L_export_specifiers | F_array_item => false
  | _ => true
  end.

(** Which parse functions never fail to match. *)
Definition total (f : fn) : bool :=
  match f with
  | L_template_literal | F_lexical_declarator _ | F_var_declarator | F_class_body | F_reify_assignment => true
  | _ => negb (consuming f)
  end.

Definition consumption (f : fn) (i : input) (r : ares (option unit)) : Prop :=
  match r with
  | AOk (Some _) i' => length i' <= length i - (if consuming f then 1 else 0)
  | AOk None i' => i' = i /\ total f = false
  | APanic _ => False
  | _ => True
  end.

Lemma length_tl {A} (l : list A) : length (tl l) = length l - 1.
Proof. destruct l; cbn; lia. Qed.



Section Consumption.
Variable e : token.

Lemma async_same_line g i : maybe_async_arrow g (second e i) = true -> fst (cur e (tl i)) = false.
Proof.
  unfold second. destruct (tok e i); cbn; try discriminate. destruct (cur e (tl i)) as [[] ?]; [discriminate|reflexivity].
Qed.

Ltac fin :=
  cbn [consumption consuming total negb]; rewrite ?length_tl in *;
  first [exact I | lia | split; reflexivity
        | match goal with A : maybe_async_arrow _ (second _ _) = true |- _ => apply async_same_line in A; rewrite A in *; discriminate end].

Ltac on_call IH :=
  match goal with
  | |- context [aexec ?e ?n ?f ?g ?i] =>
    let H := fresh "C" in let H0 := fresh in
    generalize (IH f g i); destruct (aexec e n f g i) as [[[]|] ?|? ?|?|?];
      cbn [consumption consuming total negb];
      [intros H|intros [H H0]; first [discriminate H0|clear H0; subst]|intros _|intros []|intros _]; hnf_kont
  end.

Lemma consumption_holds n : forall f g i, consumption f i (aexec e n f g i).
Proof.
  induction n as [|n IH]; intros f g i; [exact I|].
  change (wpr e (aexec e n) (body f) g i (consumption f i)).
  destruct f; cbn [body]; (repeat (try exact I; first [wstep|on_call IH]); fin).
Qed.
End Consumption.
