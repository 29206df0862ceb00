(** Completeness: whatever derives from a nonterminal is what its parse function
    consumes.  With soundness: parsing is exactly derivation. *)
From Coq Require Import String List Arith NArith Bool Lia.
From Verif Require Import Base Tokens ByteFacts ParserCore ParserBody AbstractParser ParserExec ParserTerminates
  SpecGrammar GrammarFirst GrammarRules Precedence CompleteBase
  CompleteFor CompleteProperty CompleteStatement CompleteRest GrammarSound.
Import ListNotations.
Local Open Scope string_scope.
Local Opaque parse.

Theorem complete_all n : complete_at n.
Proof.
  destruct n; try exact I.
  all: first [apply c_module_items|apply c_module_item|apply c_script_item|apply c_import|apply c_import_specifiers|apply c_export|apply c_export_specifiers|apply c_statement_list|apply c_statement_list_item|apply c_statement|apply c_block|apply c_declaration|apply c_lexical|apply c_lexical_tail|apply c_let|apply c_const|apply c_variable_statement|apply c_variable_tail|apply c_variable|apply c_if|apply c_breakable|apply c_iteration|apply c_do_while|apply c_while|apply c_for|apply c_for_more|apply c_switch|apply c_clauses|apply c_case_clause|apply c_default_clause|apply c_return|apply c_with|apply c_labelled|apply c_throw|apply c_try|apply c_expression_statement|apply c_pattern|apply c_object_pattern|apply c_pattern_properties|apply c_pattern_property|apply c_property_name|apply c_computed_name|apply c_array_pattern|apply c_pattern_elements|apply c_rest_element|apply c_pattern_element|apply c_initializer|apply c_function_declaration|apply c_parameters|apply c_parameter_list|apply c_class|apply c_class_body|apply c_class_items|apply c_class_item|apply c_method_tail|apply c_expression|apply c_expression_tail|apply c_assignment|apply c_arrow_body|apply c_yield|apply c_conditional|apply c_binary|apply c_binary_tail|apply c_unary|apply c_update|apply c_left_hand|apply c_left_hand_tail|apply c_arguments|apply c_argument_list|apply c_primary|apply c_array|apply c_elements|apply c_element|apply c_object|apply c_properties|apply c_property|apply c_template|apply c_template_rest|apply c_parenthesized|apply c_parenthesized_tail].
Qed.

Lemma done_all : (forall g n i r, derives g n i r -> done g n i r) /\
  (forall g alpha i r, derives_seq g alpha i r -> done_seq g alpha i r).
Proof.
  apply derives_both; intros.
  - destruct (fn_of n) as [F|] eqn:E; [|eapply done_other; eassumption].
    eapply done_fn; [exact E|]. pose proof (complete_all n) as C. unfold complete_at in C. rewrite E in C. eapply C; eassumption.
  - apply done_end.
  - apply done_token; assumption.
  - eapply done_nonterminal; eassumption.
  - apply done_semicolon; assumption.
  - apply done_inserted; assumption.
  - apply done_condition; assumption.
Qed.

Theorem complete_holds n F g i r p : fn_of n = Some F -> derives g n i r -> parse0 (F p g) g i = ok r.
Proof.
  intros E D. apply (proj1 done_all) in D. exact (i_fn _ _ _ _ _ D E p).
Qed.
