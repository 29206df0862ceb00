(** Completeness for the other nonterminals. *)
From Coq Require Import String List Arith NArith Bool Lia.
From Verif Require Import Base Tokens ByteFacts ParserCore ParserBody AbstractParser ParserExec ParserTerminates
  SpecGrammar GrammarFirst GrammarRules Precedence CompleteBase.
Import ListNotations.
Local Open Scope string_scope.
Local Opaque parse.

Lemma c_module_items : complete_at NModuleItems.
Proof. comp. Qed.
Lemma c_module_item : complete_at NModuleItem.
Proof. comp. Qed.
Lemma c_script_item : complete_at NScriptItem.
Proof. comp. Qed.
Lemma c_import : complete_at NImport.
Proof. comp. Qed.
Lemma c_import_specifiers : complete_at NImportSpecifiers.
Proof. comp. Qed.
Lemma c_export : complete_at NExport.
Proof. comp. Qed.
Lemma c_export_specifiers : complete_at NExportSpecifiers.
Proof. comp. Qed.
Lemma c_statement_list : complete_at NStatementList.
Proof. comp. Qed.
Lemma c_statement_list_item : complete_at NStatementListItem.
Proof. comp. Qed.
Lemma c_block : complete_at NBlock.
Proof. comp. Qed.
Lemma c_declaration : complete_at NDeclaration.
Proof. comp. Qed.
Lemma c_lexical q : complete_at (NLexical q).
Proof. destruct q; comp. Qed.
Lemma c_lexical_tail q : complete_at (NLexicalTail q).
Proof. destruct q; comp. Qed.
Lemma c_let : complete_at NLet.
Proof. comp. Qed.
Lemma c_const : complete_at NConst.
Proof. comp. Qed.
Lemma c_variable_statement : complete_at NVariableStatement.
Proof. comp. Qed.
Lemma c_variable_tail : complete_at NVariableTail.
Proof. comp. Qed.
Lemma c_variable : complete_at NVariable.
Proof. comp. Qed.
Lemma c_if : complete_at NIf.
Proof. comp. Qed.
Lemma c_breakable : complete_at NBreakable.
Proof. comp. Qed.
Lemma c_iteration : complete_at NIteration.
Proof. comp. Qed.
Lemma c_do_while : complete_at NDoWhile.
Proof. comp. Qed.
Lemma c_while : complete_at NWhile.
Proof. comp. Qed.
Lemma c_for_more k : complete_at (NForMore k).
Proof. destruct k; comp. Qed.
Lemma c_switch : complete_at NSwitch.
Proof. comp. Qed.
Lemma c_clauses d : complete_at (NClauses d).
Proof. destruct d; comp. Qed.
Lemma c_case_clause : complete_at NCaseClause.
Proof. comp. Qed.
Lemma c_default_clause : complete_at NDefaultClause.
Proof. comp. Qed.
Lemma c_return : complete_at NReturn.
Proof. comp. Qed.
Lemma c_with : complete_at NWith.
Proof. comp. Qed.
Lemma c_labelled : complete_at NLabelled.
Proof. comp. Qed.
Lemma c_throw : complete_at NThrow.
Proof. comp. Qed.
Lemma c_try : complete_at NTry.
Proof. comp. Qed.
Lemma c_expression_statement : complete_at NExpressionStatement.
Proof. comp. Qed.
Lemma c_pattern : complete_at NPattern.
Proof. comp. Qed.
Lemma c_object_pattern : complete_at NObjectPattern.
Proof. comp. Qed.
Lemma c_pattern_properties : complete_at NPatternProperties.
Proof. comp. Qed.
Lemma c_pattern_property : complete_at NPatternProperty.
Proof. comp. Qed.
Lemma c_property_name : complete_at NPropertyName.
Proof. comp. Qed.
Lemma c_computed_name : complete_at NComputedName.
Proof. comp. Qed.
Lemma c_array_pattern : complete_at NArrayPattern.
Proof. comp. Qed.
Lemma c_pattern_elements : complete_at NPatternElements.
Proof. comp. Qed.
Lemma c_rest_element : complete_at NRestElement.
Proof. comp. Qed.
Lemma c_pattern_element : complete_at NPatternElement.
Proof. comp. Qed.
Lemma c_initializer : complete_at NInitializer.
Proof. comp. Qed.
Lemma c_function_declaration : complete_at NFunctionDeclaration.
Proof. comp. Qed.
Lemma c_parameters : complete_at NParameters.
Proof. comp. Qed.
Lemma c_parameter_list : complete_at NParameterList.
Proof. comp. Qed.
Lemma c_class : complete_at NClass.
Proof. comp. Qed.
Lemma c_class_body : complete_at NClassBody.
Proof. comp. Qed.
Lemma c_class_items : complete_at NClassItems.
Proof. comp. Qed.
Lemma c_method_tail h : complete_at (NMethodTail h).
Proof. destruct h as [[] [] []]; comp. Qed.
Lemma c_expression : complete_at NExpression.
Proof. comp. Qed.
Lemma c_expression_tail : complete_at NExpressionTail.
Proof. comp. Qed.
Lemma c_assignment : complete_at NAssignment.
Proof. comp. Qed.
Lemma c_arrow_body : complete_at NArrowBody.
Proof. comp. Qed.
Lemma c_yield : complete_at NYield.
Proof. comp. Qed.
Lemma c_conditional : complete_at NConditional.
Proof. comp. Qed.
Lemma c_unary : complete_at NUnary.
Proof. comp. Qed.
Lemma c_update : complete_at NUpdate.
Proof. comp. Qed.
Lemma c_left_hand c : complete_at (NLeftHand c).
Proof. destruct c; comp. Qed.
Lemma c_left_hand_tail c : complete_at (NLeftHandTail c).
Proof. destruct c; comp. Qed.
Lemma c_arguments : complete_at NArguments.
Proof. comp. Qed.
Lemma c_argument_list : complete_at NArgumentList.
Proof. comp. Qed.
Lemma c_array : complete_at NArray.
Proof. comp. Qed.
Lemma c_elements : complete_at NElements.
Proof. comp. Qed.
Lemma c_element : complete_at NElement.
Proof. comp. Qed.
Lemma c_object : complete_at NObject.
Proof. comp. Qed.
Lemma c_properties : complete_at NProperties.
Proof. comp. Qed.
Lemma c_template : complete_at NTemplate.
Proof. comp. Qed.
Lemma c_template_rest : complete_at NTemplateRest.
Proof. comp. Qed.
Lemma c_parenthesized : complete_at NParenthesized.
Proof. comp. Qed.
Lemma c_parenthesized_tail : complete_at NParenthesizedTail.
Proof. comp. Qed.
