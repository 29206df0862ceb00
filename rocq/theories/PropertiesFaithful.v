(** Displayed trees keep their structure (properties.jsonl, C53). Each theorem is followed by
    a case that meets its hypotheses. *)
From Coq Require Import String List Arith NArith Bool Lia.
From Verif Require Import Base Tokens SpecTokens SpecHints Tokenizer ParserCore ParserBody.
From Verif Require Import PropertiesTokenizer PropertiesLanguage Formatter SpecFormatter Nodes SpecNodes PropertiesNodes.
From Verif Require Import Statements SpecStatements PropertiesStatements SpecFaithful FaithfulText.
Import ListNotations.

(** ** C53 Faithful trees are told apart *)
Theorem C53_expressions : forall es es',
  Forall well_formed es -> Forall faithful es -> Forall well_formed es' -> Forall faithful es' ->
  display (fmt_script es) = display (fmt_script es') -> es = es'.
Proof. exact expressions_determined. Qed.
Theorem C53_scripts : forall directives body directives' body',
  formed_script directives body -> faithful_script body -> formed_script directives' body' -> faithful_script body' ->
  display (fmt_whole_script directives body) = display (fmt_whole_script directives' body') <->
  directives = directives' /\ braced_list body = braced_list body'.
Proof. exact scripts_determined. Qed.
Print Assumptions C53_expressions.
Print Assumptions C53_scripts.

(** Trees with the same names, but another structure. *)
Definition a_call (c : expression) : expression := E_call c No_args No_last.
Definition tree_d1 : expression := a_call (E_member (E_new (name_ "a") No_args No_last) (A_computed (E_sequence (name_ "b") E_this))).
Definition tree_d2 : expression := E_new_empty (E_new (E_member (name_ "a") (A_computed (E_conditional (E_conditional E_this E_null E_this) E_null E_this))) No_args No_last).
Definition if_d (inner : statement -> statement) : list statement :=
  [ St_if_else (name_ "a") (St_while (name_ "b") (inner (St_if (name_ "c") (St_throw tree_d1)))) (St_expression tree_d2) ].
Example C53_case :
  (Forall well_formed [tree_d1; tree_d2] /\ Forall faithful [tree_d1; tree_d2]) /\
  display (fmt_script [tree_d1; tree_d2]) = s2b "new a()[(b,this)]();new new a[(this?null:this)?null:this]();" /\
  let bare := statements_of (if_d (fun s => s)) in
  let inner := statements_of (if_d (fun s => St_block (Cons_statement s No_statements))) in
  (formed_script [] bare /\ faithful_script bare) /\ (formed_script [] inner /\ faithful_script inner) /\
  bare <> inner /\ braced_list bare = inner /\ braced_list inner = inner /\
  display (fmt_whole_script [] bare) = s2b "if(a)while(b){if(c)throw new a()[(b,this)]()}else new new a[(this?null:this)?null:this]();".
Proof.
  assert (W : forall w, In w ["a"; "b"; "c"]%string -> variable (s2b w) /\ s2b w <> s2b "let").
  { intros w H. split; [split|]; cbn [In] in H; repeat (destruct H as [<-|H]); try contradiction H; try discriminate; try (split; [reflexivity|discriminate]);
      cbn; (eexists _, _; split; [reflexivity|]); unfold ident_char, digit, lower, upper; (split; [lia|split; [lia|constructor]]). }
  assert (D1 : well_formed tree_d1) by (repeat split; auto; apply W; cbn; auto).
  assert (D2 : well_formed tree_d2) by (repeat split; auto; apply W; cbn; auto).
  assert (F1 : faithful tree_d1) by (repeat split; discriminate).
  assert (F2 : faithful tree_d2) by (repeat split).
  assert (N : forall w, In w ["a"; "b"; "c"]%string -> well_formed (name_ w)) by (intros w H; split; apply W, H).
  split; [auto|]. split; [vm_compute; reflexivity|]. cbv zeta.
  split; [split; [split; [constructor|]|]|split; [split; [split; [constructor|]|]|]]; unfold if_d; cbn [statements_of].
  - cbn [formed_list formed lexical ends_throwing negb andb]. intuition auto; try (apply N; cbn; auto); discriminate.
  - split; [|exact I]. cbn [faithful_statements faithful_statement]. intuition auto; reflexivity.
  - cbn [formed_list formed lexical ends_throwing negb andb]. intuition auto; try (apply N; cbn; auto); discriminate.
  - split; [|exact I]. cbn [faithful_statements faithful_statement]. intuition auto; reflexivity.
  - split; [discriminate|]. split; [reflexivity|]. split; [reflexivity|]. vm_compute. reflexivity.
Qed.
