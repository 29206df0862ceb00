(** Displayed statements (properties.jsonl, C51-C52). Each theorem is followed by a case that
    meets its hypotheses. *)
From Coq Require Import String List Arith NArith Bool Lia.
From Verif Require Import Base Tokens SpecTokens SpecHints Tokenizer ParserCore ParserBody.
From Verif Require Import PropertiesTokenizer PropertiesLanguage Formatter SpecFormatter Nodes SpecNodes PropertiesNodes Statements SpecStatements StatementText.
Import ListNotations.

(** ** C51 Displayed scripts are accepted *)
Theorem C51_accepted : forall E r n directives body, formed_script directives body ->
  let source := display (fmt_whole_script directives body) in
  length source < r -> 20 * length source + 80 <= n ->
  parse_root E r n source = Accepted.
Proof. exact whole_accepted. Qed.

(** The conditions of [formed_script] are needed, up to the one that thrown expressions are
    at the end of a block or script: what stands behind them is read as a part of them (C52). *)
Definition id_ (s : string) : identifier := (s2b s, None).
Definition declare (s : string) : declarator := Declarator (id_ s) None.
Fixpoint statements_of (l : list statement) : statements :=
  match l with [] => No_statements | s :: l' => Cons_statement s (statements_of l') end.
Definition shown (l : list statement) : bytes := display (fmt_whole_script [] (statements_of l)).
Definition rejected_scripts : list (list statement) :=
  [ [St_for (Some (Init_declaration D_var [] (declare "a"))) None None St_empty];
    [St_declaration D_const [] (declare "a")];
    [St_if (name_ "a") (St_declaration D_let [] (declare "b"))];
    [St_switch (name_ "a") (Cons_clause (Some (name_ "b")) No_statements (Cons_clause None No_statements No_clauses))];
    [St_try_catch No_statements None No_statements];
    [St_for_await (Left_identifier (id_ "a")) (name_ "b") St_empty];
    [St_for_of (Left_identifier (id_ "a")) (E_sequence (name_ "b") (name_ "c")) St_empty];
    [St_for_in (Left_declaration D_var (id_ "a") (Some (name_ "b"))) (name_ "c") St_empty];
    [St_for_of (Left_declaration D_let (id_ "of") None) (name_ "a") St_empty] ].
Theorem C51_refuted : Forall (fun l => exists x, parse_root debug_build 100 1000 (shown l) = Rejected x) rejected_scripts.
Proof. repeat (constructor; [eexists; vm_compute; reflexivity|]). constructor. Qed.
Print Assumptions C51_accepted.
Print Assumptions C51_refuted.
Example C51_shown : map shown rejected_scripts = map s2b
  ["for(var a;;;);"; "const a;"; "if(a)let b;"; "switch(a){case b:default:}"; "try{}catch{}"; "for await(a of b);"; "for(a of b,c);";
   "for(var a=b in c);"; "for(let of of a);"]%string.
Proof. vm_compute. reflexivity. Qed.

Definition script_c : list statement :=
  [ St_declaration D_const [Declarator (id_ "a") (Some (E_conditional E_this E_null (name_ "b")))] (Declarator (id_ "c") (Some (E_sequence E_this E_this)));
    St_if_else (name_ "a")
      (St_while (name_ "b") (St_if (name_ "c") (St_throw (name_ "a"))))
      (St_for (Some (Init_expression (name_ "a"))) None (Some (name_ "b")) (St_labelled (id_ "c") (St_break (Some (id_ "c")))));
    St_for_in (Left_declaration D_let (id_ "a") None) (name_ "b") (St_do_while (St_block No_statements) E_this);
    St_try_catch_finally (statements_of [St_throw (name_ "a")]) (Some (id_ "b"))
      (statements_of [St_switch (name_ "b")
         (Cons_clause None (statements_of [St_continue None; St_debugger]) (Cons_clause (Some E_this) (statements_of [St_return (Some E_null)]) No_clauses))])
      (statements_of [St_with (name_ "a") St_empty]) ].
Definition source_c : string :=
  "'use strict';const a=this?null:b,c=(this,this);if(a)while(b){if(c)throw a}else for(a;;b)c:break c;for(let a in b)do{}while(this);"%string ++
  "try{throw a}catch(b){switch(b){default:continue;debugger;case this:return null;}}finally{with(a);}"%string.
Example C51_case : formed_script [s2b "use strict"] (statements_of script_c) /\
  display (fmt_whole_script [s2b "use strict"] (statements_of script_c)) = s2b source_c.
Proof.
  split; [|vm_compute; reflexivity].
  assert (W : forall w, In w ["a"; "b"; "c"]%string -> variable (s2b w) /\ s2b w <> s2b "let").
  { intros w H. split; [split|]; cbn [In] in H; repeat (destruct H as [<-|H]); try contradiction H; try discriminate; try (split; [reflexivity|discriminate]);
      cbn; (eexists _, _; split; [reflexivity|]); unfold ident_char, digit, lower, upper; (split; [lia|split; [lia|constructor]]). }
  split.
  - constructor; [|constructor]. split; [some_utf8|]. exists false. cbn.
    repeat (apply st_char; [discriminate|discriminate|discriminate|intros K; discriminate K|intros [[r K]|[r K]]; discriminate K|]). constructor.
  - unfold script_c, name_, id_, declare. cbn [statements_of formed formed_list formed_clauses for_left_formed declared named optional well_formed given fst snd lexical sequence_ ends_throwing negb andb].
    repeat match goal with
    | |- _ /\ _ => split
    | |- variable _ => apply W; cbn; auto
    | |- True => exact I
    | |- Forall _ _ => constructor
    | |- declared _ _ => cbn [declared named optional well_formed given fst snd]
    | |- _ <> _ => discriminate
    | |- _ -> _ => intros ?
    end; try reflexivity; try discriminate; auto; apply W; cbn; auto.
Qed.

(** ** C52 Different scripts are displayed alike

    A thrown expression and the statement behind it run together, and a string that is a
    statement is displayed as a directive. *)
Definition script (l : list statement) : statements := statements_of l.
Theorem C52_throw_refuted : forall a b c,
  let a := E_binding a None in
  let b := E_new_empty (E_binding b None) in
  let c := A_identifier c None in
  display (fmt_whole_script [] (script [St_throw a; St_expression (E_member b c)])) =
  display (fmt_whole_script [] (script [St_throw (E_member (E_call a No_args (Last (Arg_expression b))) c); St_empty])).
Proof. exact throw_alike. Qed.
Theorem C52_directive_refuted : forall d ds body,
  display (fmt_whole_script (d :: ds) body) =
  display (fmt_whole_script [] (Cons_statement (St_expression (E_string d None)) (fold_right (fun d => Cons_statement (St_expression (E_string d None))) body ds))).
Proof. exact directive_alike. Qed.
Print Assumptions C52_throw_refuted.
Print Assumptions C52_directive_refuted.
Example C52_case :
  shown [St_throw (name_ "a"); St_expression (E_member (E_new_empty (name_ "b")) (A_identifier (s2b "c") None))] = s2b "throw a(new b).c;" /\
  shown [St_throw (E_numeric (s2b "1")); St_expression (E_numeric (s2b "2"))] = shown [St_throw (E_numeric (s2b "12")); St_empty] /\
  display (fmt_whole_script [s2b "use strict"] No_statements) = s2b "'use strict';".
Proof. vm_compute. repeat split. Qed.
