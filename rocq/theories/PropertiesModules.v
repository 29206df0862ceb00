(** Displayed modules (properties.jsonl, C58 and C59). Each theorem is followed by a case that meets its
    hypotheses. *)
From Coq Require Import String List Arith NArith Bool Lia.
From Verif Require Import Base Tokens SpecTokens SpecHints Tokenizer ParserCore ParserBody.
From Verif Require Import PropertiesTokenizer PropertiesLanguage Formatter SpecFormatter Nodes SpecNodes PropertiesNodes Statements SpecStatements PropertiesStatements
  Modules SpecModules ModuleText SpecFaithful SpecFaithfulModules FaithfulModules.
Import ListNotations.

(** ** C58 Displayed modules are accepted *)
Theorem C58_accepted : forall E r n directives body, formed_module directives body ->
  let source := display (fmt_module directives body) in
  length source < r -> 20 * length source + 80 <= n ->
  parse_root E r n source = Accepted.
Proof. exact module_accepted. Qed.
Print Assumptions C58_accepted.

(** The conditions of [formed_items] on imports and exports are needed. *)
Definition module_text (l : list module_item) : bytes := display (fmt_module [] l).
Definition file_ : source_string := (s2b "f", None).
Definition as_ (a b : string) : specifier := Aliased_specifier (PropertiesStatements.id_ a) (PropertiesStatements.id_ b).
Definition only_ (a : string) : specifier := Normal_specifier (PropertiesStatements.id_ a).
Definition rejected_modules : list (list module_item) :=
  [ [Mi_export_declaration D_var [] (declare "a"); Mi_statement (St_expression (name_ "b"))];
    [Mi_export_declaration D_let [] (declare "a"); Mi_import_named (PropertiesStatements.id_ "b") file_];
    [Mi_export_declaration D_const [] (Declarator (PropertiesStatements.id_ "a") (Some E_this)); Mi_export_all file_];
    [Mi_export_named (PropertiesStatements.id_ "a") file_];
    [Mi_export_named_and_namespace (PropertiesStatements.id_ "a") (PropertiesStatements.id_ "b") file_];
    [Mi_export_namespace (PropertiesStatements.id_ "a") file_];
    [Mi_export_named_and_specifiers (PropertiesStatements.id_ "a") [] (Some (only_ "b")) file_];
    [Mi_import_named (PropertiesStatements.id_ "default") file_];
    [Mi_import_namespace (PropertiesStatements.id_ "default") file_];
    [Mi_export_function Fn_normal (PropertiesStatements.id_ "a") (Function_parts [] None [] No_statements)];
    [Mi_export_function Fn_generator (PropertiesStatements.id_ "a") (Function_parts [] None [] No_statements)];
    [Mi_function Fn_async (PropertiesStatements.id_ "a") (Function_parts [] None [] No_statements)];
    [Mi_function Fn_async_generator (PropertiesStatements.id_ "a") (Function_parts [] None [] No_statements)];
    [Mi_function Fn_normal (PropertiesStatements.id_ "default") (Function_parts [] None [] No_statements)];
    [Mi_function Fn_normal (PropertiesStatements.id_ "a") (Function_parts [declare "default"] None [] No_statements)] ].
Theorem C58_refuted : Forall (fun l => exists x, parse_root debug_build 100 1000 (module_text l) = Rejected x) rejected_modules.
Proof. repeat (constructor; [eexists; vm_compute; reflexivity|]). constructor. Qed.
Print Assumptions C58_refuted.
Example C58_shown : map module_text rejected_modules = map s2b
  ["export var a;b;"; "export let a;import b from'f';"; "export const a=this;export*from'f';"; "export a from'f';"; "export a,*as b from'f';";
   "export*as a from'f';"; "export a,{b}from'f';"; "import default from'f';"; "import*as default from'f';";
   "export function a(){}"; "export function*a(){}"; "async function a(){}"; "async function*a(){}"; "function default(){}"; "function a(default,){}"]%string.
Proof. vm_compute. reflexivity. Qed.

Definition module_c : list module_item :=
  [ Mi_import_named (PropertiesStatements.id_ "a") file_;
    Mi_import_named_and_namespace (PropertiesStatements.id_ "a") (PropertiesStatements.id_ "b") file_;
    Mi_import_namespace (PropertiesStatements.id_ "b") file_;
    Mi_import_named_and_specifiers (PropertiesStatements.id_ "a") [as_ "default" "b"; only_ "as"] None file_;
    Mi_import_specifiers [only_ "b"] (as_ "as" "c") file_;
    Mi_export_default (E_sequence (name_ "a") E_this);
    Mi_export_declaration D_const [] (Declarator (PropertiesStatements.id_ "a") (Some E_this));
    Mi_statement St_empty;
    Mi_export_local [as_ "a" "default"] (Some (only_ "b"));
    Mi_export_source [] (Some (as_ "default" "c")) file_;
    Mi_export_all file_;
    Mi_function Fn_normal (PropertiesStatements.id_ "a") (Function_parts [] None [] No_statements);
    Mi_function Fn_generator (PropertiesStatements.id_ "b")
      (Function_parts [declare "a"; Declarator (PropertiesStatements.id_ "b") (Some (E_sequence (name_ "a") E_this))] (Some (Rest_param (PropertiesStatements.id_ "c"))) [s2b "use strict"]
        (Cons_statement (St_throw (name_ "a")) No_statements));
    Mi_export_default_function Fn_normal None (Function_parts [declare "a"] None [] (Cons_statement St_empty No_statements));
    Mi_export_default_function Fn_generator (Some (PropertiesStatements.id_ "c")) (Function_parts [] (Some (Last_param (Declarator (PropertiesStatements.id_ "a") (Some E_this)))) [] No_statements);
    Mi_statement (St_if (name_ "a") (St_throw (name_ "b"))) ].
Definition module_source : string :=
  "'use strict';import a from'f';import a,*as b from'f';import*as b from'f';import a,{default as b,as,}from'f';import{b,as as c}from'f';"%string ++
  "export default(a,this);export const a=this;;export{a as default,b};export{default as c}from'f';export*from'f';"%string ++
  "function a(){}function*b(a,b=(a,this),...c){'use strict';throw a}export default function(a,){;}export default function*c(a=this){}if(a)throw b"%string.
Lemma words_c w : In w ["a"; "b"; "c"; "as"]%string -> variable (s2b w) /\ s2b w <> s2b "let".
Proof.
  intros H. split; [split|]; cbn [In] in H; repeat (destruct H as [<-|H]); try contradiction H; try discriminate; try (split; [reflexivity|discriminate]);
    cbn; (eexists _, _; split; [reflexivity|]); unfold ident_char, digit, lower, upper; (split; [lia|split; [lia|]]); repeat (constructor; [lia|]); constructor.
Qed.
Lemma names_c w : In w ["a"; "b"; "c"; "as"; "default"]%string -> identifier_name (s2b w).
Proof.
  intros H. cbn [In] in H. repeat (destruct H as [<-|H]); try contradiction H; cbn; (eexists _, _; split; [reflexivity|]);
    unfold ident_char, digit, lower, upper; (split; [lia|split; [lia|]]); repeat (constructor; [lia|]); constructor.
Qed.
Ltac some_directive := split; [some_utf8|]; exists false; cbn;
  repeat (apply st_char; [discriminate|discriminate|discriminate|intros K; discriminate K|intros [[r K]|[r K]]; discriminate K|]); constructor.
Lemma source_c : source_formed file_.
Proof. some_directive. Qed.
Lemma directive_c : Forall directive [s2b "use strict"].
Proof. constructor; [some_directive|constructor]. Qed.
Ltac items_c := unfold name_, as_, only_, PropertiesStatements.id_; cbn [formed_items];
    repeat match goal with
    | |- _ /\ _ => split
    | |- source_formed _ => exact source_c
    | |- Forall _ [s2b "use strict"] => exact directive_c
    | |- Forall _ _ => constructor
    | |- function_formed _ _ => split; [auto|]
    | |- optional _ None => exact I
    | |- last_param_formed _ => cbn [last_param_formed]
    | |- formed_script _ _ => split; [|cbn [formed_list]]
    | |- optional _ (Some _) => cbn [optional]
    | |- specifier_formed _ => cbn [specifier_formed]
    | |- any_name _ => apply names_c; cbn; auto 10
    | |- named _ => apply words_c; cbn; auto
    | |- True => exact I
    | |- formed _ => cbn [formed well_formed lexical]
    | |- declared _ _ => unfold declare, PropertiesStatements.id_; cbn [declared optional well_formed]
    | |- well_formed _ => cbn [well_formed given]
    | |- variable _ => apply words_c; cbn; auto
    | |- _ -> _ => intros ?
    end; try reflexivity; try discriminate; try (apply words_c; cbn; auto; fail); try (right; eexists; reflexivity).
Example C58_case : formed_module [s2b "use strict"] module_c /\
  display (fmt_module [s2b "use strict"] module_c) = s2b module_source.
Proof. split; [split; [exact directive_c|unfold module_c; items_c]|vm_compute; reflexivity]. Qed.

(** ** C59 Faithful modules are told apart *)
Theorem C59_modules : forall directives body directives' body',
  formed_module directives body -> faithful_module body -> formed_module directives' body' -> faithful_module body' ->
  display (fmt_module directives body) = display (fmt_module directives' body') <->
  directives = directives' /\ map braced_item body = map braced_item body'.
Proof. exact modules_determined. Qed.
Print Assumptions C59_modules.

(** The conditions of [faithful_module] are needed: what is shown alike. *)
Definition alike_modules : list ((list bytes * list module_item) * (list bytes * list module_item)) :=
  [ (([s2b "use strict"], []), ([], [Mi_statement (St_expression (E_string (s2b "use strict") None))]));
    (([], [Mi_export_local [] (Some (Normal_specifier (s2b "a", Some (s2b "b"))))]), ([], [Mi_export_local [] (Some (only_ "b"))]));
    (([], [Mi_export_all (s2b "a", Some (s2b "f"))]), ([], [Mi_export_all file_]));
    (([], [Mi_function Fn_normal (PropertiesStatements.id_ "a") (Function_parts [] None [s2b "use strict"] No_statements)]),
     ([], [Mi_function Fn_normal (PropertiesStatements.id_ "a") (Function_parts [] None [] (Cons_statement (St_expression (E_string (s2b "use strict") None)) No_statements))])) ].
Theorem C59_refuted : Forall (fun x => match x with ((ds, l), (ds', l')) =>
  formed_module ds l /\ formed_module ds' l' /\ (ds, map braced_item l) <> (ds', map braced_item l') /\
  display (fmt_module ds l) = display (fmt_module ds' l') end) alike_modules.
Proof.
  constructor; [|constructor; [|constructor; [|constructor; [|constructor]]]]; (split; [|split; [|split; [discriminate|vm_compute; reflexivity]]]);
    (split; [try exact directive_c; try constructor|]); try (split; [|exact I]); try exact I.
  - split; [|discriminate]. some_directive.
  - items_c.
  - items_c.
  - some_directive.
  - items_c.
  - items_c.
  - assert (D : directive (s2b "use strict")) by some_directive. items_c; apply D.
Qed.
Print Assumptions C59_refuted.

(** Modules with the same names, but another structure. *)
Definition module_d (last : bool) : list module_item :=
  [ Mi_import_named_and_specifiers (PropertiesStatements.id_ "a") (if last then [] else [as_ "as" "as"]) (if last then Some (as_ "as" "as") else None) file_;
    Mi_export_default (name_ "as");
    Mi_function (if last then Fn_normal else Fn_generator) (PropertiesStatements.id_ "a")
      (Function_parts (if last then [] else [declare "as"]) (if last then Some (Last_param (declare "as")) else None) [] No_statements);
    Mi_statement (St_if_else (name_ "a") (St_if (name_ "b") St_empty) St_empty) ].
Example C59_case : forall last, formed_module [s2b "use strict"] (module_d last) /\ faithful_module (module_d last) /\
  display (fmt_module [s2b "use strict"] (module_d last)) =
  s2b ((if last then "'use strict';import a,{as as as}from'f';export default as;function a(as){}"
        else "'use strict';import a,{as as as,}from'f';export default as;function*a(as,){}") ++ "if(a){if(b);}else;") /\
  module_d true <> module_d false.
Proof.
  intros last. split; [split; [exact directive_c|]|].
  - unfold module_d. destruct last; items_c.
  - split; [|destruct last; (split; [vm_compute; reflexivity|discriminate])]. split; [|exact I].
    unfold module_d, as_, name_, PropertiesStatements.id_. destruct last; repeat (constructor; [cbn; repeat split; auto; repeat constructor|]); constructor.
Qed.
