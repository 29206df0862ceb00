(** Displayed binding patterns (properties.jsonl, C67), with a case that meets the hypotheses. *)
From Coq Require Import String List Arith NArith Bool Lia.
From Verif Require Import Base Tokens SpecTokens SpecTrivia SpecStream Tokenizer ParserCore SpecParser ParserBody Formatter SpecFormatter Nodes SpecNodes Statements SpecStatements SpecFaithful SpecPhrases
  Patterns SpecPatterns PatternText SpecHints PropertiesTokenizer PropertiesLanguage.
Import ListNotations.

(** ** C67 Declarations with binding patterns are displayed as declarations for the trees *)
Theorem C67_shown : forall checks l, Forall formed_binding l ->
  exists ls ps, Forall2 binding l ls /\
    map word_token ps = map (fun t => (false, t)) (concat ls) ++ [(false, TEOF)] /\
    printed checks [] ps (display (fmt_bindings l)).
Proof. exact bindings_shown. Qed.
(** The parser accepts them if no object pattern has a rest. *)
Theorem C67_accepted : forall E r n l, Forall formed_binding l -> Forall restless_binding l ->
  let source := display (fmt_bindings l) in
  length source < r -> 20 * length source + 80 <= n ->
  parse_root E r n source = Accepted.
Proof. exact bindings_accepted. Qed.
(** It does not accept a rest in an object pattern. *)
Definition rest_binding : declaring * pattern * expression :=
  (D_let, Pt_object No_properties (Rest_property (s2b "a", None)), E_binding (s2b "b") None).
Theorem C67_refuted : display (fmt_bindings [rest_binding]) = s2b "let{...a}=b;" /\
  exists x, parse_root debug_build 100 1000 (display (fmt_bindings [rest_binding])) = Rejected x.
Proof. split; [vm_compute; reflexivity|]. eexists. vm_compute. reflexivity. Qed.
Print Assumptions C67_shown.
Print Assumptions C67_accepted.
Print Assumptions C67_refuted.

Definition bx (s : string) : expression := E_binding (s2b s) None.
Definition bn (s : string) : identifier := (s2b s, None).
Definition C67_example : list (declaring * pattern * expression) :=
  [(D_let,
    Pt_object
      (Cons_property (Pp_name (bn "a") (Some (E_conditional (bx "x") (bx "y") (E_sequence (bx "x") (bx "y")))))
      (Cons_property (Pp_pattern (Pn_identifier (s2b "in") None) (Pt_name (bn "b")) None)
      (Cons_property (Pp_pattern (Pn_string (s2b "p q") None) (Pt_object No_properties No_last_property) (Some (bx "x")))
       No_properties)))
      (Last_property (Pp_pattern (Pn_computed (E_sequence (bx "x") (bx "y")))
        (Pt_array (Cons_hole (Cons_element (Pattern_element (Pt_name (bn "c")) (Some (bx "y"))) (Cons_hole No_elements)))
          (Rest_element (Pt_array No_elements (Last_element (Pattern_element (Pt_name (bn "d")) None))))) None)),
    bx "z");
   (D_var, Pt_array No_elements No_last_element, bx "z"); (D_const, Pt_name (bn "e"), bx "z")].
Example C67_case : Forall formed_binding C67_example /\ Forall restless_binding C67_example /\ formed_binding rest_binding /\
  display (fmt_bindings C67_example) =
    s2b "let{a=x?y:(x,y),in:b,'p q':{}=x,[(x,y)]:[,c=y,,...[d]]}=z;var[]=z;const e=z;".
Proof.
  assert (V : forall s, In s ["a"; "b"; "c"; "d"; "e"; "x"; "y"; "z"]%string -> variable (s2b s)).
  { intros s I. cbn [In] in I. decompose [or] I; try contradiction; subst s; (split; [eexists _, _; (split; [vm_compute; reflexivity|]); unfold ident_char, digit, lower, upper; (split; [lia|split; [lia|constructor]])|split; [reflexivity|discriminate]]). }
  assert (N : forall s, In s ["a"; "b"; "c"; "d"; "e"]%string -> bound_name (bn s)).
  { intros s I. split; [|reflexivity]. apply V. cbn [In] in *. tauto. }
  assert (W : forall s, In s ["b"; "x"; "y"; "z"]%string -> initial (bx s)).
  { intros s I. split; [|reflexivity]. split; [apply V; cbn [In] in *; tauto|]. cbn [In] in I. decompose [or] I; try contradiction; subst s; discriminate. }
  split; [|split; [|split; [|vm_compute; reflexivity]]].
  - assert (X : initial (bx "x")) by (apply W; cbn; tauto). assert (Y : initial (bx "y")) by (apply W; cbn; tauto). assert (Z : initial (bx "z")) by (apply W; cbn; tauto).
    assert (S : initial (E_sequence (bx "x") (bx "y"))) by (split; [split; [apply X|apply Y]|split; [apply X|apply Y]]).
    assert (C : initial (E_conditional (bx "x") (bx "y") (E_sequence (bx "x") (bx "y")))) by (split; (split; [apply X|split; [apply Y|apply S]])).
    assert (I : identifier_name (s2b "in")).
    { eexists _, _. split; [vm_compute; reflexivity|]. unfold ident_char, digit, lower, upper. split; [lia|split; [lia|repeat constructor; lia]]. }
    assert (U : utf8 (s2b "p q")) by some_utf8.
    assert (Q : exists nl, string_text 39 false (s2b "p q") nl).
    { exists false. vm_compute. repeat (apply st_char; [discriminate|discriminate|discriminate|discriminate|intros [(r & K)|(r & K)]; discriminate K|]). apply st_nil. }
    assert (Na : bound_name (bn "a")) by (apply N; cbn; tauto). assert (Nb : bound_name (bn "b")) by (apply N; cbn; tauto). assert (Nc : bound_name (bn "c")) by (apply N; cbn; tauto).
    assert (Nd : bound_name (bn "d")) by (apply N; cbn; tauto). assert (Ne : bound_name (bn "e")) by (apply N; cbn; tauto). clear N V W.
    unfold C67_example. apply Forall_cons; [|apply Forall_cons; [|apply Forall_cons; [|apply Forall_nil]]];
      cbn [formed_binding formed_pattern formed_properties formed_property formed_last_property formed_elements formed_element formed_last_element formed_property_name optional]; tauto.
  - repeat constructor.
  - split; [split; [exact I|apply (N "a"%string); cbn; tauto]|apply W; cbn; tauto].
Qed.
