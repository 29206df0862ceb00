(** The formatter of syntax trees, src/ast/display.rs (properties.jsonl, C46-C48). Each
    theorem is followed by a case that meets its hypotheses. *)
From Coq Require Import String List Arith NArith Bool Lia.
From Verif Require Import Base Tokens SpecTokens SpecTrivia SpecStream SpecHints Tokenizer ParserCore ParserBody SpecGrammar SpecLanguage PropertiesLanguage.
From Verif Require Import PropertiesTokenizer ParserGrammar Coverage Formatter SpecFormatter FormatterFacts FormatterTokens Nodes.
Import ListNotations.

(** ** C46 Settings are scoped

    Whatever is done with a formatter, locks taken and dropped in any nesting, the settings
    afterwards are those from before; what has been printed is still there; and what is added
    is what the specification says, which hands the settings down and never changes them. *)
Theorem C46_scope : forall u f,
  let g := perform u f in
  let '(items, restriction) := prints (scope_of f) (f_restriction f) u in
  (f_prec g = f_prec f /\ f_in g = f_in f /\ f_orphan g = f_orphan f) /\
  f_restriction g = restriction /\
  f_output g = f_output f ++ layout (f_keyword f) items.
Proof.
  intros u f g. pose proof (perform_prints u f) as (S & R & O & _). fold g in S, R, O.
  destruct (prints (scope_of f) (f_restriction f) u) as [items r]. cbn [fst snd] in *.
  injection S as S1 S2 S3. auto.
Qed.
(** What is displayed is the layout of the items. *)
Theorem C46_display : forall u, display u = layout false (displayed u).
Proof. exact display_displayed. Qed.
(** [in_wrap_parens] does the opposite of what is documented (display.rs:310-311): it wraps
    where the operator [in] is allowed, and does not where it is not. *)
Theorem C46_in_refuted : forall u,
  display (hold L_allow_in (hold L_in_wrap_parens u)) = s2b "(" ++ layout false (displayed u) ++ s2b ")" /\
  display (hold L_disallow_in (hold L_in_wrap_parens u)) = layout false (fst (prints (Scope Pr_Normal false false) None u)).
Proof.
  intros u. rewrite !display_displayed. unfold displayed. cbn. destruct (prints (Scope Pr_Normal true false) None u) as [l r].
  destruct (prints (Scope Pr_Normal false false) None u) as [l' r']. cbn [fst].
  rewrite !app_nil_r. split; [|reflexivity]. cbn. f_equal. rewrite layout_app. reflexivity.
Qed.
Print Assumptions C46_scope.
Print Assumptions C46_display.
Print Assumptions C46_in_refuted.

Example C46_case :
  let a := E_binding (s2b "a") None in
  display (fmt_script [E_conditional (E_sequence a a) (E_new_empty a) (E_call (E_new_empty a) No_args (Last (Arg_spread a)))]) =
    s2b "(a,a)?new a:new a(...a);" /\
  display (fmt_binary B_in a a) = s2b "(a in a)" /\
  display (hold L_disallow_in (fmt_binary B_in a a)) = s2b "a in a".
Proof. vm_compute. repeat split. Qed.

(** ** C47 Brackets balance

    Where a tree leaves brackets to the formatter's locks, what is displayed is balanced,
    under every setting. *)
Theorem C47_balanced : forall u s r, no_bare_brackets u -> balanced (fst (prints s r u)).
Proof. exact prints_balanced. Qed.
(** As text: where nothing that is printed contains a bracket, the brackets in the text nest. *)
Theorem C47_text : forall u, quiet u -> nested (filter bracket_byte (display u)).
Proof. exact display_nested. Qed.
Print Assumptions C47_balanced.
Print Assumptions C47_text.

Definition tree_a : uses :=
  fmt_script [E_call (E_member (E_binding (s2b "let") None) (A_computed (E_binding (s2b "b") None))) No_args No_last].
Example C47_case : no_bare_brackets tree_a /\ quiet tree_a /\ display tree_a = s2b "(let[b])();".
Proof. split; [cbn; intuition auto|]. split; [repeat split; repeat constructor|vm_compute; reflexivity]. Qed.

(** ** C48 What is displayed is read back

    If every item spells a token, neighbours do not run together and the slashes are at
    settled places, then the text has exactly these tokens, for every build, and is accepted
    if they form a program. *)
Theorem C48_read_back : forall checks u ts,
  Forall2 spells (displayed u) ts -> all_apart (displayed u) -> slashes_settled [] ts ->
  exists ps, map word_token ps = map (fun t => (false, t)) ts ++ [(false, TEOF)] /\ printed checks [] ps (display u).
Proof. exact formatted. Qed.
Theorem C48_accepted : forall E r n u ts,
  Forall2 spells (displayed u) ts -> all_apart (displayed u) -> slashes_settled [] ts ->
  program (map (fun t => (false, t)) ts ++ [(false, TEOF)]) ->
  length (display u) < r -> 20 * length (display u) + 80 <= n ->
  parse_root E r n (display u) = Accepted.
Proof. exact formatted_accepted. Qed.

(** Without the second hypothesis it is false: the formatter puts a space behind words only.
    So an integer runs together with a period behind it and an operator with a sign; the
    same items with spaces between them are accepted. (A number in front of a word is read
    back, as [C48_number] shows, but ECMAScript forbids that.) *)
Definition with_spaces (l : list item) : bytes := concat (map (fun i => item_text i ++ s2b " ") l).
Definition spoilt (u : uses) : Prop :=
  parse_root debug_build 100 1000 (with_spaces (displayed u)) = Accepted /\
  exists e, parse_root debug_build 100 1000 (display u) = Rejected e.
Theorem C48_refuted :
  (exists object name, spoilt (fmt_expression_statement (E_member object (A_identifier name None)))) /\
  (exists left right, spoilt (fmt_expression left ;; punct_ Fp_Plus ;; fmt_unary U_positive right)).
Proof.
  split.
  - exists (E_numeric (s2b "1")), (s2b "x"). split; [|eexists]; vm_compute; reflexivity.
  - exists (E_binding (s2b "a") None), (E_binding (s2b "b") None). split; [|eexists]; vm_compute; reflexivity.
Qed.
Print Assumptions C48_read_back.
Print Assumptions C48_accepted.
Print Assumptions C48_refuted.

Example C48_number :
  let u := fmt_binary B_instanceof (E_numeric (s2b "1")) (E_binding (s2b "x") None) in
  display u = s2b "1instanceof x" /\ parse_root debug_build 100 1000 (display u) = Accepted.
Proof. vm_compute. repeat split. Qed.

(** The hypotheses are met by a statement with a regular expression in a call, a string, a
    number and words, and by a quotient. *)
Definition tree_b : uses :=
  fmt_expression_statement (E_call (E_binding (s2b "f") None)
    (Cons_arg (Arg_expression (E_regexp (s2b "a*") (s2b "g")))
     (Cons_arg (Arg_expression (E_string (s2b "s") None)) No_args))
    (Last (Arg_expression (E_new_empty (E_binding (s2b "C") None))))) ;;
  fmt_binary B_divide (E_binding (s2b "b") None) (E_numeric (s2b "1.5")).
Definition tokens_b : list token :=
  [TIdent (s2b "f"); TPunctuator ParenOpen; TRegExp (s2b "a*") (s2b "g"); TPunctuator Comma; TString (s2b "s"); TPunctuator Comma;
   TIdent (s2b "new"); TIdent (s2b "C"); TPunctuator ParenClose; TPunctuator Semicolon;
   TIdent (s2b "b"); TPunctuator Slash; TNumeric f64_zero].
Ltac chars := repeat constructor; unfold ident_char, lower, upper, digit; lia.
Ltac marks := left; eexists _, _; split; [reflexivity|]; cbn; split;
  [intros q _ (r & K); destruct q; discriminate K|split; [discriminate|first [discriminate|intros _; split; discriminate]]].
Example C48_case : Forall2 spells (displayed tree_b) tokens_b /\ all_apart (displayed tree_b) /\ slashes_settled [] tokens_b /\
  program (map (fun t => (false, t)) tokens_b ++ [(false, TEOF)]) /\
  display tree_b = s2b "f(/a*/g,'s',new C);b/1.5".
Proof.
  split; [|split; [|split; [|split; [|vm_compute; reflexivity]]]].
  - let d := eval vm_compute in (displayed tree_b) in change (displayed tree_b) with d.
    let d := eval vm_compute in tokens_b in change tokens_b with d.
    repeat (constructor; [match goal with
      | |- spells (Word _) _ => apply sp_word; [chars|unfold digit; lia|chars]
      | |- spells (Mark _) _ => apply sp_mark; reflexivity
      | _ => idtac end|]); [| | |constructor].
    + apply sp_slashed; [some_utf8|repeat (apply rb_char; [discriminate..|]); constructor|discriminate|intros (r & K); discriminate K|chars].
    + eapply sp_quoted; [some_utf8|]. apply st_char; try discriminate; [intros [[r K]|[r K]]; discriminate K|constructor].
    + apply sp_number. apply (nt_fraction 49 [] 53 []); [lia|constructor|chars].
  - let d := eval vm_compute in (displayed tree_b) in change (displayed tree_b) with d.
    cbn [all_apart]. repeat match goal with |- _ /\ _ => split | |- apart (Mark _) _ => marks | |- True => exact I end; cbn; auto.
    intros (c & r & K & L). injection K as <- <-. unfold lower in L. lia.
  - cbn. repeat split; auto; exfalso; match goal with H : divides _ |- _ => destruct H as [K|K]; discriminate K | H : regular_expression _ |- _ => destruct H as (b & f & K); discriminate K end.
  - pose (log := map (fun t => (t, Range (Pos 0 0 0) (Pos 0 0 0))) tokens_b).
    destruct (ParserGrammar.feed_exact log 100 1000) as [[X _] _]; [vm_compute; lia..|].
    destruct X as (rest & D); [vm_compute; reflexivity|]. change (ParserGrammar.delivered log) with (map (fun t => (false, t)) tokens_b ++ [(false, TEOF)]) in D.
    assert (rest = []) as -> by (eapply Coverage.module_end; [exact D|]; cbn; intuition discriminate). exact D.
Qed.
