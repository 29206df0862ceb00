(** Displayed trees are phrases of the language for these trees (properties.jsonl, C54-C55).
    Each theorem is followed by a case that meets its hypotheses. *)
From Coq Require Import String List Arith NArith Bool Lia.
From Verif Require Import Base Tokens SpecTokens SpecTrivia SpecStream SpecHints Tokenizer ParserCore ParserBody.
From Verif Require Import PropertiesTokenizer PropertiesLanguage Formatter SpecFormatter Nodes SpecNodes PropertiesNodes.
From Verif Require Import Statements SpecStatements PropertiesStatements SpecFaithful PropertiesFaithful SpecPhrases PhraseText.
Import ListNotations.

(** ** C54 What is displayed is a phrase for the tree

    The tokens of the displayed text are derived for the tree in the grammar of ECMAScript;
    for a script, for the tree with the braces that keep an [else] with its [if]. *)
Theorem C54_expressions : forall checks es, Forall well_formed es -> Forall faithful es ->
  exists ls ps, Forall2 (phrase Expression_) es ls /\
    map word_token ps = map (fun t => (false, t)) (concat (map (fun l => l ++ [mk Semicolon]) ls)) ++ [(false, TEOF)] /\
    printed checks [] ps (display (fmt_script es)).
Proof. exact expressions_phrases. Qed.
Theorem C54_scripts : forall checks directives body, formed_script directives body -> faithful_statements body ->
  exists ts ps, script directives (braced_list body) ts /\
    map word_token ps = map (fun t => (false, t)) ts ++ [(false, TEOF)] /\
    printed checks [] ps (display (fmt_whole_script directives body)).
Proof. exact script_phrase. Qed.
Print Assumptions C54_expressions.
Print Assumptions C54_scripts.

(** The trees of [C53_case] are such trees; a phrase for one of them. *)
Example C54_case :
  (Forall well_formed [tree_d1; tree_d2] /\ Forall faithful [tree_d1; tree_d2]) /\
  (formed_script [] (statements_of (if_d (fun s => s))) /\ faithful_statements (statements_of (if_d (fun s => s)))) /\
  phrase Expression_ (a_call (E_member E_this (A_identifier (s2b "x") None))) [wd "this"; mk Period; wd "x"; mk ParenOpen; mk ParenClose].
Proof.
  destruct C53_case as (A & _ & B & _). split; [exact A|]. split; [split; apply B|].
  apply ph_expression, ph_assignment, ph_left_call. apply (ph_call _ [wd "this"; mk Period; wd "x"] _ _ []); [|constructor].
  apply (ph_property E_this [wd "this"]); [apply ph_member|]; constructor.
Qed.

(** ** C55 Operators are displayed with their operands

    [need] is the precedence required where the operator stands; both operands are put in
    parentheses if they have to be, and the whole is. *)
Theorem C55_binary : forall b x y need,
  well_formed x -> well_formed y -> faithful x -> faithful y -> tight x = true -> b <> B_in -> b <> B_power ->
  exists l r items, phrase Left_hand x l /\ phrase Left_hand y r /\
    display (hold (L_require_precedence need) (fmt_binary b x y)) = layout false items /\
    Forall2 spells items (enclosed (level b) need (l ++ written_as b :: r)).
Proof. exact binary_text. Qed.
Theorem C55_in : forall x y, well_formed x -> well_formed y -> faithful x -> faithful y -> tight x = true ->
  exists l r items, phrase Left_hand x l /\ phrase Left_hand y r /\
    display (fmt_binary B_in x y) = layout false items /\ Forall2 spells items (parenthesized (l ++ wd "in" :: r)).
Proof. exact in_text. Qed.
Theorem C55_unary : forall u x need, well_formed x -> faithful x -> u <> U_negative ->
  exists l items, phrase Left_hand x l /\
    display (hold (L_require_precedence need) (fmt_unary u x)) = layout false items /\
    Forall2 spells items (enclosed Pr_Unary need (prefixed_with u :: l)).
Proof. exact unary_text. Qed.
(** Left operands are not put in parentheses: with a sequence on the left, the operator takes
    the last element only. And a power is displayed as if it bound more tightly than a unary
    operator, the operand of which it cannot be. *)
Theorem C55_left_refuted : forall b x y z, well_formed x -> well_formed y -> well_formed z -> tight y = true -> b <> B_in ->
  display (fmt_binary b (E_sequence x y) z) = display (fmt_expression x ;; punct_ Fp_Comma ;; fmt_binary b y z).
Proof. exact left_operand. Qed.
Theorem C55_power_refuted : exists x y,
  displayed (hold (L_require_precedence Pr_Unary) (fmt_binary B_power x y)) = displayed (fmt_binary B_power x y) /\
  display (fmt_binary B_power x y) = s2b "a**b" /\ rank (level B_power) < rank Pr_Unary.
Proof. exists (name_ "a"), (name_ "b"). split; [|split]; [vm_compute; reflexivity..|cbn; lia]. Qed.
Print Assumptions C55_binary.
Print Assumptions C55_in.
Print Assumptions C55_unary.
Print Assumptions C55_left_refuted.
Print Assumptions C55_power_refuted.

Example C55_case :
  (well_formed (name_ "a") /\ faithful (name_ "a") /\ tight (name_ "a") = true) /\
  (let e := E_conditional (name_ "a") (name_ "a") (name_ "a") in well_formed e /\ faithful e /\
   display (hold (L_require_precedence Pr_Multiplicative) (fmt_binary B_add (name_ "a") e)) = s2b "(a+(a?a:a))" /\
   display (fmt_unary U_typeof e) = s2b "typeof(a?a:a)" /\
   display (fmt_binary B_instanceof (name_ "a") (name_ "a")) = s2b "a instanceof a").
Proof.
  assert (W : well_formed (name_ "a")).
  { split; [split; [|split; [reflexivity|discriminate]]|discriminate]. cbn. eexists _, _. split; [reflexivity|]. unfold ident_char, digit, lower, upper. split; [lia|split; [lia|constructor]]. }
  split; [repeat split; apply W|]. cbv zeta. split; [repeat split; apply W|]. split; [repeat split|]. vm_compute. repeat split.
Qed.
