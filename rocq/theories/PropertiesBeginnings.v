(** How displayed statements begin (properties.jsonl, C60). Each theorem is followed by a case
    that meets its hypotheses. *)
From Coq Require Import String List Arith NArith Bool.
From Verif Require Import Base Formatter SpecFormatter Nodes Statements NodeItems SpecBeginnings Beginnings.
Import ListNotations.

(** ** C60 Expressions that begin with [let] are not displayed as declarations *)
Theorem C60_statements : forall e, let_unhidden e -> forall s r p, In p [Fp_SquareL; Fp_Period] ->
  ~ begins_let p (fst (prints s r (fmt_statement (St_expression e)))).
Proof. exact statement_begins. Qed.
Theorem C60_for : forall e test update body, let_unhidden e -> forall s r k,
  fst (prints s r (fmt_statement (St_for (Some (Init_expression e)) test update body))) = Word (s2b "for") :: Mark Fp_ParenL :: k ->
  ~ begins_let Fp_SquareL k.
Proof. exact init_begins. Qed.
Theorem C60_for_in : forall o a rhs body, let_unhidden o -> forall s r k,
  fst (prints s r (fmt_statement (St_for_in (Left_member o a) rhs body))) = Word (s2b "for") :: Mark Fp_ParenL :: k ->
  ~ begins_let Fp_SquareL k.
Proof. exact for_in_begins. Qed.
Theorem C60_for_of : forall o a rhs body, let_unhidden o -> forall s r k p, In p [Fp_SquareL; Fp_Period] ->
  fst (prints s r (fmt_statement (St_for_of (Left_member o a) rhs body))) = Word (s2b "for") :: Mark Fp_ParenL :: k \/
  fst (prints s r (fmt_statement (St_for_await (Left_member o a) rhs body))) = Word (s2b "for") :: Word (s2b "await") :: Mark Fp_ParenL :: k ->
  ~ begins_let p k.
Proof. exact for_of_begins. Qed.
(** As text, for names without brackets and periods and numbers as std prints them. *)
Theorem C60_text : forall e, let_unhidden e -> begins_well e -> forall t,
  display (fmt_statement (St_expression e)) <> s2b "let[" ++ t /\
  display (fmt_statement (St_expression e)) <> s2b "let." ++ t /\
  (forall test update body, display (fmt_statement (St_for (Some (Init_expression e)) test update body)) <> s2b "for(let[" ++ t) /\
  (forall a rhs body, display (fmt_statement (St_for_in (Left_member e a) rhs body)) <> s2b "for(let[" ++ t) /\
  (forall a rhs body, display (fmt_statement (St_for_of (Left_member e a) rhs body)) <> s2b "for(let[" ++ t /\
    display (fmt_statement (St_for_of (Left_member e a) rhs body)) <> s2b "for(let." ++ t) /\
  (forall a rhs body, display (fmt_statement (St_for_await (Left_member e a) rhs body)) <> s2b "for await(let[" ++ t /\
    display (fmt_statement (St_for_await (Left_member e a) rhs body)) <> s2b "for await(let." ++ t).
Proof. exact texts_begin. Qed.
Print Assumptions C60_text.
Print Assumptions C60_statements.
Print Assumptions C60_for.
Print Assumptions C60_for_in.
Print Assumptions C60_for_of.

Definition var (s : string) : expression := E_binding (s2b s) None.
(** A [let] that is only in the raw text is not seen, and in a for-of statement, which cannot begin
    with [let] at all, only one right before the brackets or the period is. *)
Theorem C60_refuted :
  begins_let Fp_SquareL (displayed (fmt_statement (St_expression (E_member (E_binding (s2b "a") (Some (s2b "let"))) (A_computed (var "b")))))) /\
  display (fmt_statement (St_for_of (Left_identifier (s2b "let", None)) (var "a") St_empty)) = s2b "for(let of a);" /\
  display (fmt_statement (St_for_of (Left_member (E_call (var "let") No_args No_last) (A_computed (var "b"))) (var "a") St_empty)) = s2b "for(let()[b]of a);".
Proof. split; [eexists; vm_compute; reflexivity|split; vm_compute; reflexivity]. Qed.
Print Assumptions C60_refuted.

(** [let] alone, before a call, before brackets and before a period. *)
Definition lets : list expression :=
  let a := E_member (var "let") (A_computed (var "b")) in let b := E_member (var "let") (A_identifier (s2b "b") None) in
  [ var "let"; E_call (var "let") No_args No_last; a; E_sequence (E_conditional (E_call a No_args No_last) a a) a; b; E_member b (A_computed a) ].
Example C60_case : Forall let_unhidden lets /\ Forall begins_well lets /\
  map (fun e => display (fmt_statement (St_expression e))) lets = map s2b
    ["let;"; "let();"; "(let[b]);"; "(let[b])()?let[b]:let[b],let[b];"; "(let.b);"; "(let.b)[let[b]];"]%string /\
  map (fun e => display (fmt_statement (St_for (Some (Init_expression e)) None None St_empty))) lets = map s2b
    ["for(let;;);"; "for(let();;);"; "for((let[b]);;);"; "for((let[b])()?let[b]:let[b],let[b];;);"; "for(let.b;;);"; "for(let.b[let[b]];;);"]%string /\
  map (fun e => display (fmt_statement (St_for_in (Left_member e (A_computed (var "a"))) (var "c") St_empty))) lets = map s2b
    ["for((let[a])in c);"; "for(let()[a]in c);"; "for((let[b])[a]in c);"; "for((let[b]()?let[b]:let[b],let[b])[a]in c);"; "for(let.b[a]in c);"; "for(let.b[let[b]][a]in c);"]%string /\
  map (fun e => display (fmt_statement (St_for_of (Left_member e (A_computed (var "a"))) (var "c") St_empty))) lets = map s2b
    ["for((let[a])of c);"; "for(let()[a]of c);"; "for((let[b])[a]of c);"; "for((let[b]()?let[b]:let[b],let[b])[a]of c);"; "for((let.b)[a]of c);"; "for((let.b)[let[b]][a]of c);"]%string.
Proof.
  split; [|split; [|vm_compute; repeat split]].
  2: { repeat (constructor; [split; [intros value raw E; injection E as <- <-; split; vm_compute; intuition discriminate|intros s E; discriminate E]|]). constructor. }
  repeat (constructor; [intros value raw E; injection E as <- <-; auto|]). constructor.
Qed.
