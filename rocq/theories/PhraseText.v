(** Proofs about the texts of whole scripts and of operators as phrases. *)
From Coq Require Import String List NArith Bool Arith Lia.
From Verif Require Import Base Tokens SpecTokens SpecTrivia SpecStream SpecHints ByteFacts Formatter SpecFormatter FormatterFacts FormatterTokens Nodes SpecNodes NodeItems NodeTokens NodeText.
From Verif Require Import Statements SpecStatements StatementItems StatementTokens StatementText SpecFaithful SpecPhrases PhraseFacts.
Import ListNotations.

Theorem expressions_phrases checks es : Forall well_formed es -> Forall faithful es ->
  exists ls ps, Forall2 (phrase Expression_) es ls /\
    map word_token ps = map (fun t => (false, t)) (concat (map (fun l => l ++ [mk Semicolon]) ls)) ++ [(false, TEOF)] /\
    printed checks [] ps (display (fmt_script es)).
Proof.
  intros W F. destruct (script_block es W) as (G & A & _). destruct (spells_all _ G) as (S & Sf).
  destruct (formatted checks (fmt_script es) (map tok_of (items_script es))) as (ps & M & P); rewrite ?(displayed_script es W); auto; [apply settled, Sf|].
  exists (map (fun e => tk (items Pr_Normal e)) es), ps. split; [|split; [|exact P]].
  - clear - W F. induction W; inversion_clear F; cbn [map]; constructor; auto. apply expression_phrase; auto.
  - rewrite M. do 2 f_equal. unfold items_script. clear. induction es as [|e es IH]; [reflexivity|]. cbn [map concat]. rewrite map_app, IH. f_equal. apply tk_app.
Qed.
Theorem script_phrase checks ds body : formed_script ds body -> faithful_statements body ->
  exists ts ps, script ds (braced_list body) ts /\
    map word_token ps = map (fun t => (false, t)) ts ++ [(false, TEOF)] /\
    printed checks [] ps (display (fmt_whole_script ds body)).
Proof.
  intros W F.
  assert (S : sound (items_whole ds body)). { rewrite items_with_directives. eapply shaped_sound, shaped_statements, formed_with_directives, W. }
  destruct S as (G & A). destruct (spells_all _ G) as (S & Sf).
  destruct (formatted checks (fmt_whole_script ds body) (map tok_of (items_whole ds body))) as (ps & M & P); rewrite ?(displayed_whole ds body W); auto; [apply settled, Sf|].
  exists (tk (items_whole ds body)), ps. split; [|auto]. unfold items_whole, items_directives. destruct W as (_ & W). clear - W F.
  induction ds as [|d ds IH]; cbn [map concat]; [|apply sc_directive, IH]. apply sc_body. eapply (proj1 (proj2 statement_phrase)); eassumption.
Qed.

(** ** Operators *)
Lemma spells_items p e : well_formed e -> Forall2 spells (items p e) (tk (items p e)).
Proof. intros W. apply spells_all. apply (proj1 items_block e W p). Qed.
Definition spelled_as (l : list item) (ts : list token) : Prop := Forall2 spells l ts.
Lemma spelled_wrapped l ts : Forall2 spells l ts -> Forall2 spells (Mark Fp_ParenL :: l ++ [Mark Fp_ParenR]) (parenthesized ts).
Proof.
  intros S. unfold parenthesized. constructor; [apply sp_mark; reflexivity|]. apply Forall2_app; [exact S|]. constructor; [apply sp_mark; reflexivity|constructor].
Qed.
Lemma keyword_spells k : In k [Fk_In; Fk_Instanceof; Fk_Delete; Fk_Void; Fk_Typeof; Fk_Await] -> spells (Word (fkeyword_text k)) (TIdent (fkeyword_text k)).
Proof.
  intros H. destruct (fkeyword_text k) as [|c w] eqn:K; cbn [In] in H; repeat (destruct H as [<-|H]); try contradiction H; try discriminate K;
    injection K as <- <-; (apply sp_word; [|unfold digit; lia|]); repeat constructor; unfold ident_char, lower, upper, digit; lia.
Qed.
Lemma operator_spells b : spells (item_of (snd (fst (binary_table b)))) (written_as b).
Proof. destruct b; try (apply sp_mark; reflexivity); apply keyword_spells; cbn; auto. Qed.
Lemma operator_item b r : after_item (item_of (snd (fst (binary_table b)))) r = None.
Proof. destruct b; reflexivity. Qed.
Lemma right_rank b : 4 <= rank (snd (binary_table b)).
Proof. destruct b; cbn; lia. Qed.

Definition operands (p : precedence) (b : binary) (x y : expression) : list item :=
  items p x ++ item_of (snd (fst (binary_table b))) :: items (snd (binary_table b)) y.
Lemma prints_operands b x y s r : well_formed x -> well_formed y ->
  prints s r (fmt_expression x ;; print_ (snd (fst (binary_table b))) ;; hold (L_require_precedence (snd (binary_table b))) (fmt_expression y)) = (operands (s_prec s) b x y, None).
Proof.
  intros Wx Wy. rewrite prints_andthen, (proj1 prints_items) by exact Wx. rewrite prints_andthen, prints_print, operator_item.
  rewrite prints_hold. cbn [brackets within]. rewrite (proj1 prints_items) by exact Wy. reflexivity.
Qed.
Lemma operands_phrase p b x y : well_formed x -> well_formed y -> faithful x -> faithful y -> tight x = true ->
  phrase Left_hand x (tk (items p x)) /\ phrase Left_hand y (tk (items (snd (binary_table b)) y)) /\
  Forall2 spells (operands p b x y) (tk (items p x) ++ written_as b :: tk (items (snd (binary_table b)) y)).
Proof.
  intros Wx Wy Fx Fy T. split; [|split].
  - apply (proj1 items_phrase x Wx Fx p). auto.
  - apply (proj1 items_phrase y Wy Fy). left. apply right_rank.
  - apply Forall2_app; [apply spells_items, Wx|]. constructor; [apply operator_spells|apply spells_items, Wy].
Qed.
Theorem binary_phrase b x y need : well_formed x -> well_formed y -> faithful x -> faithful y -> tight x = true ->
  b <> B_in -> b <> B_power ->
  exists l r, phrase Left_hand x l /\ phrase Left_hand y r /\
    Forall2 spells (displayed (hold (L_require_precedence need) (fmt_binary b x y))) (enclosed (level b) need (l ++ written_as b :: r)).
Proof.
  intros Wx Wy Fx Fy T NI NP.
  assert (E : fst (fst (binary_table b)) = level b) by (destruct b; try reflexivity; contradiction).
  assert (D : fmt_binary b x y = hold (L_precedence (level b)) (fmt_expression x ;; print_ (snd (fst (binary_table b))) ;; hold (L_require_precedence (snd (binary_table b))) (fmt_expression y))).
  { rewrite <- E. destruct b; try reflexivity; contradiction. }
  unfold displayed. rewrite prints_hold. cbn [brackets within s_prec s_in s_orphan fst]. rewrite D, prints_hold. unfold enclosed. cbn [brackets within s_prec].
  destruct (rank (level b) <? rank need); unfold parens; cbn [fst snd between]; rewrite prints_operands by assumption; cbn [s_prec fst];
    match goal with |- context [operands ?p _ _ _] => destruct (operands_phrase p b x y) as (L & R & S); auto end; (eexists _, _; split; [exact L|split; [exact R|]]).
  - apply spelled_wrapped, S.
  - exact S.
Qed.
Theorem in_phrase x y : well_formed x -> well_formed y -> faithful x -> faithful y -> tight x = true ->
  exists l r, phrase Left_hand x l /\ phrase Left_hand y r /\
    Forall2 spells (displayed (fmt_binary B_in x y)) (parenthesized (l ++ wd "in" :: r)).
Proof.
  intros Wx Wy Fx Fy T.
  unfold displayed, fmt_binary. cbn [binary_table]. rewrite prints_hold. cbn [brackets within s_prec rank Nat.ltb Nat.leb]. rewrite prints_hold. cbn [brackets s_in within].
  unfold parens. cbn [fst snd between].
  pose proof (prints_operands B_in x y (Scope Pr_Normal true false) None Wx Wy) as P. cbn [binary_table fst snd] in P. rewrite P. cbn [s_prec fst].
  destruct (operands_phrase Pr_Normal B_in x y) as (L & R & S); auto. eexists _, _. split; [exact L|split; [exact R|]]. apply spelled_wrapped, S.
Qed.
Theorem unary_phrase u x need : well_formed x -> faithful x -> u <> U_negative ->
  exists l, phrase Left_hand x l /\
    Forall2 spells (displayed (hold (L_require_precedence need) (fmt_unary u x))) (enclosed Pr_Unary need (prefixed_with u :: l)).
Proof.
  intros W F N. exists (tk (items Pr_Unary x)). split; [apply (proj1 items_phrase x W F Pr_Unary); left; cbn; lia|].
  assert (I : spells (item_of (unary_operator_ u)) (prefixed_with u)) by (destruct u; try (apply sp_mark; reflexivity); try contradiction; apply keyword_spells; cbn; auto 10).
  assert (A : forall r, after_item (item_of (unary_operator_ u)) r = None) by (destruct u; reflexivity).
  pose proof (spells_items Pr_Unary x W) as S.
  unfold displayed, fmt_unary. rewrite prints_hold. cbn [brackets within s_prec s_in s_orphan fst]. rewrite prints_hold. unfold enclosed. cbn [brackets within s_prec].
  destruct (rank Pr_Unary <? rank need); unfold parens; cbn [fst snd between]; rewrite prints_andthen, prints_print, A, prints_hold; cbn [brackets within];
    rewrite (proj1 prints_items) by exact W; cbn [s_prec fst snd app].
  - apply (spelled_wrapped (_ :: _)). constructor; [exact I|exact S].
  - constructor; [exact I|exact S].
Qed.
Theorem binary_text b x y need : well_formed x -> well_formed y -> faithful x -> faithful y -> tight x = true ->
  b <> B_in -> b <> B_power ->
  exists l r items, phrase Left_hand x l /\ phrase Left_hand y r /\
    display (hold (L_require_precedence need) (fmt_binary b x y)) = layout false items /\
    Forall2 spells items (enclosed (level b) need (l ++ written_as b :: r)).
Proof.
  intros Wx Wy Fx Fy T NI NP. destruct (binary_phrase b x y need Wx Wy Fx Fy T NI NP) as (l & r & L & R & S).
  exists l, r, (displayed (hold (L_require_precedence need) (fmt_binary b x y))). repeat split; auto. apply display_displayed.
Qed.
Theorem in_text x y : well_formed x -> well_formed y -> faithful x -> faithful y -> tight x = true ->
  exists l r items, phrase Left_hand x l /\ phrase Left_hand y r /\
    display (fmt_binary B_in x y) = layout false items /\ Forall2 spells items (parenthesized (l ++ wd "in" :: r)).
Proof.
  intros Wx Wy Fx Fy T. destruct (in_phrase x y Wx Wy Fx Fy T) as (l & r & L & R & S).
  exists l, r, (displayed (fmt_binary B_in x y)). repeat split; auto. apply display_displayed.
Qed.
Theorem unary_text u x need : well_formed x -> faithful x -> u <> U_negative ->
  exists l items, phrase Left_hand x l /\
    display (hold (L_require_precedence need) (fmt_unary u x)) = layout false items /\
    Forall2 spells items (enclosed Pr_Unary need (prefixed_with u :: l)).
Proof.
  intros W F N. destruct (unary_phrase u x need W F N) as (l & L & S).
  exists l, (displayed (hold (L_require_precedence need) (fmt_unary u x))). repeat split; auto. apply display_displayed.
Qed.

Lemma tight_items p y : rank p <= 17 -> tight y = true -> items p y = items Pr_Normal y.
Proof.
  intros R T. destruct y; try discriminate T; try reflexivity; cbn [items]; unfold below.
  - replace (rank Pr_Member <? rank p) with false; [reflexivity|]. symmetry. apply Nat.ltb_ge. cbn. lia.
  - replace (rank Pr_New <? rank p) with false; [reflexivity|]. symmetry. apply Nat.ltb_ge. cbn. lia.
Qed.
Theorem left_operand b x y z : well_formed x -> well_formed y -> well_formed z -> tight y = true -> b <> B_in ->
  display (fmt_binary b (E_sequence x y) z) = display (fmt_expression x ;; punct_ Fp_Comma ;; fmt_binary b y z).
Proof.
  intros Wx Wy Wz T N. rewrite !display_displayed. apply f_equal.
  assert (D : forall u v, fmt_binary b u v = hold (L_precedence (fst (fst (binary_table b)))) (fmt_expression u ;; print_ (snd (fst (binary_table b))) ;; hold (L_require_precedence (snd (binary_table b))) (fmt_expression v))).
  { intros u v. destruct b; try reflexivity; contradiction. }
  assert (R : (rank (fst (fst (binary_table b))) <? rank Pr_Normal) = false) by (destruct b; reflexivity).
  unfold displayed. rewrite prints_andthen, (proj1 prints_items) by exact Wx. unfold punct_. rewrite prints_andthen, prints_print. cbn [after_item item_of s_prec].
  rewrite !D, !prints_hold. cbn [brackets within s_prec]. rewrite R. rewrite !prints_operands by (cbn [well_formed]; auto). cbn [fst snd s_prec]. unfold operands.
  cbn [items below rank Nat.ltb Nat.leb wrap_if]. rewrite (tight_items Pr_Assignment) by (cbn; auto; lia). rewrite <- app_assoc. reflexivity.
Qed.
