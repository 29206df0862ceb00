(** Proofs about the items displayed for expressions. *)
From Coq Require Import String List NArith Bool Arith Lia.
From Verif Require Import Base Tokens SpecTokens SpecHints ByteFacts Formatter SpecFormatter FormatterFacts Nodes SpecNodes.
Import ListNotations.

Scheme expression_mut := Induction for expression Sort Prop
  with access_mut := Induction for access Sort Prop
  with argument_mut := Induction for argument Sort Prop
  with arg_list_mut := Induction for arg_list Sort Prop
  with last_arg_mut := Induction for last_arg Sort Prop.
Combined Scheme node_ind from expression_mut, access_mut, argument_mut, arg_list_mut, last_arg_mut.

Definition wrapped (l : list item) : list item := Mark Fp_ParenL :: l ++ [Mark Fp_ParenR].
Definition wrap_if (b : bool) (l : list item) : list item := if b then wrapped l else l.
Definition word (k : fkeyword) : item := Word (fkeyword_text k).
Definition below (q p : precedence) : bool := rank q <? rank p.

(** The items, if nothing begins with [let]. *)
Fixpoint items (p : precedence) (e : expression) : list item :=
  match e with
  | E_binding value raw => [Word (given value raw)]
  | E_this => [word Fk_This]
  | E_null => [word Fk_Null]
  | E_boolean value => [word (if value then Fk_True else Fk_False)]
  | E_numeric s => [Number s]
  | E_string value raw => [Quoted (given value raw)]
  | E_regexp value flags => [Slashed value flags]
  | E_member o a => items Pr_Member o ++ items_access a
  | E_super_member a => word Fk_Super :: items_access a
  | E_call c l x => items Pr_New c ++ wrapped (items_args l ++ items_last x)
  | E_new c l x => wrap_if (below Pr_Member p) (word Fk_New :: items Pr_Member c ++ wrapped (items_args l ++ items_last x))
  | E_new_empty c => wrap_if (below Pr_New p) (word Fk_New :: items Pr_New c)
  | E_import_call a => word Fk_Import :: wrapped (items Pr_Assignment a)
  | E_super_call l x => word Fk_Super :: wrapped (items_args l ++ items_last x)
  | E_conditional t c a =>
    wrap_if (below Pr_Conditional p)
      (items Pr_LogicalOr t ++ Mark Fp_Question :: items Pr_Assignment c ++ Mark Fp_Colon :: items Pr_Assignment a)
  | E_sequence x y => wrap_if (below Pr_Normal p) (items Pr_Normal x ++ Mark Fp_Comma :: items Pr_Assignment y)
  end
with items_access (a : access) : list item :=
  match a with
  | A_identifier value raw => [Mark Fp_Period; Word (given value raw)]
  | A_computed e => Mark Fp_SquareL :: items Pr_Assignment e ++ [Mark Fp_SquareR]
  | A_private value raw => [Mark Fp_Period; Mark Fp_Hash; Word (given value raw)]
  end
with items_args (l : arg_list) : list item :=
  match l with
  | No_args => []
  | Cons_arg a rest => items_argument Pr_Assignment a ++ Mark Fp_Comma :: items_args rest
  end
with items_argument (p : precedence) (a : argument) : list item :=
  match a with Arg_expression e => items p e | Arg_spread e => Mark Fp_Ellipsis :: items p e end
with items_last (l : last_arg) : list item :=
  match l with No_last => [] | Last a => items_argument Pr_Normal a end.

Lemma prints_andthen a b : forall s r, prints s r (a ;; b) =
  let '(x, r1) := prints s r a in let '(y, r2) := prints s r1 b in (x ++ y, r2).
Proof.
  induction a as [|p k IH|l body _ k IH]; intros s r; cbn [andthen prints].
  - destruct (prints s r b). reflexivity.
  - rewrite IH. destruct (prints s _ k) as [x r1]. destruct (prints s r1 b). reflexivity.
  - destruct (brackets l s r) as [br|]; [destruct (prints (between br s) None body)|destruct (prints (within l s) _ body)];
      rewrite IH; destruct (prints s _ k) as [x r1]; destruct (prints s r1 b); cbn [app]; rewrite <- ?app_assoc; reflexivity.
Qed.
(** What is printed under a lock, given what is printed for the body. *)
Lemma prints_hold l body s r : prints s r (hold l body) =
  match brackets l s r with
  | Some b => (Mark (fst b) :: fst (prints (between b s) None body) ++ [Mark (snd b)], None)
  | None =>
    let x := prints (within l s) match l with L_restrict_lookahead x => Some x | _ => r end body in
    (fst x, match l, snd x with L_restrict_lookahead _, Some _ => r | _, r1 => r1 end)
  end.
Proof.
  unfold hold. cbn [prints]. destruct (brackets l s r) as [b|]; [destruct (prints (between b s) None body)|destruct (prints (within l s) _ body)];
    cbn; rewrite ?app_nil_r; [reflexivity|]. destruct l; try reflexivity; destruct o; reflexivity.
Qed.
Lemma prints_print p s r : prints s r (print_ p) = ([item_of p], after_item (item_of p) r).
Proof. reflexivity. Qed.

Lemma no_let o a : well_formed o -> get_sequence o a = S_None.
Proof.
  destruct o; auto. cbn [get_sequence well_formed]. intros [_ L]. destruct (beqb value (s2b "let")) eqn:B; [|reflexivity]. apply beqb_eq in B. contradiction.
Qed.

Definition prints_as (p : precedence) (l : list item) (u : uses) : Prop :=
  forall s r, s_prec s = p -> prints s r u = (l, None).
Lemma as_args l : (forall s, s_prec s = Pr_Assignment -> prints s None (fmt_args l) = (items_args l, None)) ->
  forall x, (forall s, s_prec s = Pr_Normal -> prints s None (fmt_last x) = (items_last x, None)) ->
  forall s r, prints s r (hold L_wrap_parens (hold (L_require_precedence Pr_Assignment) (fmt_args l) ;; fmt_last x)) =
  (wrapped (items_args l ++ items_last x), None).
Proof.
  intros A x B s r. rewrite prints_hold. cbn [brackets parens fst snd between]. rewrite prints_andthen, prints_hold. cbn [brackets within s_prec s_in s_orphan].
  rewrite A by reflexivity. cbn [fst snd]. rewrite B by reflexivity. reflexivity.
Qed.

Lemma prints_items :
  (forall e, well_formed e -> forall s r, prints s r (fmt_expression e) = (items (s_prec s) e, None)) /\
  (forall a, well_formed_access a -> forall s r, prints s r (fmt_access a) = (items_access a, None)) /\
  (forall a, well_formed_argument a -> forall s r, prints s r (fmt_argument a) = (items_argument (s_prec s) a, None)) /\
  (forall l, well_formed_args l -> forall s, s_prec s = Pr_Assignment -> prints s None (fmt_args l) = (items_args l, None)) /\
  (forall x, well_formed_last x -> forall s, s_prec s = Pr_Normal -> prints s None (fmt_last x) = (items_last x, None)).
Proof.
  apply node_ind; cbn [well_formed well_formed_access well_formed_argument well_formed_args well_formed_last];
    try (intros; contradiction); try (intros; reflexivity).
  - intros o IHo a IHa (Wo & Wa & _) s r. cbn [fmt_expression items]. rewrite no_let by exact Wo. rewrite prints_hold. cbn [brackets].
    destruct (in_dec sequence_eq_dec S_None (forbidden r)) as [K|_]; [exfalso; destruct r as [[]|]; cbn in K; intuition discriminate|].
    cbn [within]. rewrite prints_andthen, prints_hold. cbn [brackets within]. rewrite IHo by exact Wo. cbn [fst snd]. rewrite IHa by exact Wa. reflexivity.
  - intros a IHa Wa s r. cbn [fmt_expression items]. unfold keyword_. rewrite prints_andthen, prints_print. cbn [after_item item_of]. rewrite IHa by exact Wa. reflexivity.
  - intros c IHc l IHl x IHx (Wc & Wl & Wx & _) s r. cbn [fmt_expression items]. rewrite prints_andthen, prints_hold. cbn [brackets within s_prec s_in s_orphan].
    rewrite IHc by exact Wc. cbn [fst snd]. rewrite as_args by auto. reflexivity.
  - intros c IHc l IHl x IHx (Wc & Wl & Wx & _) s r. cbn [fmt_expression items]. rewrite prints_hold. cbn [brackets within].
    unfold below, keyword_. destruct (rank Pr_Member <? rank (s_prec s)); cbn [parens wrap_if fst snd between];
      rewrite prints_andthen, prints_print; cbn [after_item item_of]; rewrite prints_andthen, prints_hold; cbn [brackets within s_prec s_in s_orphan];
      rewrite IHc by exact Wc; cbn [fst snd]; rewrite as_args by auto; reflexivity.
  - intros c IHc Wc s r. cbn [fmt_expression items]. rewrite prints_hold. cbn [brackets within].
    unfold below, keyword_. destruct (rank Pr_New <? rank (s_prec s)); cbn [parens wrap_if fst snd between];
      rewrite prints_andthen, prints_print; cbn [after_item item_of]; rewrite prints_hold; cbn [brackets within s_prec s_in s_orphan];
      rewrite IHc by exact Wc; reflexivity.
  - intros l IHl x IHx (Wl & Wx & _) s r. cbn [fmt_expression items]. unfold keyword_. rewrite prints_andthen, prints_print. cbn [after_item item_of].
    rewrite as_args by auto. reflexivity.
  - intros t IHt c IHc a IHa (Wt & Wc & Wa) s r. cbn [fmt_expression items]. rewrite prints_hold. cbn [brackets within].
    unfold below, punct_. destruct (rank Pr_Conditional <? rank (s_prec s)); cbn [parens wrap_if fst snd between];
      rewrite prints_andthen, prints_hold; cbn [brackets within]; rewrite IHt by exact Wt; cbn [fst snd];
      rewrite prints_andthen, prints_print; cbn [after_item item_of]; rewrite prints_hold; cbn [brackets within];
      rewrite prints_andthen, prints_hold; cbn [brackets within]; rewrite IHc by exact Wc; cbn [fst snd];
      rewrite prints_andthen, prints_print; cbn [after_item item_of]; rewrite IHa by exact Wa; reflexivity.
  - intros x IHx y IHy (Wx & Wy) s r. cbn [fmt_expression items]. rewrite prints_hold. cbn [brackets within].
    unfold below, punct_. destruct (rank Pr_Normal <? rank (s_prec s)) eqn:B; cbn [parens wrap_if fst snd between];
      rewrite prints_andthen, IHx by exact Wx; cbn [s_prec]; rewrite prints_andthen, prints_print; cbn [after_item item_of]; rewrite prints_hold;
      cbn [brackets within]; rewrite IHy by exact Wy; cbn [s_prec fst snd]; [reflexivity|].
    replace (s_prec s) with Pr_Normal; [reflexivity|]. destruct (s_prec s); try discriminate B; reflexivity.
  - intros e IHe We s r. cbn [fmt_access items_access]. rewrite prints_hold. cbn [brackets squares fst snd between]. rewrite prints_hold.
    cbn [brackets within s_prec s_in s_orphan]. rewrite IHe by exact We. reflexivity.
  - intros e IHe We s r. cbn [fmt_argument items_argument]. apply IHe, We.
  - intros e IHe We s r. cbn [fmt_argument items_argument]. unfold punct_. rewrite prints_andthen, prints_print. cbn [after_item item_of]. rewrite IHe by exact We. reflexivity.
  - intros a IHa l IHl (Wa & Wl) s S. cbn [fmt_args items_args]. unfold punct_. rewrite prints_andthen, IHa by exact Wa. rewrite prints_andthen, prints_print.
    cbn [after_item item_of]. rewrite IHl by auto. rewrite S. reflexivity.
  - intros a IHa Wa s S. cbn [fmt_last items_last]. rewrite IHa by exact Wa. rewrite S. reflexivity.
Qed.

Definition items_script (es : list expression) : list item :=
  concat (map (fun e => items Pr_Normal e ++ [Mark Fp_Semicolon]) es).
Lemma displayed_script es : Forall well_formed es -> displayed (fmt_script es) = items_script es.
Proof.
  intros W. unfold displayed, fmt_script. rewrite prints_hold. cbn [brackets within s_prec s_in s_orphan fst].
  enough (G : forall s r, s_prec s = Pr_Normal -> fst (prints s r (fold_right (fun e k => fmt_expression_statement e ;; k) Done es)) = items_script es) by auto.
  induction W as [|e es We _ IH]; intros s r S; [reflexivity|]. cbn [fold_right]. unfold fmt_expression_statement, punct_ at 1.
  rewrite !prints_andthen, prints_hold. cbn [brackets within]. rewrite prints_hold. cbn [brackets within]. rewrite (proj1 prints_items) by exact We.
  cbn [fst snd s_prec]. rewrite prints_print. cbn [after_item item_of]. specialize (IH s None S).
  destruct (prints s None _) as [y r2]. cbn [fst] in *. rewrite IH. unfold items_script. cbn [map concat]. reflexivity.
Qed.
