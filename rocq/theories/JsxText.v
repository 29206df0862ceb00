(** Proofs about displayed JSX elements. *)
From Coq Require Import String List NArith Bool Arith Lia.
From Verif Require Import Base Tokens SpecTokens SpecTrivia SpecStream SpecHints Formatter SpecFormatter FormatterFacts FormatterTokens Nodes SpecNodes NodeItems NodeTokens NodeText.
From Verif Require Import SpecFaithful SpecPhrases PhraseFacts PhraseText Jsx SpecJsx.
Import ListNotations.

(** The text of a use, under every setting without a precedence required, is in [P]. *)
Definition texts (u : uses) (P : bytes -> Prop) : Prop :=
  forall s k r, s_prec s = Pr_Normal -> P (layout k (fst (prints s r u))).
Lemma texts_then a b P Q (R : bytes -> Prop) : texts a P -> texts b Q -> (forall x y, P x -> Q y -> R (x ++ y)) -> texts (a ;; b) R.
Proof.
  intros A B H s k r N. rewrite prints_andthen. pose proof (A s k r N) as A'. destruct (prints s r a) as [x r1]. cbn [fst] in A'.
  pose proof (B s (fold_left word_last x k) r1 N) as B'. destruct (prints s r1 b) as [y r2]. cbn [fst] in *. rewrite layout_app. apply H; assumption.
Qed.
Lemma texts_impl u (P Q : bytes -> Prop) : texts u P -> (forall x, P x -> Q x) -> texts u Q.
Proof. intros A H s k r N. apply H, A, N. Qed.
Lemma texts_punct p : texts (punct_ p) (eq (fpunct_text p)).
Proof. intros s k r N. unfold punct_. rewrite prints_print. cbn. rewrite app_nil_r. reflexivity. Qed.
Lemma texts_verbatim v w : texts (print_ (P_verbatim v w)) (eq (given v w)).
Proof. intros s k r N. rewrite prints_print. cbn. rewrite app_nil_r. reflexivity. Qed.
Lemma texts_both a b P Q : texts a P -> texts b Q -> texts (a ;; b) (fun z => exists x y, z = x ++ y /\ P x /\ Q y).
Proof. intros A B. eapply texts_then; [exact A|exact B|]. intros x y X Y. exists x, y. auto. Qed.
Lemma texts_before p u P : texts u P -> texts (punct_ p ;; u) (fun x => exists y, x = fpunct_text p ++ y /\ P y).
Proof. intros A. eapply texts_then; [apply texts_punct|exact A|]. intros x y <- Y. exists y. auto. Qed.
Lemma texts_behind p u P : texts u P -> texts (u ;; punct_ p) (fun x => exists y, x = y ++ fpunct_text p /\ P y).
Proof. intros A. eapply texts_then; [exact A|apply texts_punct|]. intros x y Y <-. exists x. auto. Qed.
Lemma texts_string v w : texts (print_ (P_jsx_string v w)) (eq (s2b "'" ++ given v w ++ s2b "'")).
Proof. intros s k r N. rewrite prints_print. cbn. rewrite app_nil_r. reflexivity. Qed.
Lemma texts_done : texts Done (eq []).
Proof. intros s k r N. reflexivity. Qed.
Lemma texts_curly u P : texts u P -> texts (hold L_wrap_curly u) (fun x => exists y, x = s2b "{" ++ y ++ s2b "}" /\ P y).
Proof.
  intros A s k r N. rewrite prints_hold. cbn [brackets curlies fst snd]. exists (layout false (fst (prints (between (Fp_CurlyL, Fp_CurlyR) s) None u))).
  split; [|apply A; exact N]. cbn [layout spaced_item item_text word_last app]. rewrite layout_app. cbn. reflexivity.
Qed.

(** ** Expressions *)
Lemma assignment_items e k : well_formed e -> faithful e -> assignment_text e (layout k (items Pr_Assignment e)).
Proof.
  intros W F. exists (tk (items Pr_Assignment e)). split; [apply assignment_phrase; assumption|]. intros checks.
  destruct (proj1 items_block e W Pr_Assignment) as (G & A & _). destruct (spells_all _ G) as (S & Sf).
  exists (pieces k (items Pr_Assignment e) (tk (items Pr_Assignment e))). split; [apply pieces_tokens, S|].
  apply layout_printed; [exact S|exact A|constructor|apply settled, Sf].
Qed.
Lemma texts_assignment e : formed_expression e -> texts (hold (L_require_precedence Pr_Assignment) (fmt_expression e)) (assignment_text e).
Proof.
  intros (W & F) s k r N. rewrite prints_hold. cbn [brackets within]. rewrite (proj1 prints_items) by exact W. cbn [fst s_prec]. apply assignment_items; assumption.
Qed.
Lemma texts_expression e : formed_expression e -> sequence e = false -> texts (fmt_expression e) (assignment_text e).
Proof.
  intros (W & F) Q s k r N. rewrite (proj1 prints_items) by exact W. rewrite N. cbn [fst].
  replace (items Pr_Normal e) with (items Pr_Assignment e) by (destruct e; try discriminate Q; reflexivity). apply assignment_items; assumption.
Qed.
Lemma texts_spread e : formed_expression e -> texts (fmt_spread e) (fun x => exists y, x = s2b "{..." ++ y ++ s2b "}" /\ assignment_text e y).
Proof.
  intros W. eapply texts_impl; [apply texts_curly; eapply (texts_then _ _ _ _ (fun x => exists y, x = s2b "..." ++ y /\ assignment_text e y)); [apply texts_punct|apply texts_assignment, W|]|].
  - intros x y <- Y. exists y. auto.
  - intros x (y & -> & z & -> & Z). exists z. auto.
Qed.

(** ** Names *)
Lemma texts_name i : formed_name i -> texts (fmt_jsx_identifier i) (jsx_name i).
Proof. intros F. eapply texts_impl; [apply texts_verbatim|]. intros x <-. exact F. Qed.
Lemma texts_object o : formed_object o -> texts (fmt_object o) (object_text o).
Proof.
  induction o as [i|o IH i]; cbn [formed_object fmt_object].
  - intros F. eapply texts_impl; [apply texts_name, F|]. apply ot_name.
  - intros (F & G). eapply texts_then; [apply IH, F|eapply (texts_then _ _ _ _ (fun x => exists y, x = s2b "." ++ y /\ jsx_name i y)); [apply texts_punct|apply texts_name, G|]|].
    + intros x y <- Y. exists y. auto.
    + intros x y X (z & -> & Z). apply ot_member; assumption.
Qed.
Lemma texts_colon i j : formed_name i -> formed_name j ->
  texts (fmt_jsx_identifier i ;; punct_ Fp_Colon ;; fmt_jsx_identifier j) (fun x => exists t u, x = t ++ s2b ":" ++ u /\ jsx_name i t /\ jsx_name j u).
Proof.
  intros F G. eapply texts_then; [apply texts_name, F|eapply (texts_then _ _ _ _ (fun x => exists y, x = s2b ":" ++ y /\ jsx_name j y)); [apply texts_punct|apply texts_name, G|]|].
  - intros x y <- Y. exists y. auto.
  - intros x y X (z & -> & Z). exists x, z. auto.
Qed.
Lemma texts_element_name n : formed_element_name n -> texts (fmt_element_name n) (name_text n).
Proof.
  destruct n as [i|o i|i j]; cbn [formed_element_name fmt_element_name].
  - intros F. eapply texts_impl; [apply texts_name, F|]. apply nm_name.
  - intros F. eapply texts_impl; [apply (texts_object (O_member o i)), F|]. apply nm_member.
  - intros (F & G). eapply texts_impl; [apply texts_colon; assumption|]. intros x (t & u & -> & T & U). apply nm_namespaced; assumption.
Qed.
Lemma texts_attribute_name n : formed_attribute_name n -> texts (fmt_attribute_name n) (attribute_name_text n).
Proof.
  destruct n as [i|i j]; cbn [formed_attribute_name fmt_attribute_name].
  - intros F. eapply texts_impl; [apply texts_name, F|]. apply an_name.
  - intros (F & G). eapply texts_impl; [apply texts_colon; assumption|]. intros x (t & u & -> & T & U). apply an_namespaced; assumption.
Qed.
(** The text of a name is the same wherever it stands. *)
Fixpoint object_bytes (o : jobject) : bytes :=
  match o with O_identifier i => given (fst i) (snd i) | O_member o i => object_bytes o ++ s2b "." ++ given (fst i) (snd i) end.
Definition name_bytes (n : element_name) : bytes :=
  match n with
  | N_identifier i => given (fst i) (snd i)
  | N_member o i => object_bytes (O_member o i)
  | N_namespaced i j => given (fst i) (snd i) ++ s2b ":" ++ given (fst j) (snd j)
  end.
Lemma object_text_bytes o t : object_text o t -> t = object_bytes o.
Proof. induction 1 as [i t (-> & _)|o i t u _ IH (-> & _)]; cbn [object_bytes]; [reflexivity|]. rewrite IH. reflexivity. Qed.
Lemma name_text_bytes n t : name_text n t -> t = name_bytes n.
Proof. destruct 1 as [i t (-> & _)|o i t H|i j t u (-> & _) (-> & _)]; [reflexivity|apply object_text_bytes, H|reflexivity]. Qed.

(** ** Elements *)
Scheme element_mut := Induction for element Sort Prop
  with attributes_mut := Induction for attributes Sort Prop
  with value_mut := Induction for attribute_value Sort Prop
  with children_mut := Induction for children Sort Prop.
Combined Scheme jsx_ind from element_mut, attributes_mut, value_mut, children_mut.

Lemma texts_jsx :
  (forall e, formed_element e -> texts (fmt_element e) (element_text e)) /\
  (forall a b, formed_attributes b a -> texts (fmt_attributes a) (attributes_text b a)) /\
  (forall v, formed_value v -> v <> V_none -> texts (fmt_attribute_value v) (value_text v)) /\
  (forall c b, formed_children b c -> texts (fmt_children c) (children_text b c)).
Proof.
  apply jsx_ind.
  - intros n a IHa c IHc closing (Fn & Fa & Fc & Fm). cbn [fmt_element].
    assert (M : texts (fmt_element_name match closing with Some close => close | None => n end) (name_text n)).
    { destruct closing as [m|]; [subst m|]; apply texts_element_name, Fn. }
    assert (Pair : texts (punct_ Fp_AngleR ;; fmt_children c ;; punct_ Fp_AngleSlash ;;
        fmt_element_name match closing with Some close => close | None => n end ;; punct_ Fp_AngleR)
      (fun x => exists v t, x = s2b ">" ++ v ++ s2b "</" ++ t ++ s2b ">" /\ children_text false c v /\ name_text n t)).
    { eapply texts_impl; [apply texts_before, texts_both; [apply (IHc false Fc)|apply texts_before, texts_behind, M]|].
      intros x (y & -> & v & z & -> & V & w & -> & t & -> & T). exists v, t. auto. }
    assert (Rest : texts match c with
        | No_children => match closing with Some close => punct_ Fp_AngleR ;; punct_ Fp_AngleSlash ;; fmt_element_name close ;; punct_ Fp_AngleR | None => punct_ Fp_SlashAngle end
        | _ => punct_ Fp_AngleR ;; fmt_children c ;; punct_ Fp_AngleSlash ;; fmt_element_name match closing with Some close => close | None => n end ;; punct_ Fp_AngleR
        end
      (fun x => (c = No_children /\ closing = None /\ x = s2b "/>") \/
        exists v t, x = s2b ">" ++ v ++ s2b "</" ++ t ++ s2b ">" /\ children_text false c v /\ name_text n t)).
    { destruct c; try (eapply texts_impl; [exact Pair|auto]). destruct closing as [m|].
      - eapply texts_impl; [exact Pair|auto].
      - eapply texts_impl; [apply texts_punct|]. intros x <-. left. auto. }
    eapply texts_impl; [apply texts_before, texts_both; [apply texts_element_name, Fn|apply texts_both; [apply (IHa true Fa)|exact Rest]]|].
    intros x (y & -> & t & y' & -> & T & u & z & -> & U & [(-> & -> & ->)|(v & t' & -> & V & T')]).
    + apply el_empty; assumption.
    + rewrite (name_text_bytes _ _ T'), <- (name_text_bytes _ _ T). apply el_pair; auto. intros m ->. subst m. exact T.
  - intros b _. eapply texts_impl; [apply texts_done|]. intros x <-. apply at_nil.
  - intros e a IH b (Fe & Fa). cbn [fmt_attributes]. eapply texts_then; [apply texts_spread, Fe|apply (IH false Fa)|].
    intros x y (t & -> & T) Y. rewrite <- !app_assoc. apply at_spread; assumption.
  - intros n v IHv a IHa b (-> & Fn & Fv & Fa). cbn [fmt_attributes]. destruct v as [|value raw|e|e].
    2-4: eapply texts_then; [apply texts_both; [apply texts_attribute_name, Fn|apply texts_before, (IHv Fv); discriminate]|apply (IHa false Fa)|];
      intros x y (t & z & -> & T & w & -> & W) Y; rewrite <- !app_assoc; apply at_pair; assumption.
    eapply texts_then; [apply texts_both; [apply texts_attribute_name, Fn|apply texts_done]|apply (IHa true Fa)|].
    intros x y (t & z & -> & T & <-) Y. rewrite app_nil_r. apply at_name; assumption.
  - intros _ N. contradiction.
  - intros value raw F _. eapply texts_impl; [apply texts_string|]. intros x <-. apply vt_string, F.
  - intros e (F & Q) _. eapply texts_impl; [apply texts_curly, texts_expression; assumption|]. intros x (y & -> & Y). apply vt_expression, Y.
  - intros e IH F _. eapply texts_impl; [apply IH, F|]. apply vt_element.
  - intros b _. eapply texts_impl; [apply texts_done|]. intros x <-. apply ct_nil.
  - intros c IH b F. cbn [fmt_children]. eapply texts_then; [apply texts_curly, texts_done|apply (IH false F)|]. intros x y (z & -> & <-) Y. apply ct_empty, Y.
  - intros value raw c IH b (-> & N & D & E & F). cbn [fmt_children]. eapply texts_then; [apply texts_verbatim|apply (IH true F)|]. intros x y <- Y.
    pose proof (ct_text value raw c y) as K. rewrite E in K. apply K; assumption.
  - intros e IHe c IH b (Fe & F). cbn [fmt_children]. eapply texts_then; [apply IHe, Fe|apply (IH false F)|]. intros x y X Y. apply ct_element; assumption.
  - intros e c IH b (Fe & F). cbn [fmt_children]. eapply texts_then; [apply texts_curly, texts_assignment, Fe|apply (IH false F)|].
    intros x y (z & -> & Z) Y. rewrite <- !app_assoc. apply ct_expression; assumption.
  - intros e c IH b (Fe & F). cbn [fmt_children]. eapply texts_then; [apply texts_spread, Fe|apply (IH false F)|].
    intros x y (z & -> & Z) Y. rewrite <- !app_assoc. apply ct_spread; assumption.
Qed.
Theorem element_displayed e : formed_element e -> element_text e (display (fmt_element e)).
Proof. intros F. rewrite display_displayed. apply (proj1 texts_jsx e F). reflexivity. Qed.

(** ** What goes wrong *)
Definition run_together (n m : bytes) (v : attribute_value) (a : attributes) : element :=
  Element (N_identifier (n, None)) (Pair_attribute (AN_identifier (m, None)) v a) No_children None.
Lemma together_text n m v a : exists t, display (fmt_element (run_together n m v a)) = s2b "<" ++ n ++ m ++ t.
Proof.
  rewrite display_displayed. unfold displayed, run_together. cbn [fmt_element fmt_element_name fmt_jsx_identifier punct_ print_ andthen fmt_attributes fmt_attribute_name fst snd].
  cbn [prints item_of given]. destruct (prints _ _ _) as [l r]. cbn [fst layout spaced_item item_text app]. eexists. reflexivity.
Qed.
Lemma together_blank e x : element_text e x -> forall n m v a, e = run_together n m v a -> exists u y, x = s2b "<" ++ n ++ (32%N :: u) ++ y.
Proof.
  assert (A : forall n v a u, attributes_text true (Pair_attribute n v a) u -> exists u', u = 32%N :: u').
  { intros n v a u K. inversion K; subst. eexists. reflexivity. }
  intros H n m v a E. destruct H as [n0 t a0 u N U|n0 t a0 u c y closing N U _ _]; injection E; intros; subst.
  all: apply name_text_bytes in N; cbn in N; subst t; destruct (A _ _ _ _ U) as (u' & ->); eexists _, _; reflexivity.
Qed.
Lemma together_refused n m v a : formed_name (m, None) -> ~ element_text (run_together n m v a) (display (fmt_element (run_together n m v a))).
Proof.
  intros (_ & c & w & E & I & _) H. cbn in E. destruct (together_text n m v a) as (t & T). rewrite T in H.
  destruct (together_blank _ _ H n m v a eq_refl) as (u & x & B). do 2 apply app_inv_head in B. rewrite E in B. cbn [app] in B. injection B as B _. subst c.
  unfold ident_char, lower, upper, digit in I. lia.
Qed.
Lemma together_same n m a : display (fmt_element (run_together n m V_none a)) = display (fmt_element (Element (N_identifier (n ++ m, None)) a No_children None)).
Proof.
  rewrite !display_displayed. unfold displayed, run_together. cbn [fmt_element fmt_element_name fmt_jsx_identifier punct_ print_ andthen fmt_attributes fmt_attribute_name fst snd].
  cbn [prints item_of given after_item]. destruct (prints _ _ _) as [l r]. cbn [fst layout spaced_item item_text app word_last]. rewrite <- app_assoc. reflexivity.
Qed.
Lemma raw_text_ignored value raw c : fmt_children (C_text value raw c) = fmt_children (C_text value None c).
Proof. reflexivity. Qed.
