(** The text displayed for faithful trees determines them, up to the braces the formatter puts. *)
From Coq Require Import String List NArith Bool Arith Lia.
From Verif Require Import Base Tokens SpecTokens SpecHints ByteFacts Formatter SpecFormatter FormatterFacts Nodes SpecNodes NodeItems NodeText
  Statements SpecStatements StatementItems StatementTokens StatementText SpecFaithful LayoutFacts ReadNodes ReadStatements.
Import ListNotations.

Lemma ever_together (P Q : nat -> Prop) : ever P -> ever Q -> exists n, P n /\ Q n.
Proof. intros (m & H) (m' & H'). exists (max m m'). split; [apply H|apply H']; lia. Qed.

(** ** Expressions *)
Lemma items_determine e e' k k' : well_formed e -> faithful e -> well_formed e' -> faithful e' ->
  items Pr_Normal e ++ Mark Fp_Semicolon :: k = items Pr_Normal e' ++ Mark Fp_Semicolon :: k' -> e = e' /\ k = k'.
Proof.
  intros W F W' F' E. destruct (ever_together _ _ (whole_read e W F) (whole_read e' W' F')) as (n & H & H').
  specialize (H (Mark Fp_Semicolon :: k) ltac:(stopping)). specialize (H' (Mark Fp_Semicolon :: k') ltac:(stopping)). rewrite E, H' in H. injection H as -> ->. auto.
Qed.
Lemma script_items es : Forall well_formed es -> Forall faithful es -> forall es', Forall well_formed es' -> Forall faithful es' ->
  items_script es = items_script es' -> es = es'.
Proof.
  intros W. induction W as [|e es We W IH]; intros F es' W' F' E.
  - destruct W' as [|e' es' We' W']; [reflexivity|]. exfalso. unfold items_script in E. cbn [map concat] in E. destruct (items Pr_Normal e'); discriminate E.
  - inversion F as [|? ? Fe Fs]; subst. destruct W' as [|e' es' We' W']; [exfalso; unfold items_script in E; cbn [map concat] in E; destruct (items Pr_Normal e); discriminate E|].
    inversion F' as [|? ? Fe' Fs']; subst. unfold items_script in E. cbn [map concat] in E. rewrite <- !app_assoc in E. cbn [app] in E.
    destruct (items_determine e e' _ _ We Fe We' Fe' E) as (-> & R). f_equal. apply IH; auto.
Qed.
Theorem expressions_determined es es' : Forall well_formed es -> Forall faithful es -> Forall well_formed es' -> Forall faithful es' ->
  display (fmt_script es) = display (fmt_script es') -> es = es'.
Proof.
  intros W F W' F' E. rewrite !display_displayed, !displayed_script in E by assumption. apply script_items; auto.
  destruct (script_block es W) as (G & A & _). destruct (script_block es' W') as (G' & A' & _). eapply layout_injective; eauto.
Qed.

(** ** Scripts *)
Lemma string_first e k d l : well_formed e -> faithful e -> items Pr_Normal e ++ Mark Fp_Semicolon :: k = Quoted d :: Mark Fp_Semicolon :: l -> e = E_string d None.
Proof.
  intros W F E. assert (S : reads_expression (E_string d None)) by (apply all_from_member; try reflexivity; exists 1; apply ever_now; reflexivity).
  destruct (ever_together _ _ (whole_read e W F) (expression_whole _ S)) as (n & H & H').
  specialize (H (Mark Fp_Semicolon :: k) ltac:(stopping)). specialize (H' (Mark Fp_Semicolon :: l) ltac:(stopping)). cbn [items given app] in H'. rewrite E, H' in H. injection H as -> _. reflexivity.
Qed.
Lemma no_directive body d l : formed_list true body -> faithful_script body -> items_statements body <> Quoted d :: Mark Fp_Semicolon :: l.
Proof.
  intros W (F & N) E. destruct body as [|s rest]; [discriminate E|]. cbn [items_statements formed_list faithful_statements] in *. destruct W as (W & _ & _). destruct F as (F & _).
  destruct s; cbn [items_statement formed faithful_statement] in *; try contradiction W; try discriminate E.
  rewrite <- app_assoc in E. cbn [app] in E. apply string_first in E; auto. subst e. exact N.
Qed.
Lemma script_read ds body : formed_script ds body -> faithful_script body -> ever (fun n => script_ n (items_whole ds body) = Some (ds, braced_list body)).
Proof.
  intros (_ & W) F. eapply ever_map; [|exact (proj1 (proj2 statements_read) body (proj1 F) true W)]. cbn beta. intros n H. unfold items_whole.
  induction ds as [|d ds IH]; [|cbn [items_directives map concat app script_] in *; unfold items_directives in *; rewrite IH; reflexivity].
  specialize (H [] (or_introl eq_refl)). rewrite app_nil_r in H. cbn [items_directives map concat app].
  assert (G : (take (b, l) <- statements_ n (items_statements body); match l with [] => Some ([], b) | _ => None end) = Some (@nil bytes, braced_list body)) by (rewrite H; reflexivity).
  destruct (items_statements body) as [|i l] eqn:Q; [exact G|]. destruct i as [w|p|s|s|v f|s]; try exact G. destruct l as [|i l]; [exact G|].
  destruct i as [w|p|s'|s'|v f|s']; try exact G. destruct p; try exact G. destruct (no_directive body s l W F Q).
Qed.
Lemma script_determined ds body ds' body' : formed_script ds body -> faithful_script body -> formed_script ds' body' -> faithful_script body' ->
  display (fmt_whole_script ds body) = display (fmt_whole_script ds' body') -> ds = ds' /\ braced_list body = braced_list body'.
Proof.
  intros W F W' F' E. rewrite !display_displayed, !displayed_whole in E by assumption.
  assert (S : forall ds body, formed_script ds body -> sound (items_whole ds body)).
  { intros a b Wa. rewrite items_with_directives. eapply shaped_sound, shaped_statements, formed_with_directives, Wa. }
  destruct (S ds body W) as (G & A). destruct (S ds' body' W') as (G' & A'). apply layout_injective in E; auto.
  destruct (ever_together _ _ (script_read ds body W F) (script_read ds' body' W' F')) as (n & H & H'). rewrite E, H' in H. injection H as -> ->. auto.
Qed.

(** ** The braces *)
Lemma lexical_braced o s : lexical (braced o s) = lexical s.
Proof. destruct s; try reflexivity. destruct o; reflexivity. Qed.
Lemma throwing_less s : ends_throwing false s = false -> ends_throwing true s = false.
Proof. induction s; cbn [ends_throwing negb andb]; auto. Qed.
Lemma throwing_braced s : forall o, ends_throwing false (braced o s) = ends_throwing o s.
Proof. induction s; intros o; cbn [ends_throwing braced negb andb]; auto. destruct o; cbn [ends_throwing negb andb]; auto. Qed.
Lemma formed_braced :
  (forall s, formed s -> forall o, formed (braced o s)) /\
  (forall l, forall final, formed_list final l -> formed_list final (braced_list l)) /\
  (forall l, forall first, formed_clauses first l -> formed_clauses first (braced_clauses l)).
Proof.
  apply statement_node_ind; cbn [formed formed_list formed_clauses braced braced_list braced_clauses]; intros; try rewrite !lexical_braced; intuition auto.
  - destruct o; cbn [formed formed_list]; rewrite ?lexical_braced; intuition auto.
  - apply throwing_less. rewrite throwing_braced. assumption.
  - rewrite throwing_braced. destruct o; auto using throwing_less.
  - rewrite throwing_braced in H. intuition.
  - rewrite throwing_braced in H. destruct (H1 H) as (_ & ->). reflexivity.
  - destruct rest; auto.
Qed.
Lemma items_braced :
  (forall s o p, (p = true -> o = true) -> items_statement p (braced o s) = items_statement o s) /\
  (forall l, items_statements (braced_list l) = items_statements l) /\
  (forall l, items_clauses (braced_clauses l) = items_clauses l).
Proof.
  apply statement_node_ind; cbn [items_statement items_statements items_clauses braced braced_list braced_clauses]; intros; try reflexivity; try congruence.
  - destruct o.
    + destruct p; cbn [items_statement items_statements]; rewrite app_nil_r, (H false false) by auto; reflexivity.
    + destruct p; [discriminate (H0 eq_refl)|]. cbn [items_statement]. rewrite (H false false) by auto. reflexivity.
  - rewrite (H true true), (H0 o p) by auto. reflexivity.
  - rewrite (H o p) by auto. reflexivity.
  - rewrite (H o p) by auto. reflexivity.
  - rewrite (H o p) by auto. reflexivity.
  - rewrite (H o p) by auto. reflexivity.
  - rewrite (H o p) by auto. reflexivity.
  - rewrite (H o p) by auto. reflexivity.
  - rewrite (H o p) by auto. reflexivity.
  - rewrite (H o p) by auto. reflexivity.
  - rewrite (H false false), H0 by auto. reflexivity.
Qed.
Theorem braces_shown ds body : formed_script ds body ->
  display (fmt_whole_script ds (braced_list body)) = display (fmt_whole_script ds body).
Proof.
  intros W. rewrite !display_displayed, !displayed_whole; [|exact W|split; [apply W|apply formed_braced, W]]. unfold items_whole. rewrite (proj1 (proj2 items_braced)). reflexivity.
Qed.
Theorem scripts_determined ds body ds' body' : formed_script ds body -> faithful_script body -> formed_script ds' body' -> faithful_script body' ->
  display (fmt_whole_script ds body) = display (fmt_whole_script ds' body') <-> ds = ds' /\ braced_list body = braced_list body'.
Proof.
  intros W F W' F'. split; [apply script_determined; assumption|]. intros (<- & E). rewrite <- (braces_shown ds body), <- (braces_shown ds body'), E by assumption. reflexivity.
Qed.
