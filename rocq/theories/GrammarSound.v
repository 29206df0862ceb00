(** Soundness of the parse functions with respect to the grammar: what a parse function
    consumes derives from its nonterminal. *)
From Coq Require Import String List Arith NArith Bool Lia.
From Verif Require Import Base Tokens ByteFacts ParserCore ParserBody AbstractParser ParserExec ParserTerminates SpecGrammar GrammarFirst GrammarRules.
Import ListNotations.
Local Open Scope string_scope.

Section Step.
Context (n : nat).
Hypothesis IH : forall f g i, sound f g i (aexec TEOF n f g i).
Ltac go := repeat (try exact I; first [wstep|on_call IH]); fin.

Definition step f := forall g i, wpr TEOF (aexec TEOF n) (body f) g i (sound f g i).

Lemma s_left_hand c : step (F_left_hand c).
Proof. intros g i. cbn [body]. go. congruence. Qed.
Lemma s_loop_left_hand c : step (L_left_hand c).
Proof. intros g i. cbn [body]. destruct c; go. Qed.
Lemma s_method_tail h : step (F_method_tail h).
Proof.
  intros g i. cbn [body]. destruct h as [[] [] []]; unfold parse_method_tail; cbn [mh_kind mh_async mh_generator]; go.
Qed.
Lemma s_switch d : step (L_switch d).
Proof. intros g i. cbn [body]. destruct d; go. Qed.
Lemma s_assignment : step F_assignment.
Proof.
  intros g i. cbn [body]. go.
  all: match goal with
  | H : reify_of (tok0 ?j) = None |- _ =>
    assert (no (P Arrow :: assignment_operator) g j = true) by (rewrite no_eq; unfold starts; rewrite (reify_none _ H); reflexivity)
  | H : reify_of _ = Some ReifyArrow |- _ => pose proof (reify_arrow_tok _ H)
  | H : reify_of _ = Some ReifyAssign |- _ => pose proof (reify_assign_tok _ H g)
  end; facts; solve [dprod].
Qed.
Lemma s_declaration : step F_declaration.
Proof. 
  intros g i. cbn [body]. go.
  assert (is_keyword "async" (tok0 i) = false).
  { destruct (tok0 i) as [| | | | |m| | | |]; try discriminate. cbn [is_keyword decl_type_of] in *.
    destruct (kw "async" m) eqn:E; [|reflexivity]. apply kw_true in E. subst. discriminate. }
  solve [dprod].
Qed.
Lemma s_statement : step F_statement.
Proof.
  intros g i. cbn [body]. go.
  all: match goal with H : statement_type_of _ = SUnknown |- _ => apply (no_statement_keyword g) in H end; solve [dprod].
Qed.
Lemma s_primary : step F_primary.
Proof.
  intros g i. cbn [body]. go.
  all: try match goal with H : is_binding_token _ (tok0 ?j) = true, E : second0 ?j = _ |- _ =>
    assert (no_pair [Bind] false [K "function"] g j = true)
      by (apply identifier_not_function; [exact H|]; rewrite E; first [exact I|assumption]); solve [dprod] end.
  match goal with G : _ -> derives _ NFunctionExpression _ _ |- _ => pose proof (G (primary_function _ _ ltac:(eassumption))); solve [dprod] end.
Qed.
Lemma s_function_expression : step F_function_expression.
Proof.
  intros g i. cbn [body]. go; intros K;
    try match goal with A : is_keyword "async" _ = true |- _ => exfalso; revert A K; apply two_keywords; discriminate end;
    facts; solve [dprod].
Qed.
Lemma s_template : step F_template_literal.
Proof.
  intros g i. cbn [body]. go.
  all: match goal with H : template_format_of (tok0 ?j) = ?x, S : is_template_start (tok0 ?j) = true |- _ =>
    lazymatch x with TF_Head => pose proof (template_start_head _ S H g)
    | _ => pose proof (template_start_whole _ S ltac:(congruence) g) end end; solve [dprod].
Qed.
Lemma s_ltemplate : step L_template_literal.
Proof.
  intros g i. cbn [body]. go.
  all: match goal with H : template_format_of (tok0 ?j) = ?x, S : is_template_end (tok0 ?j) = true |- _ =>
    lazymatch x with TF_Tail => pose proof (template_end_tail _ S H g)
    | _ => pose proof (template_end_middle _ S ltac:(congruence) g) end end; solve [dprod].
Qed.

Lemma s_fancy p : step (F_fancy p).
Proof. intros g i. cbn [body]. go. match goal with G : forall r', _ -> derives _ NBinary _ _ |- _ => apply G end. auto. Qed.
Lemma s_exponential : step F_exponential.
Proof.
  intros g i. cbn [body]. go; intros r' R.
  - match goal with G : forall r', _ -> derives _ NBinary _ _ |- _ => destruct (binary_inv _ _ _ (G _ R)) as (m & U & R') end.
    eapply binary_intro; [eassumption|]. eapply tail_step; [|exact U|exact R'].
    left. unfold binary_operator. cbn [map]. rewrite !one_of_cons, !matches_P.
    match goal with H : is_punc StarStar _ = true |- _ => rewrite H end. rewrite ?orb_true_r. reflexivity.
  - eapply binary_intro; eassumption.
Qed.
Lemma s_loop_fancy p b : step (L_fancy p b).
Proof.
  intros g i. cbn [body]. go; intros Hb; subst b.
  - match goal with H : binary_precedence _ _ = Some _ |- _ => apply binary_some in H end.
    eapply tail_step; [|eassumption|auto].
    match goal with H : _ \/ _ |- _ => destruct H as [A|A]; [left; apply A|right; exact A] end.
  - match goal with H : binary_precedence _ _ = Some _ |- _ => apply binary_some in H end.
    match goal with G : derives _ NBinary _ _ |- _ => destruct (binary_inv _ _ _ G) as (m & U & R') end.
    eapply tail_step; [|exact U|eapply tail_app; [apply le_n|exact R'|auto]].
    match goal with H : _ \/ _ |- _ => destruct H as [A|A]; [left; apply A|right; exact A] end.
  - match goal with H : binary_precedence _ _ = None |- _ => apply binary_none in H; destruct H as [A B] end.
    apply tail_end. split; [apply A|exact B].
Qed.

Definition method_heads : list method_head :=
  [MethodHead MNone false false; MethodHead MNone true false; MethodHead MNone false true;
   MethodHead MGet false false; MethodHead MGet true false;
   MethodHead MSet false false; MethodHead MSet true false].
Lemma s_method_head g i : wpr TEOF (aexec TEOF n) (parse_method_head true) g i (fun r =>
  match r with AOk (Some h) i' => derives g (NMethodHead h) i i' /\ In h method_heads | _ => True end).
Proof.
  repeat (try exact I; first [wstep|on_call IH]); try exact I; try discriminate; (split; [cbn [andb] in *; facts; solve [dprod]|cbn; tauto]).
Qed.

Lemma s_class_item : step F_class_item.
Proof.
  intros g i. cbn [body]. unfold parse_class_item. wstep. wstep; [go|]. wstep.
  pose proof (s_method_head g i) as M. unfold wpr in M |- *. destruct (ainterp _ _ _ g i) as [[h|] j|? ?|?|?]; try exact I.
  destruct M as [M I0]. cbn [kont]. unfold method_heads in I0. cbn [In] in I0.
  decompose [or] I0; try contradiction; subst h; go.
Qed.
Lemma s_object_property : step F_object_property.
Proof.
  intros g i. cbn [body]. unfold parse_object_property. wstep. wstep; [go|]. wstep.
  pose proof (s_method_head g i) as M. unfold wpr in M |- *. destruct (ainterp _ _ _ g i) as [[h|] j|? ?|?|?]; try exact I.
  destruct M as [M I0]. cbn [kont]. unfold method_heads in I0. cbn [In] in I0.
  decompose [or] I0; try contradiction; subst h; go.
Qed.
Lemma s_for_declaration k hk g i : wpr TEOF (aexec TEOF n) (for_declaration k hk) g i (fun r =>
  match r with
  | AOk (ForHead hk' pattern initialized multiple) j =>
    hk' = hk /\
    (negb pattern || initialized = true -> derives g (NForVariables k) i j) /\
    (initialized = true -> k = ForLexical -> derives g NForConstants i j) /\
    (multiple = false -> initialized = false -> derives g NForBinding i j)
  | _ => True end).
Proof.
  destruct k; repeat (try exact I; first [wstep|on_call IH]); try exact I; try discriminate; cbn [negb orb] in *; facts;
    (split; [reflexivity|split; [|split]]); intros; try discriminate; solve [dprod].
Qed.
Definition for_head_good g (h : for_head) i j : Prop :=
  match fh_kind h with
  | HVar => is_keyword "var" (tok0 i) = true /\
      (negb (fh_pattern h) || fh_initialized h = true -> derives g (NForVariables ForVar) (tl i) j) /\
      (fh_multiple h = false -> fh_initialized h = false -> derives g NForBinding (tl i) j)
  | HConst => is_keyword "const" (tok0 i) = true /\
      (fh_initialized h = true -> derives g NForConstants (tl i) j) /\
      (fh_multiple h = false -> fh_initialized h = false -> derives g NForBinding (tl i) j)
  | HLet => is_keyword "let" (tok0 i) = true /\ for_let g i = true /\
      (negb (fh_pattern h) || fh_initialized h = true -> derives g (NForVariables ForLexical) (tl i) j) /\
      (fh_multiple h = false -> fh_initialized h = false -> derives g NForBinding (tl i) j)
  | HExpression => both (no [K "var"; K "const"]) no_for_let g i = true /\ derives (set_flag g FIn false) NOptExpression i j
  end.
Lemma s_for_expression_head g i : wpr TEOF (aexec TEOF n) for_expression_head g i (fun r =>
  match r with
  | AOk h j => fh_kind h = HExpression /\ derives (set_flag g FIn false) NOptExpression i j
  | _ => True end).
Proof. 
  repeat (try exact I; first [wstep|on_call IH]); (split; [reflexivity|]).
  - dprod.
  - eapply by_production; [right; left; reflexivity|]. eapply d_condition; [|apply d_end].
    rewrite no_eq, starts_flag by discriminate. rewrite F. reflexivity.
 Qed.
Lemma s_for_head g i : wpr TEOF (aexec TEOF n) parse_for_head g i (fun r =>
  match r with AOk h j => for_head_good g h i j | _ => True end).
Proof.
  unfold parse_for_head. wstep. wstep. 
  { pose proof (s_for_declaration ForVar HVar g (tl i)) as M. unfold wpr in M |- *. destruct (ainterp _ _ _ g _) as [[hk pt it mu] j|? ?|?|?]; try exact I.
    destruct M as (-> & A & B & C). split; [assumption|]. split; assumption. }
  wstep. wstep.
  { pose proof (s_for_declaration ForLexical HConst g (tl i)) as M. unfold wpr in M |- *. destruct (ainterp _ _ _ g _) as [[hk pt it mu] j|? ?|?|?]; try exact I.
    destruct M as (-> & A & B & C). split; [assumption|]. split; auto. }
  assert (X : for_maybe_decl (second0 i) = false \/ is_keyword "let" (tok0 i) = false -> both (no [K "var"; K "const"]) no_for_let g i = true).
  { intros X. unfold both, no_for_let. rewrite no_eq, for_let_eq. unfold starts. rewrite !one_of_cons, one_of_nil, !matches_K, H, H0.
    destruct X as [X|X]; rewrite X; rewrite ?andb_false_r; reflexivity. }
  wstep. wstep. wstep; [wstep; wstep|].
  { pose proof (s_for_declaration ForLexical HLet g (tl i)) as M. unfold wpr in M |- *. destruct (ainterp _ _ _ g _) as [[hk pt it mu] j|? ?|?|?]; try exact I.
    destruct M as (-> & A & B & C). split; [assumption|]. split; [|split; assumption]. rewrite for_let_eq. apply andb_true_intro. split; assumption. }
  all: pose proof (s_for_expression_head g i) as M; unfold wpr in M |- *; destruct (ainterp _ _ for_expression_head g i) as [h j|? ?|?|?]; try exact I;
    unfold for_head_good; destruct M as [-> M]; split; [apply X; auto|exact M].
Qed.
Lemma s_for : step F_for.
Proof.
  intros g i. cbn [body]. unfold parse_for_statement. do 2 wstep; [|exact I]. do 2 wstep; [|exact I]. do 2 wstep. wstep.
  pose proof (s_for_head g (tl (tl i))) as M. unfold wpr in M |- *.
  destruct (ainterp _ _ parse_for_head g _) as [h j|? ?|?|?]; try exact I. cbn [kont].
  unfold for_head_good in M. destruct h as [hk pt it mu]; cbn [fh_kind fh_pattern fh_initialized fh_multiple] in M.
  destruct hk; unfold for_allowed; cbn [fh_kind fh_pattern fh_initialized fh_multiple fst snd]; decompose [and] M; clear M.
  4: go.
  all: destruct pt, it, mu; cbn [negb andb orb fst snd] in *;
   repeat match goal with H : ?b = ?b -> _ |- _ => specialize (H eq_refl) | H : _ = _ -> _ |- _ => clear H end;
   go.
Qed.

Theorem sound_step f g i : sound f g i (ainterp TEOF (aexec TEOF n) (body f) g i).
Proof.
  change (wpr TEOF (aexec TEOF n) (body f) g i (sound f g i)). revert g i.
  change (step f).
  destruct f; auto using s_left_hand, s_loop_left_hand, s_method_tail, s_switch, s_assignment, s_declaration, s_statement,
    s_primary, s_function_expression, s_template, s_ltemplate, s_fancy, s_exponential, s_loop_fancy, s_class_item,
    s_object_property, s_for; intros g i; cbn [body]; go.
Qed.
End Step.

(** If a parse function succeeds, what it consumed derives from its nonterminal. *)
Theorem sound_holds n f g i : sound f g i (aexec TEOF n f g i).
Proof.
  revert f g i. induction n as [|n IHn]; intros f g i; [exact I|]. cbn [aexec]. apply sound_step. exact IHn.
Qed.

