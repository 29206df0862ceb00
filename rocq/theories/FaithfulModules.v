(** The text displayed for faithful modules determines them, up to the braces the formatter puts. *)
From Coq Require Import String List NArith Bool Arith Lia.
From Verif Require Import Base Tokens SpecTokens SpecHints ByteFacts Formatter SpecFormatter FormatterFacts Nodes SpecNodes NodeItems NodeText
  Statements SpecStatements StatementItems StatementTokens StatementText SpecFaithful LayoutFacts ReadNodes ReadStatements FaithfulText
  Modules SpecModules ModuleText SpecFaithfulModules.
Import ListNotations.

(** ** What statements begin with *)
Definition within_statements (i : item) : Prop := i <> word Fk_Import /\ i <> word Fk_Export /\ i <> word Fk_Function.
Lemma variable_within w : variable w -> within_statements (Word w).
Proof. intros (_ & V). repeat split; intros [= ->]; destruct V as (K & _); discriminate K. Qed.
Lemma leading_within e : well_formed e -> forall p, exists i x, items p e = i :: x /\ within_statements i.
Proof.
  induction e; cbn [well_formed]; intros W p; try contradiction W; try (eexists _, _; split; [reflexivity|]; repeat split; discriminate).
  - eexists _, _. split; [reflexivity|]. apply variable_within, W.
  - eexists _, _. split; [reflexivity|]. destruct value; repeat split; discriminate.
  - destruct (IHe (proj1 W) Pr_Member) as (i & x & E & H). cbn [items]. rewrite E. eexists _, _. split; [reflexivity|exact H].
  - destruct (IHe (proj1 W) Pr_New) as (i & x & E & H). cbn [items]. rewrite E. eexists _, _. split; [reflexivity|exact H].
  - cbn [items]. unfold wrap_if. destruct (below _ _); (eexists _, _; split; [reflexivity|]); repeat split; discriminate.
  - cbn [items]. unfold wrap_if. destruct (below _ _); (eexists _, _; split; [reflexivity|]); repeat split; discriminate.
  - cbn [items]. unfold wrap_if. destruct (below _ _); [eexists _, _; split; [reflexivity|repeat split; discriminate]|].
    destruct (IHe1 (proj1 W) Pr_LogicalOr) as (i & x & E & H). rewrite E. eexists _, _. split; [reflexivity|exact H].
  - cbn [items]. unfold wrap_if. destruct (below _ _); [eexists _, _; split; [reflexivity|repeat split; discriminate]|].
    destruct (IHe1 (proj1 W) Pr_Normal) as (i & x & E & H). rewrite E. eexists _, _. split; [reflexivity|exact H].
Qed.
Lemma first_within s o : formed s -> exists i x, items_statement o s = i :: x /\ within_statements i.
Proof.
  destruct s; cbn [formed items_statement]; intros W; try contradiction W; try (eexists _, _; split; [reflexivity|]; repeat split; discriminate).
  - unfold items_declaration. eexists _, _. split; [reflexivity|]. destruct kind; repeat split; discriminate.
  - destruct (leading_within e W Pr_Normal) as (i & x & E & S). rewrite E. eexists _, _. split; [reflexivity|exact S].
  - destruct o; eexists _, _; (split; [reflexivity|]); repeat split; discriminate.
  - eexists _, _. split; [reflexivity|]. apply variable_within, W.
Qed.
Lemma statement_no_import s k l : formed s -> items_statement false s ++ k <> word Fk_Import :: l.
Proof. intros W E. destruct (first_within s false W) as (i & x & Q & (A & _)). rewrite Q in E. injection E as -> _. apply A. reflexivity. Qed.
Lemma statement_no_export s k l : formed s -> items_statement false s ++ k <> word Fk_Export :: l.
Proof. intros W E. destruct (first_within s false W) as (i & x & Q & (_ & A & _)). rewrite Q in E. injection E as -> _. apply A. reflexivity. Qed.
Lemma statement_no_function s k l : formed s -> items_statement false s ++ k <> word Fk_Function :: l.
Proof. intros W E. destruct (first_within s false W) as (i & x & Q & (_ & _ & A)). rewrite Q in E. injection E as -> _. apply A. reflexivity. Qed.
Lemma expression_no_function e p k l : well_formed e -> items p e ++ k <> word Fk_Function :: l.
Proof. intros W E. destruct (leading_within e W p) as (i & x & Q & (_ & _ & A)). rewrite Q in E. injection E as -> _. apply A. reflexivity. Qed.
Lemma kind_first kind f k : function_formed kind f -> exists l, items_kind kind ++ k = word Fk_Function :: l.
Proof. intros ([-> | ->] & _); eexists; reflexivity. Qed.

(** ** Parts of items *)
Lemma named_same (x y : identifier) : unraw x -> unraw y -> given (fst x) (snd x) = given (fst y) (snd y) -> x = y.
Proof. destruct x as [x r], y as [y r']. unfold unraw. cbn. intros -> -> E. cbn in E. rewrite E. reflexivity. Qed.
Lemma source_same (x y : source_string) : snd x = None -> snd y = None -> given (fst x) (snd x) = given (fst y) (snd y) -> x = y.
Proof. destruct x as [x r], y as [y r']. cbn. intros -> -> E. cbn in E. rewrite E. reflexivity. Qed.
Lemma from_same x y k k' : snd x = None -> snd y = None -> items_from x ++ k = items_from y ++ k' -> x = y /\ k = k'.
Proof. intros U V E. unfold items_from in E. cbn [app] in E. injection E as E ->. split; [|reflexivity]. apply source_same; assumption. Qed.
Lemma specifier_same x y p q k k' : faithful_specifier x -> faithful_specifier y ->
  items_specifier x ++ Mark p :: k = items_specifier y ++ Mark q :: k' -> x = y /\ p = q /\ k = k'.
Proof.
  destruct x as [x|x a], y as [y|y b]; cbn [faithful_specifier items_specifier app]; intros U V E.
  - injection E as E -> ->. rewrite (named_same x y) by assumption. auto.
  - discriminate E.
  - discriminate E.
  - injection E as E E' -> ->. rewrite (named_same x y), (named_same a b) by (assumption || apply U || apply V). auto.
Qed.
Lemma specifier_no_mark x p k k' : items_specifier x ++ k <> Mark p :: k'.
Proof. destruct x; discriminate. Qed.
Lemma specifiers_same l last : Forall faithful_specifier l -> optional faithful_specifier last -> forall l' last' k k',
  Forall faithful_specifier l' -> optional faithful_specifier last' ->
  items_specifiers l last ++ k = items_specifiers l' last' ++ k' -> l = l' /\ last = last' /\ k = k'.
Proof.
  intros F FL l' last' k k' F' FL' E. unfold items_specifiers, curlied in E. cbn [app] in E. injection E as E. rewrite <- !app_assoc in E. cbn [app] in E.
  revert l' F' E. induction F as [|x l Fx F IH]; intros l' F' E.
  - destruct F' as [|x' l' Fx' F']; cbn [map concat app] in E.
    + split; [reflexivity|]. destruct last as [x|], last' as [y|]; cbn [items_option app optional] in *.
      * apply specifier_same in E; auto. destruct E as (-> & _ & ->). auto.
      * destruct (specifier_no_mark _ _ _ _ E).
      * symmetry in E. destruct (specifier_no_mark _ _ _ _ E).
      * injection E as ->. auto.
    + rewrite <- !app_assoc in E. cbn [app] in E. destruct last as [x|]; cbn [items_option app optional] in *.
      * apply specifier_same in E; auto. destruct E as (_ & K & _). discriminate K.
      * symmetry in E. destruct (specifier_no_mark _ _ _ _ E).
  - destruct F' as [|x' l' Fx' F']; cbn [map concat app] in E; rewrite <- !app_assoc in E; cbn [app] in E.
    + destruct last' as [y|]; cbn [items_option app optional] in *.
      * apply specifier_same in E; auto. destruct E as (_ & K & _). discriminate K.
      * destruct (specifier_no_mark _ _ _ _ E).
    + apply specifier_same in E; auto. destruct E as (-> & _ & E). destruct (IH _ F' E) as (-> & -> & ->). auto.
Qed.
Lemma statement_same s s' k k' : formed s -> faithful_statement s -> formed s' -> faithful_statement s' ->
  follows false (ends_throwing false s) k -> follows false (ends_throwing false s') k' ->
  items_statement false s ++ k = items_statement false s' ++ k' -> braced false s = braced false s' /\ k = k'.
Proof.
  intros W F W' F' L L' E. destruct (ever_together _ _ (proj1 statements_read s W F false) (proj1 statements_read s' W' F' false)) as (n & H & H').
  specialize (H _ L). specialize (H' _ L'). rewrite E, H' in H. injection H as -> ->. auto.
Qed.
Lemma declaration_same kind ds last kind' ds' last' k k' : Forall (declared kind) ds -> declared kind last -> Forall faithful_declarator ds -> faithful_declarator last ->
  Forall (declared kind') ds' -> declared kind' last' -> Forall faithful_declarator ds' -> faithful_declarator last' ->
  items_declaration kind ds last ++ k = items_declaration kind' ds' last' ++ k' -> kind = kind' /\ ds = ds' /\ last = last' /\ k = k'.
Proof.
  intros D L FD FL D' L' FD' FL' E. unfold items_declaration in E. cbn [app] in E. injection E as K E. rewrite <- !app_assoc in E. cbn [app] in E.
  destruct (ever_together _ _ (declarators_read kind ds last D L FD FL) (declarators_read kind' ds' last' D' L' FD' FL')) as (n & H & H').
  specialize (H k). specialize (H' k'). rewrite E, H' in H. injection H as -> -> ->. destruct kind, kind'; try discriminate K; auto.
Qed.
Lemma default_same e e' k k' : well_formed e -> faithful e -> well_formed e' -> faithful e' ->
  items Pr_Assignment e ++ Mark Fp_Semicolon :: k = items Pr_Assignment e' ++ Mark Fp_Semicolon :: k' -> e = e' /\ k = k'.
Proof.
  intros W F W' F' E. destruct (ever_together _ _ (assign_read e W F) (assign_read e' W' F')) as (n & H & H').
  specialize (H (Mark Fp_Semicolon :: k) ltac:(stopping)). specialize (H' (Mark Fp_Semicolon :: k') ltac:(stopping)). rewrite E, H' in H. injection H as -> ->. auto.
Qed.

Lemma same_cons (i j : item) l l' : i :: l = j :: l' -> i = j /\ l = l'.
Proof. intros [= -> ->]. auto. Qed.

(** ** Functions *)
Lemma param_same d d' p q k k' : declared D_var d -> declared D_var d' -> faithful_declarator d -> faithful_declarator d' -> In p [Fp_Comma; Fp_ParenR] -> In q [Fp_Comma; Fp_ParenR] ->
  items_declarator d ++ Mark p :: k = items_declarator d' ++ Mark q :: k' -> d = d' /\ p = q /\ k = k'.
Proof.
  destruct d as [x [e|]], d' as [y [e'|]]; intros (_ & W & _) (_ & W' & _) (U & F) (U' & F') P Q E; cbn [items_declarator items_option app optional] in *;
    apply same_cons in E; destruct E as (N & E); injection N as N; rewrite (named_same x y) by assumption; unfold items_initializer in E; cbn [app] in E.
  - apply same_cons in E. destruct E as (_ & E). destruct (ever_together _ _ (assign_read e W F) (assign_read e' W' F')) as (n & H & H').
    assert (X : forall p k, In p [Fp_Comma; Fp_ParenR] -> stops_assignment (Mark p :: k)) by (intros a b [<-|[<-|[]]]; stopping).
    specialize (H (Mark p :: k) (X _ _ P)). specialize (H' (Mark q :: k') (X _ _ Q)). rewrite E, H' in H. injection H as -> -> ->. auto.
  - injection E as <- _. cbn in Q. destruct Q as [K|[K|[]]]; discriminate K.
  - injection E as -> _. cbn in P. destruct P as [K|[K|[]]]; discriminate K.
  - injection E as -> ->. auto.
Qed.
Lemma param_no_mark d p k k' : items_declarator d ++ k <> Mark p :: k'.
Proof. destruct d; discriminate. Qed.
Lemma params_same l last : Forall (declared D_var) l -> optional last_param_formed last -> Forall faithful_declarator l ->
  optional (fun x => match x with Last_param d => faithful_declarator d | Rest_param x => unraw x end) last -> forall l' last' k k',
  Forall (declared D_var) l' -> optional last_param_formed last' -> Forall faithful_declarator l' ->
  optional (fun x => match x with Last_param d => faithful_declarator d | Rest_param x => unraw x end) last' ->
  wrapped (items_params l last) ++ k = wrapped (items_params l' last') ++ k' -> l = l' /\ last = last' /\ k = k'.
Proof.
  intros W WL F FL l' last' k k' W' WL' F' FL' E. unfold items_params, wrapped in E. cbn [app] in E. apply same_cons in E. destruct E as (_ & E). rewrite <- !app_assoc in E. cbn [app] in E.
  revert l' W' F' E. induction W as [|d l Wd W IH]; intros l' W' F' E.
  - destruct W' as [|d' l' Wd' W']; cbn [map concat app] in E.
    + split; [reflexivity|]. destruct last as [[x|x]|], last' as [[y|y]|]; cbn [items_option items_last_param app optional last_param_formed] in *; try discriminate E.
      * apply param_same in E; cbn; auto. destruct E as (-> & _ & ->). auto.
      * exfalso. exact (param_no_mark _ _ _ _ E).
      * exfalso. exact (param_no_mark _ _ _ _ E).
      * symmetry in E. exfalso. exact (param_no_mark _ _ _ _ E).
      * injection E as E ->. rewrite (named_same x y) by assumption. auto.
      * symmetry in E. exfalso. exact (param_no_mark _ _ _ _ E).
      * injection E as ->. auto.
    + inversion F'; subst. rewrite <- !app_assoc in E. cbn [app] in E. destruct last as [[x|x]|]; cbn [items_option items_last_param app optional last_param_formed] in *.
      * apply param_same in E; cbn; auto. destruct E as (_ & K & _). discriminate K.
      * symmetry in E. exfalso. exact (param_no_mark _ _ _ _ E).
      * symmetry in E. exfalso. exact (param_no_mark _ _ _ _ E).
  - inversion F; subst. destruct W' as [|d' l' Wd' W']; cbn [map concat app] in E; rewrite <- !app_assoc in E; cbn [app] in E.
    + destruct last' as [[y|y]|]; cbn [items_option items_last_param app optional last_param_formed] in *.
      * apply param_same in E; cbn; auto. destruct E as (_ & K & _). discriminate K.
      * exfalso. exact (param_no_mark _ _ _ _ E).
      * exfalso. exact (param_no_mark _ _ _ _ E).
    + inversion F'; subst. apply param_same in E; cbn; auto. destruct E as (-> & _ & E). destruct (IH ltac:(assumption) _ W' ltac:(assumption) E) as (-> & -> & ->). auto.
Qed.
Lemma no_directive_before body d k l : formed_list true body -> faithful_script body -> items_statements body ++ Mark Fp_CurlyR :: k <> Quoted d :: Mark Fp_Semicolon :: l.
Proof.
  intros W F E. destruct (items_statements body) as [|i [|j x]] eqn:Q; cbn [app] in E.
  - discriminate E.
  - injection E as _ K. discriminate K.
  - injection E as -> -> _. exact (no_directive _ _ _ W F Q).
Qed.
Lemma function_body_same ds body ds' body' k k' : formed_list true body -> faithful_script body -> formed_list true body' -> faithful_script body' ->
  curlied (items_whole ds body) ++ k = curlied (items_whole ds' body') ++ k' -> ds = ds' /\ braced_list body = braced_list body' /\ k = k'.
Proof.
  intros W F W' F' E. unfold curlied, items_whole, items_directives in E. cbn [app] in E. apply same_cons in E. destruct E as (_ & E). rewrite <- !app_assoc in E. cbn [app] in E.
  revert ds' E. induction ds as [|d ds IH]; intros [|d' ds'] E; cbn [map concat app] in E.
  - split; [reflexivity|]. destruct (ever_together _ _ (proj1 (proj2 statements_read) body (proj1 F) true W) (proj1 (proj2 statements_read) body' (proj1 F') true W')) as (n & H & H').
    specialize (H (Mark Fp_CurlyR :: k) ltac:(right; left; eauto)). specialize (H' (Mark Fp_CurlyR :: k') ltac:(right; left; eauto)). rewrite E, H' in H. injection H as -> ->. auto.
  - exfalso. exact (no_directive_before _ _ _ _ W F E).
  - symmetry in E. exfalso. exact (no_directive_before _ _ _ _ W' F' E).
  - injection E as -> E. destruct (IH _ E) as (-> & -> & ->). auto.
Qed.
Lemma function_same kind kind' f f' k k' : function_formed kind f -> function_formed kind' f' -> faithful_function f -> faithful_function f' ->
  items_function f ++ k = items_function f' ++ k' -> braced_function f = braced_function f' /\ k = k'.
Proof.
  destruct f as [params last ds body], f' as [params' last' ds' body']. intros (_ & D & L & (_ & W)) (_ & D' & L' & (_ & W')) (FD & FL & F) (FD' & FL' & F') E.
  cbn [items_function] in E. rewrite <- !app_assoc in E. apply params_same in E; auto. destruct E as (-> & -> & E).
  apply function_body_same in E; auto. destruct E as (-> & B & ->). cbn [braced_function]. rewrite B. auto.
Qed.
Lemma kind_same kind kind' f f' i i' k k' : function_formed kind f -> function_formed kind' f' -> i <> Mark Fp_Star -> i' <> Mark Fp_Star ->
  items_kind kind ++ i :: k = items_kind kind' ++ i' :: k' -> kind = kind' /\ i = i' /\ k = k'.
Proof.
  intros ([-> | ->] & _) ([-> | ->] & _) N N' E; cbn [items_kind app] in E; apply same_cons in E; destruct E as (_ & E).
  - injection E as -> ->. auto.
  - injection E as -> _. contradiction.
  - injection E as <- _. contradiction.
  - injection E as -> ->. auto.
Qed.
Lemma function_opens f : exists x, items_function f = Mark Fp_ParenL :: x.
Proof. destruct f. eexists. reflexivity. Qed.

(** ** Items *)
Lemma functions_same kind x f kind' x' f' k k' : named x /\ function_formed kind f -> named x' /\ function_formed kind' f' -> unraw x /\ faithful_function f -> unraw x' /\ faithful_function f' ->
  (items_kind kind ++ items_name x :: items_function f) ++ k = (items_kind kind' ++ items_name x' :: items_function f') ++ k' ->
  Mi_function kind x (braced_function f) = Mi_function kind' x' (braced_function f') /\ k = k'.
Proof.
  intros (N & W) (N' & W') (U & F) (U' & F') E. rewrite <- !app_assoc in E. cbn [app] in E. apply (kind_same kind kind' f f') in E; auto; try discriminate.
  destruct E as (-> & K & E). injection K as K. apply (function_same kind' kind') in E; auto. destruct E as (-> & ->). rewrite (named_same x x') by assumption. auto.
Qed.
Lemma default_functions_same kind x f kind' x' f' k k' : optional named x /\ function_formed kind f -> optional named x' /\ function_formed kind' f' ->
  optional unraw x /\ faithful_function f -> optional unraw x' /\ faithful_function f' ->
  items_module_item (Mi_export_default_function kind x f) ++ k = items_module_item (Mi_export_default_function kind' x' f') ++ k' ->
  Mi_export_default_function kind x (braced_function f) = Mi_export_default_function kind' x' (braced_function f') /\ k = k'.
Proof.
  intros (N & W) (N' & W') (U & F) (U' & F') E. cbn [items_module_item app] in E. rewrite <- !app_assoc in E. do 2 (apply same_cons in E; destruct E as (_ & E)).
  destruct (function_opens f) as (y & O), (function_opens f') as (y' & O').
  destruct x as [x|], x' as [x'|]; cbn [app items_option optional] in *; rewrite ?O, ?O' in E; cbn [app] in E; apply (kind_same kind kind' f f') in E; auto; try discriminate;
    destruct E as (-> & K & E); try discriminate K; cbn [app] in E.
  - injection K as K. change (Mark Fp_ParenL :: y ++ k) with ((Mark Fp_ParenL :: y) ++ k) in E. change (Mark Fp_ParenL :: y' ++ k') with ((Mark Fp_ParenL :: y') ++ k') in E. rewrite <- O, <- O' in E.
    apply (function_same kind' kind') in E; auto. destruct E as (-> & ->). rewrite (named_same x x') by assumption. auto.
  - assert (E' : items_function f ++ k = items_function f' ++ k') by (rewrite O, O'; cbn [app]; rewrite E; reflexivity).
    apply (function_same kind' kind') in E'; auto. destruct E' as (-> & ->). auto.
Qed.
Ltac kinds := try (match goal with K : _ /\ function_formed ?kind ?f |- _ => is_var kind; destruct kind; try (destruct K as (_ & [K|K] & _); discriminate K); cbn [items_kind app] in * end).
Lemma item_same i i' k k' : formed_items [i] -> faithful_item i -> formed_items [i'] -> faithful_item i' ->
  (forall s, i = Mi_statement s -> follows false (ends_throwing false s) k) -> (forall s, i' = Mi_statement s -> follows false (ends_throwing false s) k') ->
  items_module_item i ++ k = items_module_item i' ++ k' -> braced_item i = braced_item i' /\ k = k'.
Proof.
  intros (W & _) F (W' & _) F' L L' E.
  destruct i; try contradiction W; destruct i'; try contradiction W'; cbn [items_module_item faithful_item braced_item] in *;
    try (exfalso; exact (statement_no_import _ _ _ (proj1 W) E)); try (exfalso; exact (statement_no_export _ _ _ (proj1 W) E));
    try (exfalso; exact (statement_no_import _ _ _ (proj1 W') (eq_sym E))); try (exfalso; exact (statement_no_export _ _ _ (proj1 W') (eq_sym E)));
    try (exact (functions_same _ _ _ _ _ _ _ _ W W' F F' E)); try (exact (default_functions_same _ _ _ _ _ _ _ _ W W' F F' E)); do 2 kinds;
    try (exfalso; exact (statement_no_function _ _ _ (proj1 W) E)); try (exfalso; exact (statement_no_function _ _ _ (proj1 W') (eq_sym E)));
    try (exfalso; injection E as E; rewrite <- ?app_assoc in E; exact (expression_no_function _ _ _ _ W E));
    try (exfalso; injection E as E; rewrite <- ?app_assoc in E; exact (expression_no_function _ _ _ _ W' (eq_sym E)));
    try (exfalso; injection E as E; match goal with kind : declaring |- _ => destruct kind; discriminate E end);
    try discriminate E.
  - destruct (statement_same s s0 k k') as (-> & ->); auto; try apply W; apply W'.
  - injection E as E E' ->. rewrite (named_same default default0), (source_same source source0) by (assumption || apply F || apply F'). auto.
  - injection E as E E' E'' ->. rewrite (named_same default default0), (named_same namespace namespace0), (source_same source source0) by (assumption || apply F || apply F'). auto.
  - injection E as E E' ->. rewrite (named_same namespace namespace0), (source_same source source0) by (assumption || apply F || apply F'). auto.
  - cbn [app] in E. rewrite <- !app_assoc in E. apply same_cons in E. destruct E as (_ & E). apply same_cons in E. destruct E as (E & E'). injection E as E. apply same_cons in E'. destruct E' as (_ & E'). apply (specifiers_same specifiers last) in E'; try (apply F || apply F'). destruct E' as (-> & -> & E').
    apply from_same in E'; try (apply F || apply F'). destruct E' as (-> & ->). rewrite (named_same default default0) by (assumption || apply F || apply F'). auto.
  - cbn [app] in E. rewrite <- !app_assoc in E. apply same_cons in E. destruct E as (_ & E'). apply (specifiers_same specifiers (Some last)) in E'; try (apply F || apply F'). destruct E' as (-> & [= ->] & E').
    apply from_same in E'; try (apply F || apply F'). destruct E' as (-> & ->). auto.
  - cbn [app] in E. rewrite <- !app_assoc in E. injection E as E. apply default_same in E; auto. destruct E as (-> & ->). auto.
  - cbn [app] in E. apply same_cons in E. destruct E as (_ & E). apply declaration_same in E; try (apply F || apply F' || apply W || apply W'). destruct E as (-> & -> & -> & ->). auto.
  - cbn [app] in E. rewrite <- !app_assoc in E. apply same_cons in E. destruct E as (_ & E). apply (specifiers_same specifiers last) in E; try (apply F || apply F'). destruct E as (-> & -> & [= ->]). auto.
  - cbn [app] in E. rewrite <- !app_assoc in E. apply same_cons in E. destruct E as (_ & E). apply (specifiers_same specifiers last) in E; try (apply F || apply F'). destruct E as (_ & _ & E). discriminate E.
  - cbn [app] in E. rewrite <- !app_assoc in E. apply same_cons in E. destruct E as (_ & E). apply (specifiers_same specifiers last) in E; try (apply F || apply F'). destruct E as (_ & _ & E). discriminate E.
  - cbn [app] in E. rewrite <- !app_assoc in E. apply same_cons in E. destruct E as (_ & E). apply (specifiers_same specifiers last) in E; try (apply F || apply F'). destruct E as (-> & -> & E).
    apply from_same in E; try (apply F || apply F'). destruct E as (-> & ->). auto.
  - injection E as E ->. rewrite (source_same source source0) by (assumption || apply F || apply F'). auto.
Qed.
Lemma item_initial i : formed_items [i] -> exists j x, items_module_item i = j :: x /\ initial j.
Proof.
  intros (W & _). destruct i; try contradiction W; cbn [items_module_item];
    try (eexists _, _; split; [reflexivity|]; intros l; split; [intros k K; discriminate K|reflexivity]).
  - apply first_item, W.
  - kinds; (eexists _, _; split; [reflexivity|]; intros l; split; [intros k K; discriminate K|reflexivity]).
Qed.
Lemma rest_follows s l : formed_items (Mi_statement s :: l) -> follows false (ends_throwing false s) (concat (map items_module_item l)).
Proof.
  intros ((_ & T) & W). destruct l as [|i l]; cbn [map concat].
  - split; [intros w K; discriminate K|]. intros _ (p & k & K & _). discriminate K.
  - destruct (item_initial i (formed_item_alone _ _ W)) as (j & x & -> & I). cbn [app].
    destruct (ends_throwing false s); [discriminate (T eq_refl)|]. apply follows_initial, I.
Qed.
Lemma body_same l : formed_items l -> Forall faithful_item l -> forall l', formed_items l' -> Forall faithful_item l' ->
  concat (map items_module_item l) = concat (map items_module_item l') -> map braced_item l = map braced_item l'.
Proof.
  induction l as [|i l IH]; intros W F [|i' l'] W' F' E; cbn [map concat] in *.
  - reflexivity.
  - exfalso. destruct (item_initial i' (formed_item_alone _ _ W')) as (j & x & Q & _). rewrite Q in E. discriminate E.
  - exfalso. destruct (item_initial i (formed_item_alone _ _ W)) as (j & x & Q & _). rewrite Q in E. discriminate E.
  - inversion F; inversion F'; subst. destruct (item_same i i' (concat (map items_module_item l)) (concat (map items_module_item l'))) as (-> & R); auto.
    + eapply formed_item_alone, W.
    + eapply formed_item_alone, W'.
    + intros s ->. apply rest_follows, W.
    + intros s ->. apply rest_follows, W'.
    + f_equal. apply IH; auto; [apply W|apply W'].
Qed.

(** ** Modules *)
Lemma module_no_directive l d k : formed_items l -> faithful_module l -> concat (map items_module_item l) <> Quoted d :: Mark Fp_Semicolon :: k.
Proof.
  intros W (F & N) E. destruct l as [|i l]; [discriminate E|]. cbn [map concat] in E. inversion F; subst. destruct W as (W & _).
  destruct i; try contradiction W; cbn [items_module_item faithful_item] in *; kinds; try discriminate E. destruct W as (W & _).
  destruct s; cbn [items_statement formed faithful_statement] in *; try contradiction W; try discriminate E.
  rewrite <- app_assoc in E. cbn [app] in E. apply string_first in E; auto. subst e. exact N.
Qed.
Lemma module_same ds l ds' l' : formed_items l -> faithful_module l -> formed_items l' -> faithful_module l' ->
  items_module ds l = items_module ds' l' -> ds = ds' /\ map braced_item l = map braced_item l'.
Proof.
  intros W F W' F'. unfold items_module, items_directives. revert ds'. induction ds as [|d ds IH]; intros [|d' ds'] E; cbn [map concat app] in E.
  - split; [reflexivity|]. apply body_same; auto; [apply F|apply F'].
  - destruct (module_no_directive _ _ _ W F E).
  - symmetry in E. destruct (module_no_directive _ _ _ W' F' E).
  - injection E as -> E. destruct (IH _ E) as (-> & ->). auto.
Qed.
Lemma braced_function_shown f : items_function (braced_function f) = items_function f.
Proof. destruct f. cbn [braced_function items_function]. unfold items_whole. rewrite (proj1 (proj2 items_braced)). reflexivity. Qed.
Lemma braced_items_shown ds l : items_module ds (map braced_item l) = items_module ds l.
Proof.
  unfold items_module. f_equal. induction l as [|i l IH]; [reflexivity|]. cbn [map concat]. rewrite IH. f_equal. destruct i; try reflexivity; cbn [braced_item items_module_item]; rewrite ?braced_function_shown; try reflexivity.
  apply (proj1 items_braced). discriminate.
Qed.
Theorem modules_determined ds l ds' l' : formed_module ds l -> faithful_module l -> formed_module ds' l' -> faithful_module l' ->
  display (fmt_module ds l) = display (fmt_module ds' l') <-> ds = ds' /\ map braced_item l = map braced_item l'.
Proof.
  intros W F W' F'. rewrite !display_displayed, !displayed_module by assumption. split.
  - intros E. destruct (module_sound ds l W) as (G & A). destruct (module_sound ds' l' W') as (G' & A'). apply layout_injective in E; auto.
    apply module_same; auto; [apply W|apply W'].
  - intros (<- & E). rewrite <- (braced_items_shown ds l), <- (braced_items_shown ds l'), E. reflexivity.
Qed.
