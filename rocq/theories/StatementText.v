(** Displayed statements are read back and accepted. *)
From Coq Require Import String List NArith Bool Arith Lia.
From Verif Require Import Base Tokens SpecTokens SpecTrivia SpecStream Tokenizer SpecHints ByteFacts ParserCore SpecParser ParserBody SpecGrammar SpecLanguage
  Formatter SpecFormatter FormatterFacts FormatterTokens Nodes SpecNodes NodeItems NodeTokens NodeText Statements SpecStatements StatementItems StatementTokens.
Import ListNotations.

Definition sound (x : list item) : Prop := Forall good_item x /\ all_apart x.
Definition free (i : item) : Prop := forall t, apart i t.
(** Items that can be followed by anything. *)
Definition closed (x : list item) : Prop := sound x /\ forall x' i, x = x' ++ [i] -> free i.
Lemma last_cases {A} (x : list A) : x = [] \/ exists x' i, x = x' ++ [i].
Proof. induction x as [|i x _] using rev_ind; eauto. Qed.
Lemma closed_sound x y : closed x -> sound y -> sound (x ++ y).
Proof.
  intros ((G & A) & L) (G' & A'). split; [apply Forall_app; auto|]. destruct (last_cases x) as [->|(x' & i & ->)]; [exact A'|]. destruct y as [|j y]; [rewrite app_nil_r; exact A|].
  apply apart_app; auto. eapply L. reflexivity.
Qed.
Lemma closed_app x y : closed x -> closed y -> closed (x ++ y).
Proof.
  intros C D. split; [apply closed_sound; [exact C|apply D]|]. intros z i Q. destruct (last_cases y) as [->|(y' & j & ->)].
  - rewrite app_nil_r in Q. eapply C, Q.
  - rewrite app_assoc in Q. apply app_inj_tail in Q. destruct Q as (_ & <-). eapply (proj2 D). reflexivity.
Qed.
Lemma closed_nil : closed [].
Proof. split; [split; [constructor|exact I]|]. intros x' i Q. destruct x'; discriminate. Qed.
Lemma closed_one i : good_item i -> free i -> closed [i].
Proof. intros G F. split; [split; [auto|exact I]|]. intros x' j Q. destruct x' as [|k x']; [injection Q as <-; exact F|destruct x'; discriminate]. Qed.
Lemma closed_cons i x : good_item i -> free i -> closed x -> closed (i :: x).
Proof. intros G F C. apply (closed_app [i]); [apply closed_one; auto|exact C]. Qed.
Lemma closed_mark p x : In p bracketing -> closed x -> closed (Mark p :: x).
Proof. intros H C. apply closed_cons; [apply good_mark; right; right; exact H|intros t; apply solo; right; exact H|exact C]. Qed.
Lemma any_keyword k : identifier_name (fkeyword_text k).
Proof.
  destruct k; cbn; (eexists _, _; split; [reflexivity|]);
    unfold ident_char, digit, lower, upper; (split; [lia|split; [lia|]]); repeat (constructor; [lia|]); constructor.
Qed.
Lemma closed_word k x : closed x -> closed (word k :: x).
Proof. intros C. apply closed_cons; [apply good_word, any_keyword|intros t; exact I|exact C]. Qed.
Lemma closed_name n x : named n -> closed x -> closed (items_name n :: x).
Proof. intros (V & _) C. apply closed_cons; [apply good_word, V|intros t; exact I|exact C]. Qed.

Lemma expression_sound e p : well_formed e -> sound (items p e).
Proof. intros W. destruct (proj1 items_block e W p) as (G & A & _). split; assumption. Qed.
Lemma expression_marked e p q x : well_formed e -> In q bracketing -> closed x -> closed (items p e ++ Mark q :: x).
Proof.
  intros W H C. change (items p e ++ Mark q :: x) with (items p e ++ [Mark q] ++ x). rewrite app_assoc. apply closed_app; [|exact C].
  destruct (proj1 items_block e W p) as (G & A & F & L). split.
  - split; [apply Forall_app; split; [exact G|constructor; [apply good_mark; right; right; exact H|constructor]]|].
    apply (link ends (eq (Mark q))); auto; [exact I|apply firsts_cons; reflexivity|]. intros i j E <-. apply ends_mark; [exact E|exact H].
  - intros x' i Q. apply app_inj_tail in Q. destruct Q as (_ & <-). intros t. apply solo. right. exact H.
Qed.
Lemma good_eq : good_item (Mark Fp_Eq).
Proof. split; [apply sp_mark; reflexivity|]. split; [intros [K|K]|intros (b & f & K)]; discriminate K. Qed.
Lemma eq_opens i : opens i -> apart (Mark Fp_Eq) (item_text i).
Proof.
  intros (G & O). left.
  assert (H : forall c r, c <> 61%N -> c <> 62%N -> head_is (fun c => (forall q, q <> LAngleExclamDashDash -> ~ SpecTokens.begins (fpunct_text Fp_Eq ++ [c]) (spelling q)) /\
      (Fp_Eq = Fp_Period -> ~ digit c) /\ (Fp_Eq = Fp_Slash -> c <> 47%N /\ c <> 42%N)) (c :: r)).
  { intros c r A B. exists c, r. split; [reflexivity|]. split; [|split; discriminate]. intros q _ (x & K). destruct q; cbn in K; try discriminate K; injection K; intros; subst; congruence. }
  destruct G as (S & _). destruct i as [w|m|s|s|v f|s]; try contradiction O.
  - inversion S; subst. apply H; intros ->; unfold ident_char, lower, upper, digit in *; lia.
  - destruct m; try contradiction O. apply H; discriminate.
  - inversion S as [| |? ? N| |]; subst. destruct N; apply H; unfold digit in *; lia.
  - apply H; discriminate.
Qed.
Lemma initializer_marked e q x : well_formed e -> In q bracketing -> closed x -> closed (items_initializer Pr_Assignment e ++ Mark q :: x).
Proof.
  intros W H C. unfold items_initializer. cbn [app]. pose proof (expression_marked e Pr_Assignment q x W H C) as ((G & A) & L).
  destruct (proj1 items_block e W Pr_Assignment) as (_ & _ & (i & y & Q & O) & _). rewrite Q in *. cbn [app] in *. split.
  - split; [constructor; [apply good_eq|exact G]|]. split; [apply eq_opens, O|exact A].
  - intros x' j E. destruct x' as [|k x']; [discriminate E|]. injection E as _ E. eapply L, E.
Qed.
Lemma optional_marked o q x : optional well_formed o -> In q bracketing -> closed x -> closed (items_option (items Pr_Normal) o ++ Mark q :: x).
Proof. intros W H C. destruct o as [e|]; [apply expression_marked; assumption|apply closed_mark; assumption]. Qed.
Ltac mark_in := cbn [bracketing In]; tauto.
Lemma wrapped_closed e x : well_formed e -> closed x -> closed (wrapped (items Pr_Normal e) ++ x).
Proof.
  intros W C. unfold wrapped. cbn [app]. rewrite <- app_assoc. apply closed_mark; [mark_in|]. apply expression_marked; [exact W|mark_in|exact C].
Qed.
Lemma wrapped_sound e x : well_formed e -> sound x -> sound (wrapped (items Pr_Normal e) ++ x).
Proof. intros W S. rewrite <- (app_nil_r (wrapped _)). rewrite <- app_assoc. cbn [app]. apply closed_sound; [|exact S]. rewrite <- (app_nil_r (wrapped _)). apply wrapped_closed; [exact W|apply closed_nil]. Qed.
Lemma declarator_marked kind d q x : declared kind d -> In q bracketing -> closed x -> closed (items_declarator d ++ Mark q :: x).
Proof.
  intros W H C. destruct d as [id [e|]]; destruct W as (V & We & _); cbn [items_declarator items_option app].
  - apply closed_name; [exact V|]. apply initializer_marked; assumption.
  - apply closed_name; [exact V|]. apply closed_mark; assumption.
Qed.
Lemma declaration_closed kind ds last : Forall (declared kind) ds -> declared kind last -> closed (items_declaration kind ds last).
Proof.
  intros D L. unfold items_declaration. apply closed_word. induction D as [|d ds W _ IH]; cbn [map concat app].
  - eapply declarator_marked; [exact L|mark_in|apply closed_nil].
  - rewrite <- !app_assoc. eapply declarator_marked; [exact W|mark_in|exact IH].
Qed.
Lemma member_closed o a : well_formed (E_member o a) -> closed (items Pr_Normal (E_member o a)).
Proof.
  intros W. split; [apply expression_sound, W|]. intros x' i. cbn [items]. destruct W as (_ & Wa & _). destruct a as [v w|e|]; cbn [items_access]; [| |contradiction Wa].
  - change [Mark Fp_Period; Word (given v w)] with ([Mark Fp_Period] ++ [Word (given v w)]). rewrite app_assoc. intros Q. apply app_inj_tail in Q. destruct Q as (_ & <-). intros t. exact I.
  - rewrite app_comm_cons, app_assoc. intros Q. apply app_inj_tail in Q. destruct Q as (_ & <-). intros t. apply solo. mark_in.
Qed.
Lemma left_closed lhs : for_left_formed lhs -> closed (items_for_left lhs).
Proof.
  destruct lhs as [kind id init|id|o a]; cbn [items_for_left for_left_formed].
  - intros (V & -> & _). apply closed_word, closed_name; [exact V|apply closed_nil].
  - intros V. apply closed_name; [exact V|apply closed_nil].
  - apply member_closed.
Qed.
Lemma for_head_closed lhs k rhs : for_left_formed lhs -> well_formed rhs -> closed (items_for_head lhs k rhs).
Proof.
  intros L R. unfold items_for_head, wrapped. apply closed_mark; [mark_in|]. rewrite <- app_assoc. apply closed_app; [apply left_closed, L|].
  cbn [app]. apply closed_word, expression_marked; [exact R|mark_in|apply closed_nil].
Qed.
Lemma curlied_closed x y : sound x -> closed x \/ (exists x' e, x = x' ++ items Pr_Normal e /\ closed x' /\ well_formed e) -> closed y -> closed (curlied x ++ y).
Proof.
  intros S X C. unfold curlied. cbn [app]. rewrite <- app_assoc. cbn [app]. apply closed_mark; [mark_in|]. destruct X as [X|(x' & e & -> & X & W)].
  - apply closed_app; [exact X|]. apply closed_mark; [mark_in|exact C].
  - rewrite <- app_assoc. apply closed_app; [exact X|]. apply expression_marked; [exact W|mark_in|exact C].
Qed.

(** The items of a statement are closed, or they end in an expression that is thrown. *)
Definition throwing (x : list item) : Prop := exists x' e, x = x' ++ items Pr_Normal e /\ closed x' /\ well_formed e.
Definition shaped (thrown : bool) (x : list item) : Prop := closed x \/ thrown = true /\ throwing x.
Lemma throwing_sound x : throwing x -> sound x.
Proof. intros (x' & e & -> & C & W). apply closed_sound; [exact C|apply expression_sound, W]. Qed.
Lemma shaped_sound b x : shaped b x -> sound x.
Proof. intros [C|(_ & T)]; [apply C|apply throwing_sound, T]. Qed.
Lemma shaped_closed x : shaped false x -> closed x.
Proof. intros [C|(K & _)]; [exact C|discriminate K]. Qed.
Lemma shaped_curlied b x y : shaped b x -> closed y -> closed (curlied x ++ y).
Proof. intros S C. apply curlied_closed; [eapply shaped_sound, S| |exact C]. destruct S as [X|(_ & T)]; auto. Qed.
Lemma shaped_block b x : shaped b x -> closed (curlied x).
Proof. intros S. rewrite <- (app_nil_r (curlied x)). eapply shaped_curlied; [exact S|apply closed_nil]. Qed.
Lemma shaped_behind b x y : closed x -> shaped b y -> shaped b (x ++ y).
Proof.
  intros C [D|(B & y' & e & -> & D & W)]; [left; apply closed_app; assumption|]. right. split; [exact B|]. exists (x ++ y'), e. rewrite app_assoc. split; [reflexivity|].
  split; [apply closed_app; assumption|exact W].
Qed.
Lemma head_closed k e : well_formed e -> closed (word k :: wrapped (items Pr_Normal e)).
Proof. intros W. apply closed_word. rewrite <- (app_nil_r (wrapped _)). apply wrapped_closed; [exact W|apply closed_nil]. Qed.
Lemma param_closed p : optional named p -> closed (items_option items_param p).
Proof.
  destruct p as [x|]; cbn [items_option optional]; intros V; [|apply closed_nil]. unfold items_param, wrapped. cbn [app].
  apply closed_mark; [mark_in|]. apply closed_name; [exact V|]. apply closed_mark; [mark_in|apply closed_nil].
Qed.
Lemma jump_closed k l : optional named l -> closed (items_jump k l).
Proof.
  intros V. unfold items_jump. apply closed_word. destruct l as [x|]; cbn [items_option app]; [apply closed_name; [exact V|]|]; (apply closed_mark; [mark_in|apply closed_nil]).
Qed.

Lemma shaped_statements :
  (forall s, formed s -> forall o, shaped (ends_throwing o s) (items_statement o s)) /\
  (forall l, forall final, formed_list final l -> shaped final (items_statements l)) /\
  (forall l, forall first, formed_clauses first l -> shaped true (items_clauses l)).
Proof.
  apply statement_node_ind; cbn [formed formed_list formed_clauses items_statement items_statements items_clauses ends_throwing].
  - intros body IH F o. left. eapply shaped_block, IH, F.
  - intros kind ds last (D & L) o. left. apply declaration_closed; assumption.
  - intros _ o. left. apply closed_mark; [mark_in|apply closed_nil].
  - intros e W o. left. apply expression_marked; [exact W|mark_in|apply closed_nil].
  - intros test c IH (W & F & _) o. specialize (IH F false). rewrite app_comm_cons. pose proof (shaped_behind _ _ _ (head_closed Fk_If test W) IH) as S.
    destruct o; cbn [negb andb]; [left; eapply shaped_block, S|exact S].
  - intros test c IHc a IHa (W & (Fc & _) & (Fa & _) & N) o. rewrite app_comm_cons. apply shaped_behind; [apply head_closed, W|].
    apply shaped_behind; [apply shaped_closed; rewrite <- N; apply IHc, Fc|]. apply (shaped_behind _ [word Fk_Else]); [apply closed_word, closed_nil|]. apply IHa, Fa.
  - intros init test update body IH (Wi & Wt & Wu & F & _) o. apply (shaped_behind _ [word Fk_For]); [apply closed_word, closed_nil|]. apply shaped_behind; [|apply IH, F].
    unfold wrapped. apply closed_mark; [mark_in|]. rewrite <- !app_assoc. cbn [app]. rewrite <- !app_assoc. cbn [app].
    assert (B : closed (Mark Fp_Semicolon :: items_option (items Pr_Normal) test ++ Mark Fp_Semicolon :: items_option (items Pr_Normal) update ++ [Mark Fp_ParenR])).
    { apply closed_mark; [mark_in|]. apply optional_marked; [exact Wt|mark_in|]. apply optional_marked; [exact Wu|mark_in|apply closed_nil]. }
    destruct init as [[|e]|]; cbn [items_option items_for_init optional] in *; [contradiction| |exact B].
    apply expression_marked; [exact Wi|mark_in|]. apply optional_marked; [exact Wt|mark_in|]. apply optional_marked; [exact Wu|mark_in|apply closed_nil].
  - intros lhs rhs body IH (L & (R & _) & F & _) o. apply (shaped_behind _ [word Fk_For]); [apply closed_word, closed_nil|]. apply shaped_behind; [apply for_head_closed; assumption|apply IH, F].
  - intros lhs rhs body IH (L & (R & _) & F & _) o. apply (shaped_behind _ [word Fk_For]); [apply closed_word, closed_nil|]. apply shaped_behind; [apply for_head_closed; assumption|apply IH, F].
  - contradiction.
  - intros test body IH (W & F & _) o. rewrite app_comm_cons. apply shaped_behind; [apply head_closed, W|apply IH, F].
  - intros body IH test (W & (F & _) & N) o. left. apply closed_word, closed_app.
    + apply shaped_closed. replace false with (ends_throwing o body); [apply IH, F|]. destruct (ends_throwing o body) eqn:K; [|reflexivity]. apply throwing_any in K. congruence.
    + rewrite app_comm_cons. apply closed_app; [apply head_closed, W|]. apply closed_mark; [mark_in|apply closed_nil].
  - intros e cases IH (W & F) o. left. rewrite app_comm_cons. apply closed_app; [apply head_closed, W|]. eapply shaped_block, IH, F.
  - intros e body IH (W & F & _) o. rewrite app_comm_cons. apply shaped_behind; [apply head_closed, W|apply IH, F].
  - intros label body IH (V & F & _) o. apply (shaped_behind _ [items_name label; Mark Fp_Colon]); [apply closed_name; [exact V|]; apply closed_mark; [mark_in|apply closed_nil]|apply IH, F].
  - intros e W o. right. split; [reflexivity|]. exists [word Fk_Throw], e. split; [reflexivity|]. split; [apply closed_word, closed_nil|exact W].
  - intros body IHb param handler IHh (Fb & _ & Wp & Fh) o. left. apply closed_word. eapply shaped_curlied; [apply IHb, Fb|]. apply closed_word, closed_app; [apply param_closed, Wp|].
    eapply shaped_block, IHh, Fh.
  - intros body IHb param handler IHh finalizer IHf (Fb & _ & Wp & Fh & Ff) o. left. apply closed_word. eapply shaped_curlied; [apply IHb, Fb|]. apply closed_word, closed_app; [apply param_closed, Wp|].
    eapply shaped_curlied; [apply IHh, Fh|]. apply closed_word. eapply shaped_block, IHf, Ff.
  - intros body IHb finalizer IHf (Fb & Ff) o. left. apply closed_word. eapply shaped_curlied; [apply IHb, Fb|]. apply closed_word. eapply shaped_block, IHf, Ff.
  - intros label V o. left. apply jump_closed, V.
  - intros label V o. left. apply jump_closed, V.
  - intros value W o. left. apply closed_word. apply optional_marked; [exact W|mark_in|apply closed_nil].
  - intros _ o. left. apply closed_word, closed_mark; [mark_in|apply closed_nil].
  - intros final _. left. apply closed_nil.
  - intros s IHs l IHl final (F & T & Fl). specialize (IHs F false). destruct (ends_throwing false s).
    + destruct (T eq_refl) as (-> & ->). cbn [items_statements]. rewrite app_nil_r. exact IHs.
    + apply shaped_behind; [apply shaped_closed, IHs|apply IHl, Fl].
  - intros first _. left. apply closed_nil.
  - intros test c IHc l IHl first (W & _ & Fc & Fl). specialize (IHc _ Fc). specialize (IHl _ Fl).
    assert (H : closed (match test with Some e => word Fk_Case :: items Pr_Normal e | None => [word Fk_Default] end ++ [Mark Fp_Colon])).
    { destruct test as [e|]; cbn [app]; apply closed_word; [apply expression_marked; [exact W|mark_in|apply closed_nil]|apply closed_mark; [mark_in|apply closed_nil]]. }
    change (Mark Fp_Colon :: items_statements c ++ items_clauses l) with ([Mark Fp_Colon] ++ items_statements c ++ items_clauses l). rewrite app_assoc. apply shaped_behind; [exact H|].
    destruct l as [|t' c' l']; [cbn [items_clauses]; rewrite app_nil_r; exact IHc|]. apply shaped_behind; [apply shaped_closed, IHc|exact IHl].
Qed.

Theorem whole_accepted E r n ds body : formed_script ds body ->
  length (display (fmt_whole_script ds body)) < r -> 20 * length (display (fmt_whole_script ds body)) + 80 <= n ->
  parse_root E r n (display (fmt_whole_script ds body)) = Accepted.
Proof.
  intros W R N.
  assert (S : sound (items_whole ds body)). { rewrite items_with_directives. eapply shaped_sound, shaped_statements, formed_with_directives, W. }
  destruct S as (G & A). destruct (spells_all _ G) as (S & F).
  apply (formatted_accepted E r n (fmt_whole_script ds body) (map tok_of (items_whole ds body))); rewrite ?(displayed_whole ds body W); auto; [apply settled, F|].
  rewrite map_map. apply whole_program, W.
Qed.

(** ** Scripts that are displayed alike *)
Theorem throw_alike a b c :
  let a := E_binding a None in
  let b := E_new_empty (E_binding b None) in
  let c := A_identifier c None in
  display (fmt_whole_script [] (Cons_statement (St_throw a) (Cons_statement (St_expression (E_member b c)) No_statements))) =
  display (fmt_whole_script [] (Cons_statement (St_throw (E_member (E_call a No_args (Last (Arg_expression b))) c)) (Cons_statement St_empty No_statements))).
Proof. cbn zeta. rewrite !display_displayed. apply f_equal. reflexivity. Qed.
Definition string_statements (ds : list bytes) (body : statements) : statements := fold_right (fun d => Cons_statement (St_expression (E_string d None))) body ds.
Lemma prints_directives s body ds : prints s None (fold_right (fun d k => print_ (P_string d (Some d)) ;; punct_ Fp_Semicolon ;; k) Done ds ;; fmt_statements body) =
  prints s None (fmt_statements (string_statements ds body)).
Proof.
  unfold string_statements. induction ds as [|d ds IH]; [reflexivity|]. cbn [fold_right fmt_statements fmt_statement].
  rewrite !(prints_andthen (fmt_expression_statement _)). change (prints s None (fmt_expression_statement (E_string d None))) with ([Quoted d; Mark Fp_Semicolon], @None restriction).
  cbn beta iota. rewrite <- IH. clear IH. unfold punct_, print_. cbn [andthen prints item_of after_item given].
  destruct (prints s None (_ ;; fmt_statements body)). reflexivity.
Qed.
Theorem directive_alike d ds body : display (fmt_whole_script (d :: ds) body) = display (fmt_whole_script [] (string_statements (d :: ds) body)).
Proof.
  rewrite !display_displayed. apply f_equal. unfold displayed, fmt_whole_script. rewrite !prints_hold. cbn [brackets within s_prec s_in s_orphan fst].
  rewrite prints_directives. reflexivity.
Qed.
