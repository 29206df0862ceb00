(** Displayed expressions are read back and accepted. *)
From Coq Require Import String List NArith Bool Arith Lia.
From Verif Require Import Base Tokens SpecTokens SpecTrivia SpecStream Tokenizer SpecHints ByteFacts ParserCore SpecParser ParserBody SpecGrammar SpecLanguage
  Formatter SpecFormatter FormatterFacts FormatterTokens Nodes SpecNodes NodeItems NodeTokens.
Import ListNotations.

Definition good_item (i : item) : Prop := spells i (tok_of i) /\ slash_free (tok_of i).
Definition firsts (P : item -> Prop) (x : list item) : Prop := exists i x', x = i :: x' /\ P i.
Definition lasts (P : item -> Prop) (x : list item) : Prop := exists x' i, x = x' ++ [i] /\ P i.

Lemma apart_app x i j y : all_apart (x ++ [i]) -> all_apart (j :: y) -> apart i (item_text j) -> all_apart ((x ++ [i]) ++ j :: y).
Proof.
  induction x as [|k x IH]; intros A B C; [split; assumption|]. cbn [app] in *. destruct (x ++ [i]) as [|m z] eqn:Q; [destruct x; discriminate|].
  cbn [app] in *. cbn [all_apart] in A |- *. destruct A as [A1 A2]. split; [exact A1|]. apply IH; auto.
Qed.
Lemma link P Q x y : all_apart x -> all_apart y -> lasts P x -> firsts Q y -> (forall i j, P i -> Q j -> apart i (item_text j)) -> all_apart (x ++ y).
Proof. intros A B (x' & i & -> & Pi) (j & y' & -> & Qj) C. apply apart_app; auto. Qed.
Lemma lasts_app P x y : lasts P y -> lasts P (x ++ y).
Proof. intros (y' & i & -> & H). exists (x ++ y'), i. rewrite app_assoc. auto. Qed.
Lemma firsts_app P x y : firsts P x -> firsts P (x ++ y).
Proof. intros (i & x' & -> & H). exists i, (x' ++ y). auto. Qed.
Lemma lasts_one (P : item -> Prop) i : P i -> lasts P [i].
Proof. intros H. exists [], i. auto. Qed.
Lemma firsts_cons (P : item -> Prop) i x : P i -> firsts P (i :: x).
Proof. intros H. exists i, x. auto. Qed.

(** Items an expression can begin and end with. *)
Definition opens (i : item) : Prop := good_item i /\ match i with Word _ | Number _ | Quoted _ | Mark Fp_ParenL => True | _ => False end.
Definition ends (i : item) : Prop := match i with Word _ | Number _ | Quoted _ | Mark (Fp_ParenR | Fp_SquareR) => True | _ => False end.
Definition no_integer (i : item) : Prop := match i with Number s => In 46%N s | _ => True end.

Definition bracketing := [Fp_ParenL; Fp_ParenR; Fp_SquareL; Fp_SquareR; Fp_CurlyL; Fp_CurlyR; Fp_Comma; Fp_Question; Fp_Colon; Fp_Semicolon].
Ltac is_mark H := cbn [In bracketing] in H; repeat (destruct H as [<-|H]); try contradiction H.
Ltac not_begun := let q := fresh "q" in let r := fresh "r" in let K := fresh "K" in
  intros q _ (r & K); destruct q; cbn in K; discriminate K.
(** Punctuators that no other one continues are apart from everything. *)
Lemma solo p t : In p (Fp_Ellipsis :: bracketing) -> apart (Mark p) t.
Proof.
  intros H. destruct t as [|c r]; [right; reflexivity|]. left. exists c, r. split; [reflexivity|]. cbn [In bracketing] in H.
  split; [intros q _ (x & K); repeat (destruct H as [<-|H]); try contradiction H; destruct q; cbn in K; discriminate K|].
  split; intros ->; repeat (destruct H as [H|H]); try discriminate H; contradiction H.
Qed.
Lemma mark_mark p q : In p bracketing -> In q bracketing -> apart (Mark p) (fpunct_text q).
Proof. intros H _. apply solo. right. exact H. Qed.
Lemma ends_mark i p : ends i -> In p bracketing -> apart i (fpunct_text p).
Proof.
  intros E H. destruct i as [w|m|s|s|v f|s]; try contradiction E; try exact I.
  - apply mark_mark; [|exact H]. destruct m; try contradiction E; cbn; auto 20.
  - split; [|intros _]; is_mark H; intros (c & r & Q & L); injection Q as <- <-; try discriminate L; unfold ident_char, lower, upper, digit in L; lia.
Qed.
Lemma ends_period i : ends i -> no_integer i -> apart i (fpunct_text Fp_Period).
Proof.
  intros E N. destruct i as [w|m|s|s|v f|s]; try contradiction E; try exact I.
  - left. destruct m; try contradiction E; (eexists _, _; split; [reflexivity|]; split; [not_begun|split; discriminate]).
  - split; [|intros K; contradiction]. intros (c & r & Q & L). injection Q as <- <-. unfold ident_char, lower, upper, digit in L. lia.
Qed.
Definition before := [Fp_ParenL; Fp_SquareL; Fp_Comma; Fp_Question; Fp_Colon; Fp_Semicolon; Fp_Ellipsis].
Lemma before_opens p i : In p before -> opens i -> apart (Mark p) (item_text i).
Proof. intros H _. apply solo. cbn [before bracketing In] in *. tauto. Qed.

(** ** Blocks *)
Definition block (x : list item) : Prop := Forall good_item x /\ all_apart x /\ firsts opens x /\ lasts ends x.
Definition mark_ (p : fpunct) : Prop := In p (Fp_Ellipsis :: Fp_Period :: bracketing).
Lemma good_mark p : mark_ p -> good_item (Mark p).
Proof.
  intros H. split; [apply sp_mark|split; [intros [K|K]|intros (b & f & K)]; try discriminate K];
    unfold mark_ in H; cbn [bracketing In] in H; repeat (destruct H as [<-|H]); try contradiction H; try reflexivity; discriminate K.
Qed.
Lemma good_word w : identifier_name w -> good_item (Word w).
Proof.
  intros (c & w' & -> & C & D & F). split; [apply sp_word; auto|]. split; [intros [K|K]|intros (b & f & K)]; discriminate K.
Qed.
Lemma keyword_name k : In k [Fk_Super; Fk_New; Fk_This; Fk_Null; Fk_True; Fk_False] -> identifier_name (fkeyword_text k).
Proof.
  cbn [In]. intros H. repeat (destruct H as [<-|H]); try contradiction H; cbn; (eexists _, _; split; [reflexivity|]);
    unfold ident_char, digit, lower, upper; (split; [lia|split; [lia|]]); repeat (constructor; [lia|]); constructor.
Qed.
Lemma block_one i : good_item i -> match i with Word _ | Number _ | Quoted _ => True | _ => False end -> block [i].
Proof.
  intros G H. split; [auto|]. split; [exact I|]. split; [apply firsts_cons|apply lasts_one]; destruct i; try contradiction; try split; auto.
Qed.
Lemma wrapped_block x : block x -> block (wrapped x).
Proof.
  intros (G & A & F & L). unfold wrapped. split; [constructor; [apply good_mark; cbn; auto 20|apply Forall_app; split; [exact G|constructor; [apply good_mark; cbn; auto 20|constructor]]]|].
  split.
  - apply (link (eq (Mark Fp_ParenL)) opens [Mark Fp_ParenL]); [exact I| |apply lasts_one; reflexivity|apply firsts_app, F|intros i j <- O; apply before_opens; [cbn; auto|exact O]].
    apply (link ends (eq (Mark Fp_ParenR))); auto; [exact I|apply firsts_cons; reflexivity|]. intros i j E <-. apply ends_mark; [exact E|cbn; auto].
  - split; [apply firsts_cons; split; [apply good_mark; cbn; auto 20|exact I]|]. change (Mark Fp_ParenL :: x ++ [Mark Fp_ParenR]) with ((Mark Fp_ParenL :: x) ++ [Mark Fp_ParenR]).
    apply lasts_app, lasts_one. exact I.
Qed.
Lemma mid_block x p y : In p [Fp_Question; Fp_Colon; Fp_Comma] -> block x -> block y -> block (x ++ Mark p :: y).
Proof.
  intros P (G & A & F & L) (G' & A' & F' & L').
  assert (B : In p bracketing /\ In p before /\ mark_ p) by (cbn in P |- *; intuition (subst; auto 20)). destruct B as (B1 & B2 & B3).
  split; [apply Forall_app; split; [exact G|constructor; [apply good_mark, B3|exact G']]|]. split; [|split; [apply firsts_app, F|]].
  - apply (link ends (eq (Mark p))); auto; [|apply firsts_cons; reflexivity|intros i j E <-; apply ends_mark; auto].
    apply (link (eq (Mark p)) opens [Mark p]); auto; [exact I|apply lasts_one; reflexivity|intros i j <- O; apply before_opens; auto].
  - apply lasts_app. change (Mark p :: y) with ([Mark p] ++ y). apply lasts_app, L'.
Qed.
Lemma word_block k x : In k [Fk_Super; Fk_New; Fk_This; Fk_Null; Fk_True; Fk_False] -> Forall good_item x -> all_apart x -> lasts ends x -> block (word k :: x).
Proof.
  intros H G A L. split; [constructor; [apply good_word, keyword_name, H|exact G]|]. split; [destruct x; [exact I|split; [exact I|exact A]]|].
  split; [apply firsts_cons; split; [apply good_word, keyword_name, H|exact I]|]. change (word k :: x) with ([word k] ++ x). apply lasts_app, L.
Qed.
(** What can stand behind an operand. *)
Definition tail_block (period : bool) (y : list item) : Prop :=
  Forall good_item y /\ all_apart y /\
  firsts (fun i => if period then i = Mark Fp_Period else exists p, i = Mark p /\ In p bracketing) y /\ lasts ends y.
Lemma tailed b x y : block x -> tail_block b y -> (b = true -> lasts (fun i => ends i /\ no_integer i) x) -> block (x ++ y).
Proof.
  intros (G & A & F & L) (G' & A' & F' & L') N. split; [apply Forall_app; auto|]. split; [|split; [apply firsts_app, F|apply lasts_app, L']].
  destruct b; [apply (link _ _ x y A A' (N eq_refl) F')|apply (link _ _ x y A A' L F')]; intros i j.
  - intros (E & Ni) ->. apply ends_period; auto.
  - intros E (p & -> & P). apply ends_mark; auto.
Qed.
Lemma block_square x : block x -> tail_block false (Mark Fp_SquareL :: x ++ [Mark Fp_SquareR]).
Proof.
  intros (G & A & F & L). split; [constructor; [apply good_mark; cbn; auto 20|apply Forall_app; split; [exact G|constructor; [apply good_mark; cbn; auto 20|constructor]]]|].
  split; [|split].
  - apply (link (eq (Mark Fp_SquareL)) opens [Mark Fp_SquareL]); [exact I| |apply lasts_one; reflexivity|apply firsts_app, F|intros i j <- O; apply before_opens; [cbn; auto|exact O]].
    apply (link ends (eq (Mark Fp_SquareR))); auto; [exact I|apply firsts_cons; reflexivity|]. intros i j E <-. apply ends_mark; [exact E|cbn; auto].
  - apply firsts_cons. eexists. split; [reflexivity|cbn; auto].
  - change (Mark Fp_SquareL :: x ++ [Mark Fp_SquareR]) with ((Mark Fp_SquareL :: x) ++ [Mark Fp_SquareR]). apply lasts_app, lasts_one. exact I.
Qed.
Lemma block_name w : identifier_name w -> tail_block true [Mark Fp_Period; Word w].
Proof.
  intros W. pose proof (good_word w W) as G. split; [constructor; [apply good_mark; cbn; auto|constructor; [exact G|constructor]]|]. split.
  - split; [|exact I]. destruct W as (c & w' & -> & C & D & _). left. eexists _, _. split; [reflexivity|]. split; [|split; [intros _; exact D|discriminate]].
    intros q _ (r & K). destruct q; cbn in K; try discriminate K; injection K; intros; subst; unfold ident_char, lower, upper, digit in C; lia.
  - split; [apply firsts_cons; reflexivity|]. apply (lasts_app _ [Mark Fp_Period]), lasts_one. exact I.
Qed.

(** ** Arguments: the list between a mark in front and the closing parenthesis *)
Definition args_block (x : list item) : Prop :=
  Forall good_item x /\ forall p, p = Fp_ParenL \/ p = Fp_Comma -> all_apart (Mark p :: x ++ [Mark Fp_ParenR]).
Lemma args_block_nil : args_block [].
Proof. split; [constructor|]. intros p H. split; [|exact I]. apply mark_mark; [destruct H; subst; cbn; auto 20|cbn; auto]. Qed.
Definition argument_block (y : list item) : Prop :=
  Forall good_item y /\ lasts ends y /\ forall p, p = Fp_ParenL \/ p = Fp_Comma -> all_apart (Mark p :: y).
Lemma argument_last y : argument_block y -> args_block y.
Proof.
  intros (G & L & A). split; [exact G|]. intros p P. change (Mark p :: y ++ [Mark Fp_ParenR]) with ((Mark p :: y) ++ [Mark Fp_ParenR]).
  apply (link ends (eq (Mark Fp_ParenR))); [apply A, P|exact I|apply (lasts_app _ [Mark p]), L|apply firsts_cons; reflexivity|].
  intros i j E <-. apply ends_mark; [exact E|cbn; auto].
Qed.
Lemma argument_cons y x : argument_block y -> args_block x -> args_block (y ++ Mark Fp_Comma :: x).
Proof.
  intros (G & L & A) (G' & A'). split; [apply Forall_app; split; [exact G|constructor; [apply good_mark; cbn; auto 20|exact G']]|]. intros p P.
  rewrite <- app_assoc. change (Mark p :: y ++ (Mark Fp_Comma :: x) ++ [Mark Fp_ParenR]) with ((Mark p :: y) ++ Mark Fp_Comma :: x ++ [Mark Fp_ParenR]).
  apply (link ends (eq (Mark Fp_Comma))); [apply A, P|apply A'; auto|apply (lasts_app _ [Mark p]), L|apply firsts_cons; reflexivity|].
  intros i j E <-. apply ends_mark; [exact E|cbn; auto 20].
Qed.
Lemma block_argument x : block x -> argument_block x.
Proof.
  intros (G & A & F & L). split; [exact G|]. split; [exact L|]. intros p P.
  apply (link (eq (Mark p)) opens [Mark p]); auto; [exact I|apply lasts_one; reflexivity|]. intros i j <- O. apply before_opens; [destruct P; subst; cbn; auto|exact O].
Qed.
Lemma block_spread x : block x -> argument_block (Mark Fp_Ellipsis :: x).
Proof.
  intros (G & A & F & L). split; [constructor; [apply good_mark; cbn; auto|exact G]|]. split; [apply (lasts_app _ [Mark Fp_Ellipsis]), L|]. intros p P.
  split; [left; destruct P as [->| ->]; (eexists _, _; split; [reflexivity|]; split; [not_begun|split; discriminate])|].
  apply (link (eq (Mark Fp_Ellipsis)) opens [Mark Fp_Ellipsis]); auto; [exact I|apply lasts_one; reflexivity|]. intros i j <- O. apply before_opens; [cbn; auto 20|exact O].
Qed.
Lemma args_tail x : args_block x -> tail_block false (wrapped x).
Proof.
  intros (G & A). unfold wrapped. split; [constructor; [apply good_mark; cbn; auto 20|apply Forall_app; split; [exact G|constructor; [apply good_mark; cbn; auto 20|constructor]]]|].
  split; [apply A; auto|]. split; [apply firsts_cons; eexists; split; [reflexivity|cbn; auto]|].
  change (Mark Fp_ParenL :: x ++ [Mark Fp_ParenR]) with ((Mark Fp_ParenL :: x) ++ [Mark Fp_ParenR]). apply lasts_app, lasts_one. exact I.
Qed.
Lemma wrap_if_block b x : block x -> block (wrap_if b x).
Proof. intros B. destruct b; [apply wrapped_block, B|exact B]. Qed.
Lemma tail_word k b y : In k [Fk_Super; Fk_New; Fk_This; Fk_Null; Fk_True; Fk_False] -> tail_block b y -> block (word k :: y).
Proof. intros H (G & A & _ & L). apply word_block; auto. Qed.

Definition access_kind (a : access) : bool := match a with A_identifier _ _ => true | _ => false end.
(** The last item of an operand is an integer only if the operand is one. *)
Lemma wrapped_last x : lasts (fun i => ends i /\ no_integer i) (wrapped x).
Proof.
  unfold wrapped. change (Mark Fp_ParenL :: x ++ [Mark Fp_ParenR]) with ((Mark Fp_ParenL :: x) ++ [Mark Fp_ParenR]). apply lasts_app, lasts_one. split; exact I.
Qed.
Lemma access_last a : well_formed_access a -> lasts (fun i => ends i /\ no_integer i) (items_access a).
Proof.
  destruct a; cbn [items_access well_formed_access]; intros W; [|change (Mark Fp_SquareL :: items Pr_Assignment expression ++ [Mark Fp_SquareR]) with ((Mark Fp_SquareL :: items Pr_Assignment expression) ++ [Mark Fp_SquareR])|contradiction].
  - apply (lasts_app _ [Mark Fp_Period]), lasts_one. split; exact I.
  - apply lasts_app, lasts_one. split; exact I.
Qed.
Lemma integer_last e : well_formed e -> ~ integer e -> lasts (fun i => ends i /\ no_integer i) (items Pr_Member e).
Proof.
  destruct e; cbn [items well_formed]; intros W N; try contradiction; try (apply lasts_one; split; exact I).
  - apply lasts_one. split; [exact I|]. cbn. destruct (in_dec N.eq_dec 46%N s) as [K|K]; [exact K|]. destruct N. exists s. auto.
  - apply lasts_app, access_last, W.
  - apply (lasts_app _ [word Fk_Super]), access_last, W.
  - apply lasts_app, wrapped_last.
  - cbn [below rank Nat.ltb Nat.leb wrap_if]. change (word Fk_New :: items Pr_Member e ++ wrapped (items_args args ++ items_last last)) with ((word Fk_New :: items Pr_Member e) ++ wrapped (items_args args ++ items_last last)).
    apply lasts_app, wrapped_last.
  - apply wrapped_last.
  - apply (lasts_app _ [word Fk_Super]), wrapped_last.
  - apply wrapped_last.
  - apply wrapped_last.
Qed.

Lemma items_block :
  (forall e, well_formed e -> forall p, block (items p e)) /\
  (forall a, well_formed_access a -> tail_block (access_kind a) (items_access a)) /\
  (forall a, well_formed_argument a -> forall p, argument_block (items_argument p a)) /\
  (forall l, well_formed_args l -> forall x, args_block (items_last x) -> args_block (items_args l ++ items_last x)) /\
  (forall x, well_formed_last x -> args_block (items_last x)).
Proof.
  apply node_ind; cbn [well_formed well_formed_access well_formed_argument well_formed_args well_formed_last items items_access items_argument items_args items_last].
  - intros value raw ((V & _) & _) p. apply block_one; [apply good_word, V|exact I].
  - intros _ p. apply block_one; [apply good_word, keyword_name; cbn; auto 20|exact I].
  - intros _ p. apply block_one; [apply good_word, keyword_name; cbn; auto 20|exact I].
  - intros b _ p. apply block_one; [apply good_word, keyword_name; destruct b; cbn; auto 20|exact I].
  - intros s N p. apply block_one; [|exact I]. split; [apply sp_number, N|]. split; [intros [K|K]|intros (b & f & K)]; discriminate K.
  - intros value raw (U & nl & T) p. apply block_one; [|exact I]. split; [eapply sp_quoted; eassumption|]. split; [intros [K|K]|intros (b & f & K)]; discriminate K.
  - contradiction.
  - intros o IHo a IHa (Wo & Wa & N) p. apply (tailed (access_kind a)); [apply IHo, Wo|apply IHa, Wa|]. intros K. apply integer_last; [exact Wo|]. destruct a; try discriminate K. exact N.
  - intros a IHa Wa p. eapply tail_word; [cbn; auto|apply IHa, Wa].
  - intros c IHc l IHl x IHx (Wc & Wl & Wx & _) p. apply (tailed false); [apply IHc, Wc|apply args_tail; auto|discriminate].
  - intros c IHc l IHl x IHx (Wc & Wl & Wx & _) p. apply wrap_if_block.
    destruct (tailed false (items Pr_Member c) (wrapped (items_args l ++ items_last x))) as (G & A & _ & L); [apply IHc, Wc|apply args_tail; auto|discriminate|].
    apply word_block; auto. cbn. auto.
  - intros c IHc Wc p. apply wrap_if_block. destruct (IHc Wc Pr_New) as (G & A & _ & L). apply word_block; auto. cbn. auto.
  - contradiction.
  - intros l IHl x IHx (Wl & Wx & _) p. eapply tail_word; [cbn; auto|apply args_tail; auto].
  - intros t IHt c IHc a IHa (Wt & Wc & Wa) p. apply wrap_if_block. apply mid_block; [cbn; auto|auto|]. apply mid_block; [cbn; auto|auto|auto].
  - intros x IHx y IHy (Wx & Wy) p. apply wrap_if_block. apply mid_block; [cbn; auto|auto|auto].
  - intros value raw W. apply block_name, W.
  - intros e IHe We. apply block_square, IHe, We.
  - contradiction.
  - intros e IHe We p. apply block_argument, IHe, We.
  - intros e IHe We p. apply block_spread, IHe, We.
  - intros _ x X. exact X.
  - intros a IHa l IHl (Wa & Wl) x X. rewrite <- app_assoc. apply argument_cons; [apply IHa, Wa|apply IHl; auto].
  - intros _. apply args_block_nil.
  - intros a IHa Wa. apply argument_last, IHa, Wa.
Qed.

Lemma script_block es : Forall well_formed es -> Forall good_item (items_script es) /\ all_apart (items_script es) /\ (es <> [] -> firsts opens (items_script es)).
Proof.
  induction 1 as [|e es We W (G & A & F)]; unfold items_script; cbn [map concat].
  - split; [constructor|]. split; [exact I|intros []; reflexivity].
  - fold (items_script es). destruct (proj1 items_block e We Pr_Normal) as (Ge & Ae & Fe & Le).
    assert (As : all_apart (items Pr_Normal e ++ [Mark Fp_Semicolon])).
    { apply (link ends (eq (Mark Fp_Semicolon))); auto; [exact I|apply firsts_cons; reflexivity|]. intros i j E <-. apply ends_mark; [exact E|cbn; auto 20]. }
    split; [|split].
    + apply Forall_app. split; [apply Forall_app; split; [exact Ge|constructor; [apply good_mark; cbn; auto 20|constructor]]|exact G].
    + destruct es as [|e' es]; [cbn; rewrite app_nil_r; exact As|].
      apply (link (eq (Mark Fp_Semicolon)) opens); auto; [apply lasts_app, lasts_one; reflexivity|apply F; discriminate|]. intros i j <- O. apply before_opens; [cbn; auto 20|exact O].
    + intros _. apply firsts_app, firsts_app, Fe.
Qed.
Lemma settled ts : Forall slash_free ts -> forall past, slashes_settled past ts.
Proof.
  induction 1 as [|t ts (D & R) _ IH]; intros past; cbn [slashes_settled]; [exact I|]. split; [intros K; contradiction|]. split; [intros K; contradiction|]. apply IH.
Qed.
Lemma spells_all l : Forall good_item l -> Forall2 spells l (map tok_of l) /\ Forall slash_free (map tok_of l).
Proof. induction 1 as [|i l (S & F) _ (A & B)]; cbn [map]; split; constructor; auto. Qed.

Theorem script_accepted E r n es : Forall well_formed es ->
  length (display (fmt_script es)) < r -> 20 * length (display (fmt_script es)) + 80 <= n ->
  parse_root E r n (display (fmt_script es)) = Accepted.
Proof.
  intros W R N. destruct (script_block es W) as (G & A & _). destruct (spells_all _ G) as (S & F).
  apply (formatted_accepted E r n (fmt_script es) (map tok_of (items_script es))); rewrite ?(displayed_script es W); auto; [apply settled, F|].
  rewrite map_map. apply script_program, W.
Qed.

(** ** Trees that are displayed alike *)
Lemma displayed_one e : display (fmt_script [e]) = layout false (fst (prints (Scope Pr_Normal true false) (Some R_ExpressionStatement) (fmt_expression e)) ++ [Mark Fp_Semicolon]).
Proof.
  rewrite display_displayed. f_equal. unfold displayed, fmt_script. rewrite prints_hold. cbn [brackets within s_prec s_in s_orphan fst fold_right].
  unfold fmt_expression_statement. rewrite !prints_andthen, prints_hold. cbn [brackets within]. rewrite prints_hold. cbn [brackets within s_prec s_in s_orphan].
  destruct (prints _ _ (fmt_expression e)) as [y [r|]]; cbn; rewrite app_nil_r; reflexivity.
Qed.
Ltac settle := cbn [app fst snd]; rewrite ?app_nil_r, <- ?app_assoc; cbn [app]; rewrite <- ?app_assoc; try reflexivity.
Ltac pass l x := destruct (prints _ _ (fmt_args l)) as [?y ?r]; destruct (prints _ _ (fmt_last x)) as [?y ?r]; settle.
Ltac stepwise := cbn [fmt_expression fmt_args fmt_last fmt_argument get_sequence];
  repeat (progress (unfold keyword_, punct_; rewrite ?prints_andthen, ?prints_hold, ?prints_print;
    cbn [fmt_expression fmt_args fmt_last fmt_argument brackets within between fst snd item_of after_item s_prec s_in s_orphan rank Nat.ltb Nat.leb parens app])).
Ltac alike := etransitivity; [apply displayed_one|]; etransitivity; [|symmetry; apply displayed_one]; apply (f_equal (fun x => layout false (fst x ++ [Mark Fp_Semicolon]))); stepwise.
Theorem new_empty_called c l x : display (fmt_script [E_call (E_new_empty (E_binding c None)) l x]) = display (fmt_script [E_new (E_binding c None) l x]).
Proof. alike. pass l x. Qed.
Theorem new_called c l x l' x' : display (fmt_script [E_new (E_call (E_binding c None) l x) l' x']) = display (fmt_script [E_call (E_new (E_binding c None) l x) l' x']).
Proof. alike. pass l x. Qed.
Theorem sequence_passed f a b :
  display (fmt_script [E_call (E_binding f None) No_args (Last (Arg_expression (E_sequence (E_binding a None) (E_binding b None))))]) =
  display (fmt_script [E_call (E_binding f None) (Cons_arg (Arg_expression (E_binding a None)) No_args) (Last (Arg_expression (E_binding b None)))]).
Proof. alike. reflexivity. Qed.
