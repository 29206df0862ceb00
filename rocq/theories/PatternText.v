(** Proofs about displayed binding patterns. *)
From Coq Require Import String List NArith Bool Arith Lia.
From Verif Require Import Base Tokens SpecTokens SpecTrivia SpecStream Tokenizer SpecHints ByteFacts ParserCore SpecParser ParserBody SpecGrammar SpecLanguage.
From Verif Require Import Formatter SpecFormatter FormatterFacts FormatterTokens Nodes SpecNodes NodeItems NodeTokens NodeText.
From Verif Require Import Statements SpecStatements StatementItems StatementTokens StatementText SpecFaithful SpecPhrases PhraseFacts Patterns SpecPatterns.
Import ListNotations.

Scheme pattern_mut := Induction for pattern Sort Prop
  with properties_mut := Induction for pattern_properties Sort Prop
  with property_mut := Induction for pattern_property Sort Prop
  with last_property_mut := Induction for last_property Sort Prop
  with elements_mut := Induction for pattern_elements Sort Prop
  with element_mut := Induction for pattern_element Sort Prop
  with last_element_mut := Induction for last_element Sort Prop.
Combined Scheme pattern_all from pattern_mut, properties_mut, property_mut, last_property_mut, elements_mut, element_mut, last_element_mut.

(** ** Items *)
Definition squared (l : list item) : list item := Mark Fp_SquareL :: l ++ [Mark Fp_SquareR].
Definition items_property_name (n : property_name) : list item :=
  match n with
  | Pn_identifier v raw => [Word (given v raw)]
  | Pn_string v raw => [Quoted (given v raw)]
  | Pn_number s => [Number s]
  | Pn_computed e => squared (items Pr_Assignment e)
  end.
Definition items_init (o : option expression) : list item := items_option (items_initializer Pr_Assignment) o.
Fixpoint items_pattern (p : pattern) : list item :=
  match p with
  | Pt_name id => [items_name id]
  | Pt_object ps last => curlied (items_properties ps ++ items_last_property last)
  | Pt_array es last => squared (items_elements es ++ items_last_element last)
  end
with items_properties (ps : pattern_properties) : list item :=
  match ps with No_properties => [] | Cons_property p rest => items_property p ++ Mark Fp_Comma :: items_properties rest end
with items_property (p : pattern_property) : list item :=
  match p with
  | Pp_name id init => items_name id :: items_init init
  | Pp_pattern n p init => items_property_name n ++ Mark Fp_Colon :: items_pattern p ++ items_init init
  end
with items_last_property (l : last_property) : list item :=
  match l with No_last_property => [] | Last_property p => items_property p | Rest_property id => [Mark Fp_Ellipsis; items_name id] end
with items_elements (es : pattern_elements) : list item :=
  match es with
  | No_elements => []
  | Cons_hole rest => Mark Fp_Comma :: items_elements rest
  | Cons_element e rest => items_element e ++ Mark Fp_Comma :: items_elements rest
  end
with items_element (e : pattern_element) : list item :=
  match e with Pattern_element p init => items_pattern p ++ items_init init end
with items_last_element (l : last_element) : list item :=
  match l with No_last_element => [] | Last_element e => items_element e | Rest_element p => Mark Fp_Ellipsis :: items_pattern p end.
Definition items_binding (d : declaring * pattern * expression) : list item :=
  let '(kind, p, e) := d in word (declaring_keyword kind) :: items_pattern p ++ items_initializer Pr_Assignment e ++ [Mark Fp_Semicolon].
Definition items_bindings (l : list (declaring * pattern * expression)) : list item := concat (map items_binding l).

Lemma prints_name id s r : prints s r (fmt_identifier_node id) = ([items_name id], None).
Proof. reflexivity. Qed.
Lemma prints_punct p s r : prints s r (punct_ p) = ([Mark p], None).
Proof. reflexivity. Qed.
Lemma prints_initial e s r : initial e -> prints s r (fmt_initializer e) = (items_initializer Pr_Assignment e, None).
Proof.
  intros (W & _). unfold fmt_initializer. rewrite prints_andthen, prints_punct, prints_hold. cbn [brackets within]. rewrite (proj1 prints_items) by exact W. reflexivity.
Qed.
Lemma prints_init o s : optional initial o -> prints s None (fmt_option fmt_initializer o) = (items_init o, None).
Proof. intros W. destruct o as [e|]; [apply prints_initial, W|reflexivity]. Qed.
Lemma prints_property_name n s r : formed_property_name n -> prints s r (fmt_property_name n) = (items_property_name n, None).
Proof.
  destruct n as [v raw|v raw|x|e]; try reflexivity. intros (W & _). cbn [fmt_property_name]. rewrite prints_hold. cbn [brackets curlies squares fst snd]. rewrite prints_hold. cbn [brackets within].
  rewrite (proj1 prints_items) by exact W. reflexivity.
Qed.
Lemma prints_pattern :
  (forall p, formed_pattern p -> forall s r, prints s r (fmt_pattern p) = (items_pattern p, None)) /\
  (forall ps, formed_properties ps -> forall s, prints s None (fmt_properties ps) = (items_properties ps, None)) /\
  (forall p, formed_property p -> forall s, prints s None (fmt_property p) = (items_property p, None)) /\
  (forall l, formed_last_property l -> forall s, prints s None (fmt_last_property l) = (items_last_property l, None)) /\
  (forall es, formed_elements es -> forall s, prints s None (fmt_elements es) = (items_elements es, None)) /\
  (forall e, formed_element e -> forall s, prints s None (fmt_element e) = (items_element e, None)) /\
  (forall l, formed_last_element l -> forall s, prints s None (fmt_last_element l) = (items_last_element l, None)).
Proof.
  apply pattern_all; try reflexivity;
    cbn [formed_pattern formed_properties formed_property formed_last_property formed_elements formed_element formed_last_element
      fmt_pattern fmt_properties fmt_property fmt_last_property fmt_elements fmt_element fmt_last_element].
  - intros ps IHp last IHl (Fp & Fl) s r. rewrite prints_hold. cbn [brackets curlies squares fst snd]. rewrite prints_andthen, prints_hold. cbn [brackets curlies squares fst snd]. rewrite IHp by exact Fp. cbn [fst snd].
    rewrite IHl by exact Fl. reflexivity.
  - intros es IHe last IHl (Fe & Fl) s r. rewrite prints_hold. cbn [brackets curlies squares fst snd]. rewrite prints_andthen, prints_hold. cbn [brackets curlies squares fst snd]. rewrite IHe by exact Fe. cbn [fst snd].
    rewrite IHl by exact Fl. reflexivity.
  - intros p IHp ps IHs (Fp & Fs) s. rewrite prints_andthen, IHp by exact Fp. rewrite prints_andthen, prints_punct, IHs by exact Fs. reflexivity.
  - intros id init (_ & Fi) s. rewrite prints_andthen, prints_name, prints_init by exact Fi. reflexivity.
  - intros n p IHp init (Fn & Fp & Fi) s. rewrite prints_andthen, prints_property_name by exact Fn. rewrite prints_andthen, prints_punct, prints_andthen, IHp by exact Fp.
    rewrite prints_init by exact Fi. reflexivity.
  - intros p IHp Fp s. apply IHp, Fp.
  - intros es IHe Fe s. rewrite prints_andthen, prints_punct, IHe by exact Fe. reflexivity.
  - intros e IHe es IHs (Fe & Fs) s. rewrite prints_andthen, IHe by exact Fe. rewrite prints_andthen, prints_punct, IHs by exact Fs. reflexivity.
  - intros p IHp init (Fp & Fi) s. rewrite prints_andthen, IHp by exact Fp. rewrite prints_init by exact Fi. reflexivity.
  - intros e IHe Fe s. apply IHe, Fe.
  - intros p IHp Fp s. rewrite prints_andthen, prints_punct, IHp by exact Fp. reflexivity.
Qed.
Lemma displayed_bindings l : Forall formed_binding l -> displayed (fmt_bindings l) = items_bindings l.
Proof.
  intros F. unfold displayed, fmt_bindings. rewrite prints_hold. cbn [brackets fst].
  enough (H : forall s, prints s None (fold_right (fun d k => fmt_binding d ;; k) Done l) = (items_bindings l, None)) by (rewrite H; reflexivity).
  intros s. induction F as [|((kind & p) & e) l (Fp & Fe) _ IH]; [reflexivity|]. unfold items_bindings. cbn [fold_right map concat]. rewrite prints_andthen.
  replace (prints s None (fmt_binding (kind, p, e))) with (items_binding (kind, p, e), @None restriction); [rewrite IH; reflexivity|].
  unfold fmt_binding. rewrite prints_andthen. unfold keyword_. rewrite prints_print. replace (after_item (item_of (P_keyword (declaring_keyword kind))) None) with (@None restriction) by reflexivity.
  rewrite prints_andthen, prints_hold. cbn [brackets prints fst snd]. rewrite !prints_andthen, (proj1 prints_pattern) by exact Fp.
  rewrite prints_initial by exact Fe. rewrite prints_punct. cbn [app items_binding]. rewrite <- app_assoc. reflexivity.
Qed.

(** ** The items stand apart *)
Lemma init_closed o q x : optional initial o -> In q bracketing -> closed x -> closed (items_init o ++ Mark q :: x).
Proof. intros W H C. destruct o as [e|]; [apply initializer_marked; [apply W|exact H|exact C]|apply closed_mark; assumption]. Qed.
Lemma closed_binding_name id x : bound_name id -> closed x -> closed (items_name id :: x).
Proof. intros (V & _). apply closed_name, V. Qed.
Lemma property_name_closed n x : formed_property_name n -> closed x -> closed (items_property_name n ++ Mark Fp_Colon :: x).
Proof.
  intros F C. destruct n as [v raw|v raw|s|e]; cbn [items_property_name app].
  - destruct F as (N & ->). apply closed_cons; [apply good_word, N|intros t; exact I|]. apply closed_mark; [mark_in|exact C].
  - destruct F as (-> & W). apply (expression_marked (E_string v None) Pr_Normal); [exact W|mark_in|exact C].
  - apply (expression_marked (E_numeric s) Pr_Normal); [exact F|mark_in|exact C].
  - unfold squared. cbn [app]. rewrite <- app_assoc. apply closed_mark; [mark_in|]. apply expression_marked; [apply F|mark_in|]. apply closed_mark; [mark_in|exact C].
Qed.
Lemma closed_ellipsis x : closed x -> closed (Mark Fp_Ellipsis :: x).
Proof. intros C. apply closed_cons; [apply good_mark; left; reflexivity|intros t; apply solo; left; reflexivity|exact C]. Qed.
Lemma pattern_closed :
  (forall p, formed_pattern p -> closed (items_pattern p)) /\
  (forall ps, formed_properties ps -> closed (items_properties ps)) /\
  (forall p, formed_property p -> forall q x, In q bracketing -> closed x -> closed (items_property p ++ Mark q :: x)) /\
  (forall l, formed_last_property l -> forall q x, In q bracketing -> closed x -> closed (items_last_property l ++ Mark q :: x)) /\
  (forall es, formed_elements es -> closed (items_elements es)) /\
  (forall e, formed_element e -> forall q x, In q bracketing -> closed x -> closed (items_element e ++ Mark q :: x)) /\
  (forall l, formed_last_element l -> forall q x, In q bracketing -> closed x -> closed (items_last_element l ++ Mark q :: x)).
Proof.
  apply pattern_all;
    cbn [formed_pattern formed_properties formed_property formed_last_property formed_elements formed_element formed_last_element
      items_pattern items_properties items_property items_last_property items_elements items_element items_last_element].
  - intros id F. apply closed_binding_name; [exact F|apply closed_nil].
  - intros ps IHp last IHl (Fp & Fl). unfold curlied. rewrite <- app_assoc. apply closed_mark; [mark_in|]. apply closed_app; [apply IHp, Fp|]. apply IHl; [exact Fl|mark_in|apply closed_nil].
  - intros es IHe last IHl (Fe & Fl). unfold squared. rewrite <- app_assoc. apply closed_mark; [mark_in|]. apply closed_app; [apply IHe, Fe|]. apply IHl; [exact Fl|mark_in|apply closed_nil].
  - intros _. apply closed_nil.
  - intros p IHp ps IHs (Fp & Fs). apply IHp; [exact Fp|mark_in|apply IHs, Fs].
  - intros id init (Fn & Fi) q x H C. cbn [app]. apply closed_binding_name; [exact Fn|]. apply init_closed; assumption.
  - intros n p IHp init (Fn & Fp & Fi) q x H C. rewrite <- app_assoc. cbn [app]. apply property_name_closed; [exact Fn|]. rewrite <- app_assoc. apply closed_app; [apply IHp, Fp|]. apply init_closed; assumption.
  - intros _ q x H C. apply closed_mark; assumption.
  - intros p IHp Fp. apply IHp, Fp.
  - intros id F q x H C. cbn [app]. apply closed_ellipsis, closed_binding_name; [exact F|]. apply closed_mark; assumption.
  - intros _. apply closed_nil.
  - intros es IHe Fe. apply closed_mark; [mark_in|apply IHe, Fe].
  - intros e IHe es IHs (Fe & Fs). apply IHe; [exact Fe|mark_in|apply IHs, Fs].
  - intros p IHp init (Fp & Fi) q x H C. rewrite <- app_assoc. apply closed_app; [apply IHp, Fp|]. apply init_closed; assumption.
  - intros _ q x H C. apply closed_mark; assumption.
  - intros e IHe Fe. apply IHe, Fe.
  - intros p IHp Fp q x H C. cbn [app]. apply closed_ellipsis, closed_app; [apply IHp, Fp|]. apply closed_mark; assumption.
Qed.
Lemma bindings_closed l : Forall formed_binding l -> closed (items_bindings l).
Proof.
  intros F. induction F as [|((kind & p) & e) l (Fp & Fe) _ IH]; [apply closed_nil|]. unfold items_bindings. cbn [map concat]. apply closed_app; [|exact IH].
  cbn [items_binding]. apply closed_word, closed_app; [apply pattern_closed, Fp|]. apply initializer_marked; [apply Fe|mark_in|apply closed_nil].
Qed.

(** ** The tokens are those of the tree *)
Lemma tk_squared x : tk (squared x) = in_squares (tk x).
Proof. unfold squared. rewrite tk_mark, tk_app. reflexivity. Qed.
Lemma initializer_tokens e : initial e -> phrase Assignment_ e (tk (items Pr_Assignment e)).
Proof. intros (W & F). apply assignment_phrase; assumption. Qed.
Lemma init_phrase o : optional initial o -> initializes o (tk (items_init o)).
Proof. intros W. destruct o as [e|]; [apply in_some, initializer_tokens, W|apply in_none]. Qed.
Lemma property_name_phrase n : formed_property_name n -> names n (tk (items_property_name n)).
Proof.
  destruct n as [v raw|v raw|s|e]; cbn [items_property_name].
  - intros (_ & ->). apply nm_identifier.
  - intros (-> & _). apply nm_string.
  - intros _. apply nm_number.
  - intros F. rewrite tk_squared. apply nm_computed, initializer_tokens, F.
Qed.
Lemma name_token id : bound_name id -> exists w, id = (w, None) /\ tok_of (items_name id) = TIdent w.
Proof. destruct id as [w raw]. intros (_ & R). cbn in R. subst. exists w. auto. Qed.
Lemma pattern_phrase :
  (forall p, formed_pattern p -> binds p (tk (items_pattern p))) /\
  (forall ps, formed_properties ps -> forall last x, binds_properties No_properties last x -> binds_properties ps last (tk (items_properties ps) ++ x)) /\
  (forall p, formed_property p -> binds_property p (tk (items_property p))) /\
  (forall l, formed_last_property l -> binds_properties No_properties l (tk (items_last_property l))) /\
  (forall es, formed_elements es -> forall last x, binds_elements No_elements last x -> binds_elements es last (tk (items_elements es) ++ x)) /\
  (forall e, formed_element e -> binds_element e (tk (items_element e))) /\
  (forall l, formed_last_element l -> binds_elements No_elements l (tk (items_last_element l))).
Proof.
  apply pattern_all;
    cbn [formed_pattern formed_properties formed_property formed_last_property formed_elements formed_element formed_last_element
      items_pattern items_properties items_property items_last_property items_elements items_element items_last_element].
  - intros id F. destruct (name_token id F) as (w & -> & E). apply bd_name.
  - intros ps IHp last IHl (Fp & Fl). rewrite tk_curlied, tk_app. apply bd_object, IHp; [exact Fp|apply IHl, Fl].
  - intros es IHe last IHl (Fe & Fl). rewrite tk_squared, tk_app. apply bd_array, IHe; [exact Fe|apply IHl, Fl].
  - intros _ last x H. exact H.
  - intros p IHp ps IHs (Fp & Fs) last x H. rewrite tk_app, tk_mark, <- app_assoc. apply bp_more; [apply IHp, Fp|]. apply IHs; assumption.
  - intros id init (Fn & Fi). destruct (name_token id Fn) as (w & -> & E). apply (bq_name w init (tk (items_init init))), init_phrase, Fi.
  - intros n p IHp init (Fn & Fp & Fi). rewrite tk_app, tk_mark, tk_app. apply bq_pattern; [apply property_name_phrase, Fn|apply IHp, Fp|apply init_phrase, Fi].
  - intros _. apply bp_none.
  - intros p IHp Fp. apply bp_last, IHp, Fp.
  - intros id F. destruct (name_token id F) as (w & -> & E). apply bp_rest.
  - intros _ last x H. exact H.
  - intros es IHe Fe last x H. rewrite tk_mark. apply be_hole, IHe; assumption.
  - intros e IHe es IHs (Fe & Fs) last x H. rewrite tk_app, tk_mark, <- app_assoc. apply be_more; [apply IHe, Fe|]. apply IHs; assumption.
  - intros p IHp init (Fp & Fi). rewrite tk_app. apply bm_element; [apply IHp, Fp|apply init_phrase, Fi].
  - intros _. apply be_none.
  - intros e IHe Fe. apply be_last, IHe, Fe.
  - intros p IHp Fp. rewrite tk_mark. apply be_rest, IHp, Fp.
Qed.
Lemma binding_phrase d : formed_binding d -> binding d (tk (items_binding d)).
Proof.
  destruct d as ((kind & p) & e). intros (Fp & Fe). cbn [items_binding]. rewrite tk_word, keyword_declares, tk_app. unfold items_initializer. cbn [app]. rewrite tk_mark, tk_app.
  apply bi_declaration; [apply pattern_phrase, Fp|apply initializer_tokens, Fe].
Qed.

Theorem bindings_shown checks l : Forall formed_binding l ->
  exists ls ps, Forall2 binding l ls /\
    map word_token ps = map (fun t => (false, t)) (concat ls) ++ [(false, TEOF)] /\
    printed checks [] ps (display (fmt_bindings l)).
Proof.
  intros F. destruct (bindings_closed l F) as ((G & A) & _). destruct (spells_all _ G) as (S & Sf).
  destruct (formatted checks (fmt_bindings l) (map tok_of (items_bindings l))) as (ps & M & P); rewrite ?(displayed_bindings l F); auto; [apply settled, Sf|].
  exists (map (fun d => tk (items_binding d)) l), ps. split; [|split; [|exact P]].
  - clear - F. induction F; cbn [map]; constructor; auto. apply binding_phrase. assumption.
  - rewrite M. do 2 f_equal. unfold items_bindings. clear. induction l as [|d l IH]; [reflexivity|]. cbn [map concat]. rewrite map_app, IH. reflexivity.
Qed.

(** ** The tokens are derived by the grammar *)
Lemma toks_squared x : toks (squared x) = pp SquareOpen :: toks x ++ [pp SquareClose].
Proof. unfold squared. rewrite toks_mark, toks_app. reflexivity. Qed.
Lemma initial_derived b e p m : initial e -> In p [Comma; CurlyClose; SquareClose; Semicolon] ->
  derives (g0 b) NInitializer (toks (items_initializer Pr_Assignment e) ++ pp p :: m) (pp p :: m).
Proof. intros (W & _) H. apply initializer_derived; [exact W|]. apply headed_mark. cbn in *. intuition. Qed.
Lemma name_derived n m b : formed_property_name n -> derives (g0 b) NPropertyName (toks (items_property_name n) ++ m) m.
Proof.
  intros F. destruct n as [v raw|v raw|s|e]; cbn [items_property_name].
  - production 0. terminal. apply d_end.
  - production 0. terminal. apply d_end.
  - production 0. terminal. apply d_end.
  - rewrite toks_squared. cbn [app]. rewrite <- app_assoc. cbn [app]. production 1. nonterminal; [|apply d_end]. production 0. terminal.
    eapply d_nonterminal; [apply (assignment_derived true e (pp SquareClose :: m)); [apply F|apply headed_mark; cbn; auto]|]. terminal. apply d_end.
Qed.
Lemma bound_token id b m : bound_name id -> derives (g0 b) NPatternOrName (toks [items_name id] ++ m) m.
Proof. intros (V & _). flat. production 1. apply d_token; [apply bindable_name; [destruct b; auto|exact V]|apply d_end]. Qed.
Lemma pattern_derived :
  (forall p, formed_pattern p -> restless p -> forall b m, derives (g0 b) NPatternOrName (toks (items_pattern p) ++ m) m /\
    ((exists id, p = Pt_name id) \/ derives (g0 b) NPattern (toks (items_pattern p) ++ m) m)) /\
  (forall ps, formed_properties ps -> restless_properties ps -> forall b m r, derives (g0 b) NPatternProperties m r ->
    derives (g0 b) NPatternProperties (toks (items_properties ps) ++ m) r) /\
  (forall p, formed_property p -> restless_property p -> forall b q m, In q [Comma; CurlyClose] ->
    derives (g0 b) NPatternProperty (toks (items_property p) ++ pp q :: m) (pp q :: m)) /\
  (forall l, formed_last_property l -> match l with No_last_property => True | Last_property p => restless_property p | Rest_property _ => False end ->
    forall b m, derives (g0 b) NPatternProperties (toks (items_last_property l) ++ pp CurlyClose :: m) (pp CurlyClose :: m)) /\
  (forall es, formed_elements es -> restless_elements es -> forall b m r, derives (g0 b) NPatternElements m r ->
    derives (g0 b) NPatternElements (toks (items_elements es) ++ m) r) /\
  (forall e, formed_element e -> restless_element e -> forall b q m, In q [Comma; SquareClose; CurlyClose] ->
    derives (g0 b) NPatternElement (toks (items_element e) ++ pp q :: m) (pp q :: m)) /\
  (forall l, formed_last_element l -> match l with No_last_element => True | Last_element e => restless_element e | Rest_element p => restless p end ->
    forall b m, derives (g0 b) NPatternElements (toks (items_last_element l) ++ pp SquareClose :: m) (pp SquareClose :: m)).
Proof.
  assert (El : forall p, (forall b m, derives (g0 b) NPatternOrName (toks (items_pattern p) ++ m) m) -> forall init, optional initial init -> forall b q m, In q [Comma; SquareClose; CurlyClose] ->
    derives (g0 b) NPatternElement (toks (items_pattern p ++ items_init init) ++ pp q :: m) (pp q :: m)).
  { intros p D init Fi b q m H. destruct init as [e|]; cbn [items_init items_option]; flat.
    - production 0. nonterminal; [apply D|]. eapply d_nonterminal; [apply (initial_derived true); [exact Fi|cbn in *; intuition]|apply d_end].
    - production 1. nonterminal; [apply D|]. cond; [cbn in H; repeat (destruct H as [<-|H]); try contradiction; reflexivity|apply d_end]. }
  apply pattern_all;
    cbn [formed_pattern formed_properties formed_property formed_last_property formed_elements formed_element formed_last_element
      restless restless_properties restless_property restless_elements restless_element
      items_pattern items_properties items_property items_last_property items_elements items_element items_last_element].
  - intros id F _ b m. split; [apply bound_token, F|left; eauto].
  - intros ps IHp last IHl (Fp & Fl) (Rp & Rl) b m.
    assert (D : derives (g0 b) NPattern (toks (curlied (items_properties ps ++ items_last_property last)) ++ m) m).
    { rewrite toks_curlied, toks_app. cbn [app]. rewrite <- !app_assoc. production 0. nonterminal; [|apply d_end]. production 0. terminal.
      eapply d_nonterminal; [apply (IHp Fp Rp b), (IHl Fl Rl b)|]. terminal. apply d_end. }
    split; [production 0; nonterminal; [exact D|apply d_end]|right; exact D].
  - intros es IHe last IHl (Fe & Fl) (Re & Rl) b m.
    assert (D : derives (g0 b) NPattern (toks (squared (items_elements es ++ items_last_element last)) ++ m) m).
    { rewrite toks_squared, toks_app. cbn [app]. rewrite <- !app_assoc. production 1. nonterminal; [|apply d_end]. production 0. terminal.
      eapply d_nonterminal; [apply (IHe Fe Re b), (IHl Fl Rl b)|]. terminal. apply d_end. }
    split; [production 0; nonterminal; [exact D|apply d_end]|right; exact D].
  - intros _ _ b m r D. exact D.
  - intros p IHp ps IHs (Fp & Fs) (Rp & Rs) b m r D. flat. production 0. nonterminal; [apply IHp; auto; cbn; auto|]. terminal. nonterminal; [apply IHs; auto; exact D|apply d_end].
  - intros id init ((V & _) & Fi) _ b q m H. destruct init as [e|]; cbn [items_init items_option]; flat.
    + production 1. nonterminal; [production 0; terminal; apply d_end|]. eapply d_nonterminal; [apply (initial_derived true); [exact Fi|cbn in *; intuition]|apply d_end].
    + production 2. nonterminal; [production 0; terminal; apply d_end|]. cond; [cbn in H; repeat (destruct H as [<-|H]); try contradiction; reflexivity|apply d_end].
  - intros n p IHp init (Fn & Fp & Fi) R b q m H. rewrite toks_app, <- app_assoc, toks_mark. cbn [app pun]. production 0. nonterminal; [apply name_derived, Fn|]. terminal.
    nonterminal; [|apply d_end]. apply El; [intros b' m'; apply IHp; auto|exact Fi|cbn in *; intuition].
  - intros _ _ b m. production 2. cond; [reflexivity|apply d_end].
  - intros p IHp Fp R b m. production 1. nonterminal; [apply IHp; auto; cbn; auto|]. cond; [reflexivity|apply d_end].
  - intros id _ [].
  - intros _ _ b m r D. exact D.
  - intros es IHe Fe R b m r D. flat. production 2. terminal. nonterminal; [apply IHe; auto; exact D|apply d_end].
  - intros e IHe es IHs (Fe & Fs) (Re & Rs) b m r D. flat. production 1. nonterminal; [apply IHe; auto; cbn; auto|]. terminal. nonterminal; [apply IHs; auto; exact D|apply d_end].
  - intros p IHp init (Fp & Fi) R b q m H. apply El; [intros b' m'; apply IHp; auto|exact Fi|exact H].
  - intros _ _ b m. production 4. cond; [reflexivity|apply d_end].
  - intros e IHe Fe R b m. production 3. nonterminal; [apply IHe; auto; cbn; auto|]. cond; [reflexivity|apply d_end].
  - intros p IHp Fp R b m. flat. production 0. nonterminal; [|apply d_end]. production 0. terminal. nonterminal; [apply IHp; auto|apply d_end].
Qed.
Lemma binding_derived d m : formed_binding d -> restless_binding d -> derives (g0 false) NScriptItem (toks (items_binding d) ++ m) m.
Proof.
  destruct d as ((kind & p) & e). intros (Fp & Fe) R. unfold restless_binding in R. cbn [fst snd] in R. cbn [items_binding]. rewrite toks_word, !toks_app. cbn [app]. rewrite <- !app_assoc.
  change (toks [Mark Fp_Semicolon] ++ m) with (pp Semicolon :: m).
  assert (I : forall b, derives (g0 b) NInitializer (toks (items_initializer Pr_Assignment e) ++ pp Semicolon :: m) (pp Semicolon :: m)) by (intros b; apply initial_derived; [exact Fe|cbn; auto]).
  assert (D : forall b n t, kind = D_var /\ b = true /\ n = NVariable \/ (kind <> D_var /\ b = false /\ n = NLexical (lexical_kind kind)) ->
    t = toks (items_initializer Pr_Assignment e) ++ pp Semicolon :: m -> derives (g0 b) n (toks (items_pattern p) ++ t) (pp Semicolon :: m)).
  { intros b n t H ->. destruct (proj1 pattern_derived p Fp R b (toks (items_initializer Pr_Assignment e) ++ pp Semicolon :: m)) as (_ & [(id & ->)|D]).
    - cbn [items_pattern]. flat. destruct Fp as (V & _).
      destruct H as [(-> & -> & ->)|(_ & -> & ->)]; production 1; (apply d_token; [apply bindable_name; auto|]); (nonterminal; [apply I|apply d_end]).
    - destruct H as [(-> & -> & ->)|(_ & -> & ->)]; production 0; (nonterminal; [exact D|]); (nonterminal; [apply I|apply d_end]). }
  destruct kind.
  - production 1. cond; [reflexivity|]. nonterminal; [|apply d_end]. production 2. nonterminal; [|apply d_end]. production 0. terminal.
    eapply d_nonterminal; [apply (D true NVariable); auto|]. nonterminal; [production 1; cond; [reflexivity|apply d_end]|]. apply d_semicolon, d_end.
  - production 0. nonterminal; [|apply d_end]. production 2. nonterminal; [|apply d_end]. production 0. terminal.
    nonterminal; [apply (D false (NLexical false)); [right; split; [discriminate|auto]|reflexivity]|]. nonterminal; [production 1; cond; [reflexivity|apply d_end]|]. apply d_semicolon, d_end.
  - production 0. nonterminal; [|apply d_end]. production 3. nonterminal; [|apply d_end]. production 0. terminal.
    nonterminal; [apply (D false (NLexical true)); [right; split; [discriminate|auto]|reflexivity]|]. nonterminal; [production 1; cond; [reflexivity|apply d_end]|]. apply d_semicolon, d_end.
Qed.
Lemma bindings_program l : Forall formed_binding l -> Forall restless_binding l -> program (toks (items_bindings l) ++ [(false, TEOF)]).
Proof.
  intros F R. production 0. apply d_nonterminal with (m := [(false, TEOF)]); [cbn [changed fold_left]|terminal; apply d_end].
  induction F as [|d l Fd _ IH]; inversion_clear R; unfold items_bindings; cbn [map concat].
  - production 1. cond; [reflexivity|apply d_end].
  - rewrite toks_app, <- app_assoc. production 0. nonterminal; [production 0; nonterminal; [apply binding_derived; assumption|apply d_end]|]. nonterminal; [apply IH; assumption|apply d_end].
Qed.
Theorem bindings_accepted E r n l : Forall formed_binding l -> Forall restless_binding l ->
  length (display (fmt_bindings l)) < r -> 20 * length (display (fmt_bindings l)) + 80 <= n ->
  parse_root E r n (display (fmt_bindings l)) = Accepted.
Proof.
  intros F Q R N. destruct (bindings_closed l F) as ((G & A) & _). destruct (spells_all _ G) as (S & Sf).
  apply (formatted_accepted E r n (fmt_bindings l) (map tok_of (items_bindings l))); rewrite ?(displayed_bindings l F); auto; [apply settled, Sf|].
  rewrite map_map. apply bindings_program; assumption.
Qed.
