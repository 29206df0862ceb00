(** The tokens of displayed expressions are derived by the grammar. *)
From Coq Require Import String List NArith Bool Arith Lia.
From Verif Require Import Base Tokens SpecTokens SpecHints ByteFacts ParserCore SpecParser SpecGrammar SpecLanguage
  Formatter SpecFormatter Nodes SpecNodes NodeItems.
Import ListNotations.

(** The parameters; [b] tells whether the operator [in] is allowed. *)
Definition g0 (b : bool) : grammar_flags := set_flag no_parameters FIn b.
Lemma one_of_in b l t : one_of (g0 b) l t = one_of (g0 true) l t.
Proof. destruct b; [reflexivity|]. unfold one_of. induction l as [|x l IH]; [reflexivity|]. cbn [existsb]. rewrite IH. destruct x, t; reflexivity. Qed.
Definition pp (p : punctuator) : lookahead := (false, TPunctuator p).
Definition kw (k : fkeyword) : lookahead := (false, TIdent (fkeyword_text k)).

Tactic Notation "production" integer(n) := eapply by_production; [cbn [prods app]; do n (apply in_cons); apply in_eq|].
Ltac terminal := apply d_token; [reflexivity|].
Ltac cond := apply d_condition; [|].
Ltac nonterminal := eapply d_nonterminal; [cbn [changed fold_left]|].

(** What follows an expression: its first token. In the head of a [for], it can be a word. *)
Definition headed (b : bool) (l : list punctuator) (m : tokens) : Prop :=
  exists x m', m = x :: m' /\ ((exists p, In p l /\ x = pp p) \/ x = (false, TEOF) \/ b = false /\ (x = kw Fk_In \/ x = kw Fk_Of)).
Definition enders := [Comma; ParenClose; SquareClose; Colon; Semicolon; CurlyClose].
Ltac heads H := destruct H as (?x & ?m' & -> & [(?p & H & ->)|[->|(H & [->| ->])]]); [cbn [In enders] in H; repeat (destruct H as [<-|H]); try contradiction H| |try discriminate H; subst|try discriminate H; subst].

Lemma headed_weaker b l l' m : (forall p, In p l -> In p l') -> headed b l m -> headed b l' m.
Proof. intros I (x & m' & -> & [(p & H & ->)|H]); eexists _, _; (split; [reflexivity|]); [left; exists p; auto|right; exact H]. Qed.
Lemma headed_mark b l p m : In p l -> headed b l (pp p :: m).
Proof. intros H. eexists _, _. split; [reflexivity|]. left. exists p. auto. Qed.

Definition okstart (t : token) : Prop :=
  one_of (g0 true) (K "await" :: unary_operator) t = false /\ one_of (g0 true) [K "async"] t = false /\ one_of (g0 true) [P Ellipsis] t = false /\
  one_of no_parameters declaration_keyword t = false /\ one_of no_parameters statement_keyword t = false /\
  one_of no_parameters [K "else"; K "finally"] t = false /\ t <> TPunctuator Colon.
Definition start (a : tokens) : Prop :=
  exists t a', a = (false, t) :: a' /\ okstart t /\ (forall u a'', a' = u :: a'' -> snd u <> TPunctuator Colon).

Definition assign (a : tokens) : Prop := start a /\ forall b m, headed b enders m -> derives (g0 b) NAssignment (a ++ m) m.

Definition operand (a : tokens) : Prop := forall b m, headed b (Question :: enders) m -> derives (g0 b) (NLeftHand true) (a ++ m) m.

Lemma operand_binary a : start a -> operand a -> forall b m, headed b (Question :: enders) m -> derives (g0 b) NBinary (a ++ m) m.
Proof.
  intros (t & a' & -> & (S & _) & _) O b m H. specialize (O b m H). production 0. nonterminal.
  - production 2. cond; [unfold no; cbn [next hd app snd]; rewrite one_of_in, S; reflexivity|]. nonterminal; [|apply d_end].
    production 2. nonterminal; [exact O|]. cond; [heads H; reflexivity|apply d_end].
  - nonterminal; [|apply d_end]. destruct b; [production 2|production 3]; (cond; [reflexivity|]); (cond; [heads H; reflexivity|apply d_end]).
Qed.
Lemma not_async b t a' : okstart t -> no_pair [K "async"] true [Bind] (g0 b) ((false, t) :: a') = true.
Proof. intros (_ & S & _). unfold no_pair, pair. cbn [next hd snd]. rewrite one_of_in, S. reflexivity. Qed.
Lemma operand_assign a : start a -> operand a -> assign a.
Proof.
  intros S O. split; [exact S|]. intros b m H. pose proof (operand_binary a S O b m) as B. destruct S as (t & a' & -> & S & _).
  production 4. cond; [apply not_async, S|]. nonterminal.
  - production 1. nonterminal; [apply B|]; [apply (headed_weaker b enders); [intros p I; right; exact I|exact H]|].
    cond; [heads H; reflexivity|apply d_end].
  - cond; [heads H; reflexivity|apply d_end].
Qed.
Lemma start_app a b : start a -> (exists p b', p <> Colon /\ b = pp p :: b') -> start (a ++ b).
Proof.
  intros (t & a' & -> & S & C) (p & b' & N & ->). exists t, (a' ++ pp p :: b'). split; [reflexivity|]. split; [exact S|].
  intros u x. destruct a' as [|v a']; cbn; intros Q; injection Q as <- <-; [cbn; congruence|eapply C; reflexivity].
Qed.
Lemma conditional_assign t c a : start t -> operand t -> assign c -> assign a -> assign (t ++ pp Question :: c ++ pp Colon :: a).
Proof.
  intros S O (Sc & C) (Sa & A). split; [apply start_app; [exact S|]; exists Question; eexists; split; [discriminate|reflexivity]|].
  intros b m H. pose proof (operand_binary t S O b (pp Question :: c ++ pp Colon :: a ++ m)) as B. destruct S as (x & a' & -> & S & _).
  rewrite <- app_assoc. cbn [app]. rewrite <- app_assoc. cbn [app].
  production 4. cond; [apply not_async, S|]. nonterminal.
  - production 0. nonterminal; [apply B; apply headed_mark; cbn; auto|].
    terminal. nonterminal; [apply C; apply headed_mark; cbn; auto|]. terminal. nonterminal; [apply A, H|apply d_end].
  - cond; [heads H; reflexivity|apply d_end].
Qed.

(** ** Operands *)
Definition primary (h : tokens) : Prop :=
  start h /\ forall b m, (exists x m', m = x :: m' /\ ((exists p, x = pp p) \/ x = (false, TEOF) \/ x = kw Fk_In \/ x = kw Fk_Of)) -> derives (g0 b) NPrimary (h ++ m) m.
Definition access_ (x : tokens) : Prop :=
  (exists x', x = pp Period :: x' \/ x = pp SquareOpen :: x') /\
  forall b c m r, derives (g0 b) (NLeftHandTail c) m r -> derives (g0 b) (NLeftHandTail c) (x ++ m) r.
Definition arguments (x : tokens) : Prop :=
  (exists x', x = pp ParenOpen :: x') /\
  forall b m r, derives (g0 b) (NLeftHandTail true) m r -> derives (g0 b) (NLeftHandTail true) (x ++ m) r.
Inductive lhs : tokens -> Prop :=
| l_primary h : primary h -> lhs h
| l_super : lhs [kw Fk_Super]
| l_new t : lhs t -> lhs (kw Fk_New :: t)
| l_access t x : lhs t -> access_ x -> lhs (t ++ x)
| l_call t x : lhs t -> arguments x -> lhs (t ++ x).

Lemma word_start k : In k [Fk_Super; Fk_New; Fk_This; Fk_Null; Fk_True; Fk_False] -> okstart (TIdent (fkeyword_text k)).
Proof. cbn [In]. intros H. repeat (destruct H as [<-|H]); try contradiction; repeat (split; [reflexivity|]); discriminate. Qed.
Lemma lhs_start t : lhs t -> start t.
Proof.
  induction 1 as [h [S _]| |t L (u & a' & -> & S & C)|t x L IH [(x' & [->| ->]) _]|t x L IH [(x' & ->) _]].
  - exact S.
  - eexists _, []. split; [reflexivity|]. split; [apply word_start; cbn; auto|discriminate].
  - eexists _, _. split; [reflexivity|]. split; [apply word_start; cbn; auto|]. intros v a'' Q. injection Q as <- <-. apply S.
  - apply start_app; [exact IH|]. eexists _, _. split; [|reflexivity]. discriminate.
  - apply start_app; [exact IH|]. eexists _, _. split; [|reflexivity]. discriminate.
  - apply start_app; [exact IH|]. eexists _, _. split; [|reflexivity]. discriminate.
Qed.

(** A member expression without [new] in front. *)
Definition member_head (h : tokens) : Prop := primary h \/ h = [kw Fk_Super].
Definition segment (x : tokens) : Prop := access_ x \/ arguments x.
Lemma lhs_normal t : lhs t -> exists k h xs, t = repeat (kw Fk_New) k ++ h ++ concat xs /\ member_head h /\ Forall segment xs.
Proof.
  induction 1 as [h P| |t L (k & h & xs & -> & H & X)|t x L (k & h & xs & -> & H & X) A|t x L (k & h & xs & -> & H & X) A].
  - exists 0, h, []. cbn. rewrite app_nil_r. repeat split; [left; exact P|constructor].
  - exists 0, [kw Fk_Super], []. cbn. repeat split; [right; reflexivity|constructor].
  - exists (S k), h, xs. auto.
  - exists k, h, (xs ++ [x]). rewrite concat_app. cbn. rewrite app_nil_r, !app_assoc. repeat split; auto. apply Forall_app. split; [exact X|]. constructor; [left; exact A|constructor].
  - exists k, h, (xs ++ [x]). rewrite concat_app. cbn. rewrite app_nil_r, !app_assoc. repeat split; auto. apply Forall_app. split; [exact X|]. constructor; [right; exact A|constructor].
Qed.
Lemma tail_end b m : headed b (Question :: enders) m -> derives (g0 b) (NLeftHandTail true) m m.
Proof. intros H. production 4. cond; [heads H; reflexivity|apply d_end]. Qed.
Lemma tail_all b xs m : Forall segment xs -> headed b (Question :: enders) m -> derives (g0 b) (NLeftHandTail true) (concat xs ++ m) m.
Proof.
  intros X H. induction X as [|x xs [A|A] _ IH]; cbn [concat app]; [apply tail_end, H| |]; rewrite <- app_assoc; apply A, IH.
Qed.
(** Up to the first arguments. *)
Lemma tail_accesses b xs m : Forall segment xs -> headed b (Question :: enders) m -> exists ys, Forall segment ys /\
  derives (g0 b) (NLeftHandTail false) (concat xs ++ m) (concat ys ++ m) /\ derives (g0 b) (NLeftHandTail false) (concat ys ++ m) (concat ys ++ m).
Proof.
  intros X H. induction X as [|x xs S X IH].
  - exists []. split; [constructor|]. cbn [concat app]. split; production 3; (cond; [heads H; reflexivity|apply d_end]).
  - destruct S as [A|A].
    + destruct IH as (ys & Y & D & D'). exists ys. split; [exact Y|]. split; [|exact D']. cbn [concat]. rewrite <- app_assoc. apply A, D.
    + exists (x :: xs). split; [constructor; [right; exact A|exact X]|]. destruct A as [(x' & ->) _]. split; production 3; (cond; [reflexivity|apply d_end]).
Qed.
Definition follows (m : tokens) : Prop := exists x m', m = x :: m' /\ ((exists p, x = pp p) \/ x = (false, TEOF) \/ x = kw Fk_In \/ x = kw Fk_Of).
Lemma headed_concat b xs m : Forall segment xs -> headed b (Question :: enders) m -> follows (concat xs ++ m).
Proof.
  intros X (x & m' & -> & H). destruct X as [|y xs [[(x' & [->| ->]) _]|[(x' & ->) _]] _]; cbn [concat app]; (eexists _, _; split; [reflexivity|]);
    try (left; eexists; reflexivity). destruct H as [(p & _ & ->)|[->|(_ & H)]]; [left; eexists; reflexivity|right; left; reflexivity|right; right; exact H].
Qed.
Lemma member_false b k h xs m : member_head h -> Forall segment xs -> headed b (Question :: enders) m -> exists ys, Forall segment ys /\
  derives (g0 b) (NLeftHand false) (repeat (kw Fk_New) k ++ h ++ concat xs ++ m) (concat ys ++ m).
Proof.
  intros Hh X H. destruct (tail_accesses b xs m X H) as (ys & Y & D & D'). exists ys. split; [exact Y|].
  induction k as [|k IH]; cbn [repeat app].
  - destruct Hh as [[_ P]| ->].
    + production 1. nonterminal; [apply P, (headed_concat b xs m X H)|]. nonterminal; [exact D|apply d_end].
    + production 2. terminal. nonterminal; [exact D|apply d_end].
  - production 0. terminal. nonterminal; [exact IH|]. nonterminal; [exact D'|apply d_end].
Qed.
Lemma lhs_operand t : lhs t -> operand t.
Proof.
  intros L b m H. destruct (lhs_normal t L) as (k & h & xs & -> & Hh & X). rewrite <- !app_assoc. destruct k as [|k]; cbn [repeat app].
  - destruct Hh as [[_ P]| ->].
    + production 1. nonterminal; [apply P, (headed_concat b xs m X H)|]. nonterminal; [apply tail_all; auto|apply d_end].
    + production 2. terminal. nonterminal; [apply tail_all; auto|apply d_end].
  - destruct (member_false b k h xs m Hh X H) as (ys & Y & D). production 0. terminal. nonterminal; [exact D|]. nonterminal; [apply tail_all; auto|apply d_end].
Qed.
Lemma lhs_assign t : lhs t -> assign t.
Proof. intros L. apply operand_assign; [apply lhs_start, L|apply lhs_operand, L]. Qed.

(** ** Lists *)
Definition listed (x : tokens) : Prop := exists a l, assign a /\ Forall assign l /\ x = a ++ concat (map (cons (pp Comma)) l).
Lemma assign_listed a : assign a -> listed a.
Proof. intros A. exists a, []. cbn. rewrite app_nil_r. auto. Qed.
Lemma listed_app x a : listed x -> assign a -> listed (x ++ pp Comma :: a).
Proof.
  intros (b & l & B & L & ->) A. exists b, (l ++ [a]). split; [exact B|]. split; [apply Forall_app; auto|].
  rewrite map_app, concat_app. cbn. rewrite app_nil_r, app_assoc. reflexivity.
Qed.
Lemma listed_start x : listed x -> start x.
Proof.
  intros (a & [|b l] & (S & _) & _ & ->); cbn [map concat]; [rewrite app_nil_r; exact S|]. apply start_app; [exact S|].
  cbn [app]. eexists _, _. split; [|reflexivity]. discriminate.
Qed.
Definition closers := [ParenClose; SquareClose; Colon; Semicolon; CurlyClose].
Lemma next_ender b l m : headed b closers m -> headed b enders (concat (map (cons (pp Comma)) l) ++ m).
Proof.
  intros H. destruct l as [|y l]; cbn [map concat app]; [|apply headed_mark; cbn; auto].
  apply (headed_weaker b closers); [|exact H]. cbn. intuition.
Qed.
Lemma listed_expression b x m : listed x -> headed b closers m -> derives (g0 b) NExpression (x ++ m) m.
Proof.
  intros (a & l & (_ & A) & L & ->) H. production 0. rewrite <- app_assoc. nonterminal; [apply A, next_ender, H|]. nonterminal; [|apply d_end].
  induction L as [|y l (_ & B) L IH]; cbn [map concat app].
  - production 1. cond; [clear A; heads H; reflexivity|apply d_end].
  - production 0. terminal. rewrite <- app_assoc. nonterminal; [apply B, next_ender, H|]. nonterminal; [exact IH|apply d_end].
Qed.
Lemma no_ellipsis b a m : start a -> no [P Ellipsis] (g0 b) (a ++ m) = true.
Proof. intros (t & a' & -> & (_ & _ & S & _) & _). unfold no. cbn [next hd app snd]. rewrite one_of_in, S. reflexivity. Qed.
Lemma listed_parenthesized x : listed x -> primary (pp ParenOpen :: x ++ [pp ParenClose]).
Proof.
  intros X. pose proof (listed_start x X) as S. destruct X as (a & l & (_ & A) & L & Q). split.
  - destruct S as (t & a' & -> & (_ & _ & _ & _ & _ & _ & N) & _). eexists _, _. split; [reflexivity|]. split; [repeat (split; [reflexivity|]); discriminate|].
    intros u a'' E. injection E as <- _. exact N.
  - intros b m _. subst x. clear S. production 5. nonterminal; [|apply d_end]. production 0. cbn [app]. rewrite <- !app_assoc. cbn [app]. terminal.
    assert (H : headed b closers (pp ParenClose :: m)) by (apply headed_mark; cbn; auto).
    apply d_nonterminal with (m := pp ParenClose :: m); [cbn [changed fold_left]|terminal; apply d_end]. production 0. nonterminal; [apply A, next_ender, H|]. nonterminal; [|apply d_end].
    induction L as [|y l (Sb & B) L IH]; cbn [map concat app].
    + production 2. cond; [reflexivity|apply d_end].
    + production 1. terminal. rewrite <- app_assoc. cond; [apply no_ellipsis, Sb|]. nonterminal; [apply B, next_ender, H|]. nonterminal; [exact IH|apply d_end].
Qed.
Lemma computed_access x : listed x -> access_ (pp SquareOpen :: x ++ [pp SquareClose]).
Proof.
  intros X. split; [eexists; right; reflexivity|]. intros b c m r D. production 1. cbn [app]. rewrite <- app_assoc. cbn [app]. terminal.
  nonterminal; [apply (listed_expression _ x _ X); apply headed_mark; cbn; auto|]. terminal. nonterminal; [exact D|apply d_end].
Qed.
Lemma named_access w : access_ [pp Period; (false, TIdent w)].
Proof.
  split; [eexists; left; reflexivity|]. intros b c m r D. production 0. cbn [app]. terminal. terminal. nonterminal; [exact D|apply d_end].
Qed.

(** ** Arguments *)
Definition derives_args (plain_only : bool) (x : tokens) : Prop := forall m, derives (g0 true)
  (if plain_only then NPlainArgumentList else NArgumentList) (x ++ pp ParenClose :: m) (pp ParenClose :: m).
Lemma args_arguments x : derives_args false x -> arguments (pp ParenOpen :: x ++ [pp ParenClose]).
Proof.
  intros A. split; [eexists; reflexivity|]. intros b m r D. production 3. nonterminal; [|nonterminal; [exact D|apply d_end]].
  production 0. cbn [app]. rewrite <- app_assoc. cbn [app]. terminal. nonterminal; [apply A|]. terminal. apply d_end.
Qed.
Lemma args_none b : derives_args b [].
Proof.
  intros m. assert (P : derives (g0 true) NPlainArgumentList (pp ParenClose :: m) (pp ParenClose :: m)) by (production 2; cond; [reflexivity|apply d_end]).
  destruct b; [exact P|]. production 2. cond; [reflexivity|]. nonterminal; [exact P|apply d_end].
Qed.
Lemma headed_comma b m : headed b enders (pp Comma :: m).
Proof. apply headed_mark. cbn. auto. Qed.
Lemma headed_paren b m : headed b enders (pp ParenClose :: m).
Proof. apply headed_mark. cbn. auto. Qed.
Lemma args_plain_any x b : start x -> derives_args true x -> derives_args b x.
Proof.
  intros S D m. destruct b; [apply D|]. production 2. cond; [apply no_ellipsis, S|]. nonterminal; [apply D|apply d_end].
Qed.
Lemma args_one a b : assign a -> derives_args b a.
Proof.
  intros (S & A). apply args_plain_any; [exact S|]. intros m. production 1. nonterminal; [apply A, headed_paren|]. cond; [reflexivity|apply d_end].
Qed.
Lemma args_cons a x b : assign a -> derives_args false x -> derives_args b (a ++ pp Comma :: x).
Proof.
  intros (S & A) X. apply args_plain_any; [apply start_app; [exact S|]; eexists _, _; split; [|reflexivity]; discriminate|]. intros m. production 0.
  rewrite <- app_assoc. cbn [app]. nonterminal; [apply A, headed_comma|]. terminal. nonterminal; [apply X|apply d_end].
Qed.
Lemma args_spread a : assign a -> derives_args false (pp Ellipsis :: a).
Proof. intros (S & A) m. production 1. cbn [app]. terminal. nonterminal; [apply A, headed_paren|]. cond; [reflexivity|apply d_end]. Qed.
Lemma args_spread_cons a x : assign a -> derives_args true x -> derives_args false (pp Ellipsis :: a ++ pp Comma :: x).
Proof.
  intros (S & A) X m. production 0. cbn [app]. rewrite <- app_assoc. cbn [app]. terminal. nonterminal; [apply A, headed_comma|]. terminal. nonterminal; [apply X|apply d_end].
Qed.
Lemma commas_cons a b l : a ++ concat (map (cons (pp Comma)) (b :: l)) = a ++ pp Comma :: b ++ concat (map (cons (pp Comma)) l).
Proof. reflexivity. Qed.
Lemma args_listed x b : listed x -> derives_args b x.
Proof.
  intros (a & l & A & L & ->). revert a A b. induction L as [|c l C L IH]; intros a A b.
  - cbn. rewrite app_nil_r. apply args_one, A.
  - rewrite commas_cons. apply args_cons; [exact A|]. apply IH, C.
Qed.
Lemma args_spread_listed x : listed x -> derives_args false (pp Ellipsis :: x).
Proof.
  intros (a & [|c l] & A & L & ->).
  - cbn. rewrite app_nil_r. apply args_spread, A.
  - rewrite commas_cons. inversion L; subst. apply args_spread_cons; [exact A|]. apply args_listed. exists c, l. auto.
Qed.

(** ** Expressions *)
Definition pun (p : fpunct) : punctuator :=
  match p with
  | Fp_ParenL => ParenOpen | Fp_ParenR => ParenClose | Fp_SquareL => SquareOpen | Fp_SquareR => SquareClose | Fp_Comma => Comma
  | Fp_Period => Period | Fp_Question => Question | Fp_Colon => Colon | Fp_Ellipsis => Ellipsis
  | Fp_CurlyL => CurlyOpen | Fp_CurlyR => CurlyClose | Fp_Eq => Eq_ | Fp_Star => Star | _ => Semicolon
  end.
Definition tok_of (i : item) : token :=
  match i with
  | Word w => TIdent w
  | Mark p => TPunctuator (pun p)
  | Number s => TNumeric f64_zero
  | Quoted s | Verbatim s => TString s
  | Slashed v fl => TRegExp v fl
  end.
Definition toks (l : list item) : tokens := map (fun i => (false, tok_of i)) l.

Lemma plain_word l w : plain w = true ->
  (forall v, In v l -> In v (reserved_words ++ strict_reserved_words ++ ["yield"; "await"]%string)) -> word_in l w = false.
Proof.
  unfold plain. rewrite negb_true_iff. intros P I. destruct (word_in l w) eqn:E; [|reflexivity]. rewrite <- P. symmetry.
  unfold word_in in *. apply existsb_exists in E. destruct E as (v & V & B). apply existsb_exists. exists v. auto.
Qed.
Lemma keywords_word l w : existsb (fun t => match t with K v => beqb w (s2b v) | _ => false end) l = false ->
  (forall t, In t l -> match t with K _ | P _ => True | _ => False end) -> forall g, one_of g l (TIdent w) = false.
Proof.
  intros E I g. unfold one_of. destruct (existsb (fun t => matches g t (TIdent w)) l) eqn:F; [|reflexivity]. rewrite <- E. symmetry.
  apply existsb_exists in F. destruct F as (t & T & M). apply existsb_exists. exists t. split; [exact T|]. specialize (I t T). destruct t; try contradiction; exact M.
Qed.
Lemma not_word w v : plain w = true -> In v (reserved_words ++ strict_reserved_words ++ ["yield"; "await"]%string) -> beqb w (s2b v) = false.
Proof.
  intros P I. pose proof (plain_word [v] w P) as Q. unfold word_in in Q. cbn [existsb] in Q. rewrite orb_false_r in Q. apply Q. intros x [<-|[]]. exact I.
Qed.
Lemma variable_start w : variable w -> okstart (TIdent w).
Proof.
  intros (_ & P & N).
  assert (A : beqb w (s2b "async") = false). { destruct (beqb w (s2b "async")) eqn:B; [apply beqb_eq in B; contradiction|reflexivity]. }
  unfold okstart. repeat split; try discriminate; cbv [one_of existsb matches unary_operator declaration_keyword statement_keyword]; rewrite ?A; try reflexivity;
    repeat (rewrite (not_word w _ P); [|cbn; tauto]); reflexivity.
Qed.
Lemma variable_bindable w : variable w -> bindable (g0 true) w = true.
Proof.
  intros (_ & P & _). unfold bindable. rewrite (plain_word reserved_words w P) by (intros v I; apply in_or_app; auto).
  rewrite (plain_word ["await"%string] w P) by (intros v [<-|[]]; cbn; tauto). reflexivity.
Qed.
Lemma one_start t : okstart t -> start [(false, t)].
Proof. intros S. exists t, []. split; [reflexivity|]. split; [exact S|discriminate]. Qed.
Lemma variable_primary w : variable w -> primary [(false, TIdent w)].
Proof.
  intros V. split; [apply one_start, variable_start, V|]. intros b m (x & m' & -> & F). production 1. pose proof (variable_bindable w V) as B. cbn [app]. cond.
  - unfold no_pair, pair. destruct F as [(p & ->)|[->|[->| ->]]]; cbn; rewrite ?andb_false_r; reflexivity.
  - apply d_token; [rewrite one_of_in; unfold one_of; cbn [existsb matches]; rewrite B; reflexivity|apply d_end].
Qed.
Lemma word_primary k : In k [Fk_This; Fk_Null; Fk_True; Fk_False] -> primary [kw k].
Proof.
  intros H. split; [apply one_start, word_start; cbn in *; intuition|]. intros b m _. production 0. cbn [app].
  apply d_token; [|apply d_end]. cbn in H. repeat (destruct H as [<-|H]); try contradiction; reflexivity.
Qed.
Lemma literal_primary t : match t with TNumeric _ | TString _ => True | _ => False end -> primary [(false, t)].
Proof.
  intros H. split; [apply one_start; destruct t; try contradiction; repeat (split; [reflexivity|]); discriminate|]. intros b m _. production 0. cbn [app].
  apply d_token; [|apply d_end]. destruct t; try contradiction; reflexivity.
Qed.

(** What a list of tokens is good for, under a required precedence. *)
Definition suited (p : precedence) (x : tokens) : Prop :=
  listed x /\ (2 <= rank p -> assign x) /\ (4 <= rank p -> lhs x).
Lemma lhs_suited p x : lhs x -> suited p x.
Proof. intros L. pose proof (lhs_assign x L). split; [apply assign_listed, H|]. auto. Qed.
Lemma toks_app a b : toks (a ++ b) = toks a ++ toks b.
Proof. apply map_app. Qed.
Lemma toks_wrapped x : toks (wrapped x) = pp ParenOpen :: toks x ++ [pp ParenClose].
Proof. unfold wrapped. cbn [toks map]. fold (toks (x ++ [Mark Fp_ParenR])). rewrite toks_app. reflexivity. Qed.
Lemma wrapped_suited p x : listed (toks x) -> suited p (toks (wrapped x)).
Proof. intros L. rewrite toks_wrapped. apply lhs_suited, l_primary, listed_parenthesized, L. Qed.

Lemma items_suited :
  (forall e, well_formed e -> forall p, suited p (toks (items p e))) /\
  (forall a, well_formed_access a -> access_ (toks (items_access a))) /\
  (forall a, well_formed_argument a -> forall p, match a with Arg_expression e | Arg_spread e => suited p (toks (items p e)) end) /\
  (forall l, well_formed_args l -> forall x b, (forall b', no_spreads_in_a_row b' No_args x -> derives_args b' (toks (items_last x))) ->
     no_spreads_in_a_row b l x -> derives_args b (toks (items_args l ++ items_last x))) /\
  (forall x, well_formed_last x -> forall b, no_spreads_in_a_row b No_args x -> derives_args b (toks (items_last x))).
Proof.
  assert (ARGS : forall l x,
    (well_formed_args l -> forall x b, (forall b', no_spreads_in_a_row b' No_args x -> derives_args b' (toks (items_last x))) ->
      no_spreads_in_a_row b l x -> derives_args b (toks (items_args l ++ items_last x))) ->
    (well_formed_last x -> forall b, no_spreads_in_a_row b No_args x -> derives_args b (toks (items_last x))) ->
    well_formed_args l /\ well_formed_last x /\ no_spreads_in_a_row false l x ->
    arguments (toks (wrapped (items_args l ++ items_last x)))).
  { intros l x IHl IHx (Wl & Wx & N). rewrite toks_wrapped. apply args_arguments, IHl; auto. }
  apply node_ind; cbn [well_formed well_formed_access well_formed_argument well_formed_args well_formed_last items items_access items_argument items_args items_last].
  - intros value raw (V & _) p. apply lhs_suited, l_primary, variable_primary, V.
  - intros _ p. apply lhs_suited, l_primary, (word_primary Fk_This). cbn. auto.
  - intros _ p. apply lhs_suited, l_primary, (word_primary Fk_Null). cbn. auto.
  - intros b _ p. apply lhs_suited, l_primary, (word_primary (if b then Fk_True else Fk_False)). destruct b; cbn; auto.
  - intros s _ p. apply lhs_suited, l_primary, literal_primary. exact I.
  - intros value raw _ p. apply lhs_suited, l_primary, literal_primary. exact I.
  - contradiction.
  - intros o IHo a IHa (Wo & Wa & _) p. rewrite toks_app. apply lhs_suited, l_access; [apply (IHo Wo Pr_Member); cbn; lia|apply IHa, Wa].
  - intros a IHa Wa p. change (toks (word Fk_Super :: items_access a)) with ([kw Fk_Super] ++ toks (items_access a)). apply lhs_suited, l_access; [apply l_super|apply IHa, Wa].
  - intros c IHc l IHl x IHx (Wc & W) p. rewrite toks_app. apply lhs_suited, l_call; [apply (IHc Wc Pr_New); cbn; lia|apply ARGS; auto].
  - intros c IHc l IHl x IHx (Wc & W) p. assert (L : lhs (toks (word Fk_New :: items Pr_Member c ++ wrapped (items_args l ++ items_last x)))).
    { change (lhs (kw Fk_New :: toks (items Pr_Member c ++ wrapped (items_args l ++ items_last x)))). rewrite toks_app.
      apply l_new, l_call; [apply (IHc Wc Pr_Member); cbn; lia|apply ARGS; auto]. }
    destruct (below Pr_Member p); cbn [wrap_if]; [apply wrapped_suited, assign_listed, lhs_assign, L|apply lhs_suited, L].
  - intros c IHc Wc p. assert (L : lhs (toks (word Fk_New :: items Pr_New c))).
    { change (lhs (kw Fk_New :: toks (items Pr_New c))). apply l_new. apply (IHc Wc Pr_New). cbn. lia. }
    destruct (below Pr_New p); cbn [wrap_if]; [apply wrapped_suited, assign_listed, lhs_assign, L|apply lhs_suited, L].
  - contradiction.
  - intros l IHl x IHx W p. change (toks (word Fk_Super :: wrapped (items_args l ++ items_last x))) with ([kw Fk_Super] ++ toks (wrapped (items_args l ++ items_last x))).
    apply lhs_suited, l_call; [apply l_super|apply ARGS; auto].
  - intros t IHt c IHc a IHa (Wt & Wc & Wa) p.
    assert (A : assign (toks (items Pr_LogicalOr t ++ Mark Fp_Question :: items Pr_Assignment c ++ Mark Fp_Colon :: items Pr_Assignment a))).
    { rewrite toks_app. cbn [toks map]. fold (toks (items Pr_Assignment c ++ Mark Fp_Colon :: items Pr_Assignment a)). rewrite toks_app.
      assert (L : lhs (toks (items Pr_LogicalOr t))) by (apply (IHt Wt Pr_LogicalOr); cbn; lia).
      apply conditional_assign; [apply lhs_start, L|apply lhs_operand, L|apply (IHc Wc Pr_Assignment); cbn; lia|apply (IHa Wa Pr_Assignment); cbn; lia]. }
    unfold below. destruct (rank Pr_Conditional <? rank p) eqn:B; cbn [wrap_if]; [apply wrapped_suited, assign_listed, A|].
    split; [apply assign_listed, A|]. split; [auto|]. apply Nat.ltb_ge in B. cbn in B. intros C. lia.
  - intros x IHx y IHy (Wx & Wy) p.
    assert (L : listed (toks (items Pr_Normal x ++ Mark Fp_Comma :: items Pr_Assignment y))).
    { rewrite toks_app. apply listed_app; [apply (IHx Wx Pr_Normal)|apply (IHy Wy Pr_Assignment); cbn; lia]. }
    unfold below. destruct (rank Pr_Normal <? rank p) eqn:B; cbn [wrap_if]; [apply wrapped_suited, L|].
    apply Nat.ltb_ge in B. cbn in B. split; [exact L|]. split; intros C; lia.
  - intros value raw _. apply named_access.
  - intros e IHe We. cbn [toks map]. fold (toks (items Pr_Assignment e ++ [Mark Fp_SquareR])). rewrite toks_app. apply computed_access, (IHe We Pr_Assignment).
  - contradiction.
  - auto.
  - auto.
  - intros _ x b X N. apply X, N.
  - intros a IHa l IHl (Wa & Wl) x b X N. cbn [no_spreads_in_a_row] in N. destruct N as (Nb & N). specialize (IHl Wl x _ X N). specialize (IHa Wa Pr_Assignment).
    rewrite <- app_assoc, toks_app. cbn [app toks map]. fold (toks (items_args l ++ items_last x)). destruct a as [e|e]; cbn [items_argument spread] in *.
    + apply args_cons; [apply IHa; cbn; lia|exact IHl].
    + destruct b; [discriminate Nb|]. apply args_spread_cons; [apply IHa; cbn; lia|exact IHl].
  - intros _ b _. apply args_none.
  - intros a IHa Wa b N. specialize (IHa Wa Pr_Normal). cbn [no_spreads_in_a_row] in N. destruct a as [e|e]; cbn [items_argument spread] in *.
    + apply args_listed, IHa.
    + destruct b; [discriminate N|]. apply args_spread_listed, IHa.
Qed.

(** ** Scripts *)
Lemma no_colon g t : t <> TPunctuator Colon -> one_of g [P Colon] t = false.
Proof.
  intros N. unfold one_of. cbn [existsb matches]. destruct t; try reflexivity. destruct (punctuator_eq_dec Colon p) as [<-|]; [contradiction|reflexivity].
Qed.
Lemma script_program es : Forall well_formed es -> program (toks (items_script es) ++ [(false, TEOF)]).
Proof.
  intros W. production 0. apply d_nonterminal with (m := [(false, TEOF)]); [cbn [changed fold_left]|terminal; apply d_end].
  induction W as [|e es We _ IH]; unfold items_script; cbn [map concat].
  - production 1. cond; [reflexivity|apply d_end].
  - rewrite <- app_assoc. cbn [app]. rewrite !toks_app. cbn [toks map]. fold (toks (concat (map (fun e => items Pr_Normal e ++ [Mark Fp_Semicolon]) es))).
    fold (items_script es). set (rest := toks (items_script es) ++ [(false, TEOF)]) in *. rewrite <- app_assoc. cbn [app tok_of pun].
    fold (pp Semicolon). fold rest. pose proof (proj1 items_suited e We Pr_Normal) as (L & _). pose proof (listed_start _ L) as S.
    pose proof (listed_expression true _ (pp Semicolon :: rest) L ltac:(apply headed_mark; cbn; auto)) as D.
    destruct S as (t & a' & Q & (_ & _ & _ & S1 & S2 & _) & C). rewrite Q in *.
    production 0. nonterminal; [|nonterminal; [exact IH|apply d_end]]. production 0. nonterminal; [|apply d_end]. production 1.
    cond; [unfold no; cbn [next hd app snd]; rewrite S1; reflexivity|]. nonterminal; [|apply d_end]. production 13. cond.
    + unfold both, no at 1, no_pair, pair. cbn [next hd app snd tl]. rewrite S2. cbn [negb andb].
      rewrite no_colon; [rewrite !andb_false_r; reflexivity|]. destruct a' as [|u a']; [discriminate|]. apply (C u a' eq_refl).
    + nonterminal; [|apply d_end]. production 0. eapply d_nonterminal; [exact D|]. apply d_semicolon, d_end.
Qed.
