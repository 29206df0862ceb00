(** How displayed expressions begin. *)
From Coq Require Import String List Arith NArith Bool Lia.
From Verif Require Import Base ByteFacts Formatter SpecFormatter FormatterFacts Nodes NodeItems Statements SpecBeginnings.
Import ListNotations.

(** If the first item is [let], then [let] is the whole expression or another item than [p] follows. *)
Definition harmless (p : fpunct) (e : expression) (l : list item) : Prop :=
  match l with
  | [] => False
  | i :: l' => i = Word (s2b "let") ->
    match l' with [] => exists raw, e = E_binding (s2b "let") raw | j :: _ => j <> Mark p end
  end.
(** Under the restriction [r], [let] is not followed by [p]. *)
Definition kept_off (r : restriction) (p : fpunct) : Prop :=
  (p = Fp_SquareL /\ In S_LetSquare (forbidden (Some r))) \/ (p = Fp_Period /\ In S_Let (forbidden (Some r))).
Lemma harmless_app p e e' l j l' : harmless p e l -> j <> Mark p -> harmless p e' (l ++ j :: l').
Proof. intros H J. destruct l as [|i [|x l]]; [destruct H|intros E; exact J|exact H]. Qed.
Lemma harmless_other p e i l : i <> Word (s2b "let") -> harmless p e (i :: l).
Proof. intros N E. contradiction. Qed.
Lemma prints_then a b s r : fst (prints s r (a ;; b)) = fst (prints s r a) ++ fst (prints s (snd (prints s r a)) b).
Proof. rewrite prints_andthen. destruct (prints s r a) as [x r1]. cbn. destruct (prints s r1 b). reflexivity. Qed.
Lemma access_first a s r : exists j l, fst (prints s r (fmt_access a)) = j :: l /\ j = Mark match a with A_computed _ => Fp_SquareL | _ => Fp_Period end.
Proof.
  destruct a; cbn [fmt_access].
  - rewrite prints_then. eexists _, _. split; reflexivity.
  - rewrite prints_hold. eexists _, _. split; reflexivity.
  - rewrite prints_then. eexists _, _. split; reflexivity.
Qed.
Lemma first_harmless r p : kept_off r p -> forall e, let_unhidden e -> forall s, harmless p e (fst (prints s (Some r) (fmt_expression e))).
Proof.
  intros KO. assert (P : forall q, q <> Fp_SquareL -> q <> Fp_Period -> Mark q <> Mark p) by (intros q A B [= ->]; destruct KO as [(-> & _)|(-> & _)]; auto).
  induction e; intros U sc; cbn [fmt_expression];
    try (apply harmless_other; cbn; discriminate);
    try (rewrite prints_then; apply harmless_other; cbn; discriminate).
  - cbn. intros E. injection E as E. exists raw. f_equal. apply (U value raw eq_refl E).
  - destruct value; apply harmless_other; discriminate.
  - rewrite prints_hold. destruct (brackets _ sc (Some r)) as [b|] eqn:B; cbn [fst]; [apply harmless_other; discriminate|].
    rewrite prints_then. cbn [within]. rewrite prints_hold. cbn [brackets within fst snd].
    match goal with |- harmless _ _ (_ ++ fst (prints ?s ?r (fmt_access property))) => destruct (access_first property s r) as (j & l & -> & J) end.
    assert (H := IHe U (Scope Pr_Member (s_in sc) (s_orphan sc))). cbn [first_name] in U.
    remember (fst (prints _ (Some r) (fmt_expression e))) as x. destruct x as [|i [|i' x]]; cbn in H |- *; [contradiction H| |intros E; exact (H E)].
    intros E. destruct (H E) as (raw & ->). subst j. cbn [brackets get_sequence] in B. change (beqb (s2b "let") (s2b "let")) with true in B. cbn [negb] in B.
    destruct (in_dec sequence_eq_dec _ (forbidden (Some r))) as [|N]; [discriminate B|].
    destruct KO as [(-> & I)|(-> & I)]; destruct property; try discriminate; contradiction.
  - rewrite prints_then, !prints_hold. cbn [brackets parens within fst snd]. eapply harmless_app; [apply IHe, U|]. apply P; discriminate.
  - rewrite prints_hold. cbn [brackets]. destruct (_ <? _); [apply harmless_other; discriminate|]. cbn [parens fst]. rewrite prints_then. apply harmless_other. discriminate.
  - rewrite prints_hold. cbn [brackets]. destruct (_ <? _); [apply harmless_other; discriminate|]. cbn [parens fst]. rewrite prints_then. apply harmless_other. discriminate.
  - rewrite prints_hold. cbn [brackets]. destruct (_ <? _); [apply harmless_other; discriminate|]. cbn [parens fst within].
    rewrite prints_then, prints_hold. cbn [brackets within fst snd]. rewrite prints_then. eapply harmless_app; [apply IHe1, U|]. apply P; discriminate.
  - rewrite prints_hold. cbn [brackets]. destruct (_ <? _); [apply harmless_other; discriminate|]. cbn [parens fst within].
    rewrite prints_then, prints_then. eapply harmless_app; [apply IHe1, U|]. apply P; discriminate.
Qed.
Lemma harmless_begins p e l j k : harmless p e l -> j <> Mark p -> ~ begins_let p (l ++ j :: k).
Proof.
  intros H J (k' & E). destruct l as [|x [|y l]]; [destruct H| |]; cbn [app] in E.
  - injection E as _ -> _. contradiction.
  - injection E as -> -> _. exact (H eq_refl eq_refl).
Qed.
Lemma same_tail (i j : item) k l : i :: k = j :: l -> k = l.
Proof. congruence. Qed.

(** ** Statements *)
Lemma statement_begins e : let_unhidden e -> forall s r p, In p [Fp_SquareL; Fp_Period] -> ~ begins_let p (fst (prints s r (fmt_statement (St_expression e)))).
Proof.
  intros U s r p I. cbn [fmt_statement]. unfold fmt_expression_statement. rewrite prints_then, !prints_hold. cbn [brackets within fst].
  eapply harmless_begins; [apply first_harmless; [|exact U]|].
  - destruct I as [<-|[<-|[]]]; [left|right]; cbn; auto 10.
  - destruct I as [<-|[<-|[]]]; discriminate.
Qed.
Lemma keyword_then w b s r : fst (prints s r (keyword_ w ;; b)) = word w :: fst (prints s None b).
Proof. rewrite prints_then. reflexivity. Qed.
Lemma punct_then q b s r : fst (prints s r (punct_ q ;; b)) = Mark q :: fst (prints s None b).
Proof. rewrite prints_then. reflexivity. Qed.
Lemma parens_then u b s r : fst (prints s r (hold L_wrap_parens u ;; b)) = Mark Fp_ParenL :: (fst (prints (Scope Pr_Normal true false) None u) ++ [Mark Fp_ParenR]) ++ fst (prints s None b).
Proof. rewrite prints_then, prints_hold. reflexivity. Qed.
Lemma init_begins e test update body : let_unhidden e -> forall s r k,
  fst (prints s r (fmt_statement (St_for (Some (Init_expression e)) test update body))) = word Fk_For :: Mark Fp_ParenL :: k -> ~ begins_let Fp_SquareL k.
Proof.
  intros U s r k E. cbn [fmt_statement] in E. rewrite keyword_then, parens_then, prints_then, punct_then in E. do 2 apply same_tail in E. subst k.
  cbn [fmt_option]. unfold fmt_for_init. rewrite !prints_hold. cbn [brackets within fst]. rewrite <- !app_assoc. cbn [app].
  eapply harmless_begins; [apply first_harmless; [left; cbn; auto|exact U]|discriminate].
Qed.
Lemma head_begins left_r o a w rhs p b : let_unhidden o -> kept_off left_r p -> forall s r k,
  fst (prints s r (fmt_for_head left_r (Left_member o a) w rhs ;; b)) = Mark Fp_ParenL :: k -> ~ begins_let p k.
Proof.
  intros U KO s r k E. unfold fmt_for_head in E. rewrite parens_then, prints_then, keyword_then, prints_hold in E. apply same_tail in E. subst k.
  cbn [brackets within fst fmt_for_left]. rewrite <- !app_assoc. cbn [app].
  eapply harmless_begins; [apply first_harmless; [exact KO|exact U]|discriminate].
Qed.
Lemma for_in_begins o a rhs body : let_unhidden o -> forall s r k,
  fst (prints s r (fmt_statement (St_for_in (Left_member o a) rhs body))) = word Fk_For :: Mark Fp_ParenL :: k -> ~ begins_let Fp_SquareL k.
Proof.
  intros U s r k E. cbn [fmt_statement] in E. rewrite keyword_then in E. apply same_tail in E. eapply head_begins; [exact U| |exact E]. left; cbn; auto.
Qed.
Lemma for_of_begins o a rhs body : let_unhidden o -> forall s r k p, In p [Fp_SquareL; Fp_Period] ->
  fst (prints s r (fmt_statement (St_for_of (Left_member o a) rhs body))) = word Fk_For :: Mark Fp_ParenL :: k \/
  fst (prints s r (fmt_statement (St_for_await (Left_member o a) rhs body))) = word Fk_For :: word Fk_Await :: Mark Fp_ParenL :: k -> ~ begins_let p k.
Proof.
  intros U s r k p I [E|E]; cbn [fmt_statement] in E; rewrite !keyword_then in E; repeat (apply same_tail in E; match type of E with _ = Mark _ :: _ => idtac | _ = word _ :: _ => idtac end); (eapply head_begins; [exact U| |exact E]);
    destruct I as [<-|[<-|[]]]; [left|right|left|right]; cbn; auto.
Qed.

(** ** Texts *)
Definition foreign (h : N) : Prop := h <> 108%N /\ h <> 101%N /\ h <> 116%N.
Definition item_head (i : item) (h : N) : Prop := exists r, item_text i = h :: r.
(** The text does not begin with [let] and the text of [p]. *)
Definition safe (p : fpunct) (e : expression) (l : list item) : Prop :=
  match l with
  | [] => False
  | i :: l' =>
    (exists h, item_head i h /\ h <> 108%N) \/
    (exists w, i = Word w /\ ~ In 91%N w /\ ~ In 46%N w /\
      match l' with
      | [] => w = s2b "let" -> exists raw, e = E_binding (s2b "let") raw
      | j :: _ => exists q, j = Mark q /\ (w = s2b "let" -> hd_error (fpunct_text q) <> hd_error (fpunct_text p))
      end)
  end.
Lemma mark_head q : exists h r, fpunct_text q = h :: r /\ foreign h.
Proof. destruct q; eexists _, _; (split; [vm_compute; reflexivity|repeat split; discriminate]). Qed.
Lemma safe_app p e e' l q l' : safe p e l -> hd_error (fpunct_text q) <> hd_error (fpunct_text p) -> safe p e' (l ++ Mark q :: l').
Proof.
  intros H J. destruct l as [|i [|x l]]; [destruct H| |].
  - destruct H as [H|(w & -> & A & B & _)]; [left; exact H|]. right. exists w. repeat split; auto. exists q. auto.
  - destruct H as [H|(w & -> & A & B & q' & -> & C)]; [left; exact H|]. right. exists w. repeat split; auto. exists q'. auto.
Qed.
Lemma safe_other p e i l h : item_head i h -> h <> 108%N -> safe p e (i :: l).
Proof. intros H N. left. eauto. Qed.
Lemma number_head s : number_text s -> exists h r, s = h :: r /\ (48 <= h <= 57)%N.
Proof. destruct 1; eexists _, _; (split; [reflexivity|]); try assumption; lia. Qed.
Ltac other := eapply safe_other; [eexists; vm_compute; reflexivity|discriminate].
Lemma first_safe r p : kept_off r p -> forall e, let_unhidden e -> begins_well e -> forall s, safe p e (fst (prints s (Some r) (fmt_expression e))).
Proof.
  intros KO. assert (P : forall q, hd_error (fpunct_text q) <> Some 91%N -> hd_error (fpunct_text q) <> Some 46%N -> hd_error (fpunct_text q) <> hd_error (fpunct_text p))
    by (intros q A B; destruct KO as [(-> & _)|(-> & _)]; assumption).
  induction e; intros U W sc; cbn [fmt_expression]; try other;
    try (rewrite prints_then; other).
  - cbn. right. exists (given value raw). destruct W as [W _]. destruct (W value raw eq_refl) as [W1 W2]. repeat split; auto.
    intros E. exists raw. f_equal. apply (U value raw eq_refl E).
  - destruct value; other.
  - destruct W as [_ W]. destruct (number_head s (W s eq_refl)) as (h & x & -> & L). apply (safe_other _ _ _ _ h); [eexists; reflexivity|]. intros ->. destruct L as [_ L]. exact (L eq_refl).
  - rewrite prints_hold. destruct (brackets _ sc (Some r)) as [b|] eqn:B; cbn [fst].
    { cbn [brackets] in B. destruct (in_dec _ _ _); [injection B as <-|discriminate]. other. }
    rewrite prints_then. cbn [within]. rewrite prints_hold. cbn [brackets within fst snd].
    match goal with |- safe _ _ (_ ++ fst (prints ?s ?r (fmt_access property))) => destruct (access_first property s r) as (j & l & -> & ->) end.
    assert (H := IHe U W (Scope Pr_Member (s_in sc) (s_orphan sc))).
    remember (fst (prints _ (Some r) (fmt_expression e))) as x. destruct x as [|i [|i' x]]; cbn [app]; [destruct H| |].
    + destruct H as [H|(w & -> & A1 & A2 & A3)]; [left; exact H|]. right. exists w. repeat split; auto. eexists. split; [reflexivity|].
      intros E. destruct (A3 E) as (raw & ->). cbn [brackets get_sequence] in B. change (beqb (s2b "let") (s2b "let")) with true in B. cbn [negb] in B.
      destruct (in_dec sequence_eq_dec _ (forbidden (Some r))) as [|N]; [discriminate B|].
      destruct KO as [(-> & I)|(-> & I)]; destruct property; try (vm_compute; discriminate); contradiction.
    + destruct H as [H|(w & -> & A1 & A2 & A3)]; [left; exact H|]. right. exists w. auto.
  - rewrite prints_then, !prints_hold. cbn [brackets parens within fst snd]. eapply safe_app; [apply IHe; [exact U|exact W]|]. apply P; vm_compute; discriminate.
  - rewrite prints_hold. cbn [brackets]. destruct (_ <? _); [other|]. cbn [parens fst]. rewrite prints_then. other.
  - rewrite prints_hold. cbn [brackets]. destruct (_ <? _); [other|]. cbn [parens fst]. rewrite prints_then. other.
  - rewrite prints_hold. cbn [brackets]. destruct (_ <? _); [other|]. cbn [parens fst within].
    rewrite prints_then, prints_hold. cbn [brackets within fst snd]. rewrite prints_then. eapply safe_app; [apply IHe1; [exact U|exact W]|]. apply P; vm_compute; discriminate.
  - rewrite prints_hold. cbn [brackets]. destruct (_ <? _); [other|]. cbn [parens fst within].
    rewrite prints_then, prints_then. eapply safe_app; [apply IHe1; [exact U|exact W]|]. apply P; vm_compute; discriminate.
Qed.
Lemma word_text w h r c t : ~ In 91%N w -> ~ In 46%N w -> In c [91%N; 46%N] -> foreign h -> (w = s2b "let" -> h <> c) ->
  w ++ h :: r <> 108%N :: 101%N :: 116%N :: c :: t.
Proof.
  intros A B C (F1 & F2 & F3) L E.
  destruct w as [|a1 [|a2 [|a3 [|a4 w]]]]; cbn [app] in E; injection E; intros; subst; try contradiction.
  - apply L; reflexivity.
  - destruct C as [<-|[<-|[]]]; cbn in A, B; tauto.
Qed.
(** Nothing, or another punctuator than [p], or a word follows. *)
Definition parted (p : fpunct) (j : item) : Prop :=
  match j with Mark q => hd_error (fpunct_text q) <> hd_error (fpunct_text p) | Word _ => True | _ => False end.
Lemma safe_text p e l j k t : In p [Fp_SquareL; Fp_Period] -> safe p e l -> parted p j ->
  layout false (l ++ j :: k) <> s2b "let" ++ fpunct_text p ++ t.
Proof.
  intros I S J. assert (C : exists c, In c [91%N; 46%N] /\ fpunct_text p = [c]) by (destruct I as [<-|[<-|[]]]; eexists; (split; [|reflexivity]); cbn; auto).
  destruct C as (c & C & Ep). change (s2b "let" ++ fpunct_text p ++ t) with (108%N :: 101%N :: 116%N :: fpunct_text p ++ t). rewrite Ep. cbn [app].
  assert (M : forall w q l', ~ In 91%N w -> ~ In 46%N w -> (w = s2b "let" -> hd_error (fpunct_text q) <> hd_error (fpunct_text p)) ->
    layout false (Word w :: Mark q :: l') <> 108%N :: 101%N :: 116%N :: c :: t).
  { intros w q l' A B L. cbn [layout spaced_item item_text app word_last]. destruct (mark_head q) as (h & r & E & F). rewrite E in *. cbn [app].
    apply word_text; auto. intros W. specialize (L W). rewrite Ep in L. cbn in L. congruence. }
  destruct l as [|i l]; [destruct S|]. destruct S as [(h & (r & E) & NE)|(w & -> & A & B & L)].
  - cbn [app layout]. rewrite E. replace (spaced_item false i) with (@nil N) by (destruct i; reflexivity). cbn [app]. congruence.
  - destruct l as [|j' l]; cbn [app].
    + destruct j as [v|q| | | |]; cbn [parted] in J; try (exfalso; exact J).
      * cbn [layout spaced_item item_text app word_last]. change (s2b " ") with [32%N]. cbn [app]. apply word_text; auto; [repeat split; discriminate|].
        intros _ <-. destruct C as [C|[C|[]]]; discriminate C.
      * apply M; auto.
    + destruct L as (q & -> & L). apply M; auto.
Qed.
Lemma statement_text e : let_unhidden e -> begins_well e -> forall p t, In p [Fp_SquareL; Fp_Period] ->
  display (fmt_statement (St_expression e)) <> s2b "let" ++ fpunct_text p ++ t.
Proof.
  intros U W p t I. rewrite display_displayed. unfold displayed. cbn [fmt_statement]. unfold fmt_expression_statement. rewrite prints_then, !prints_hold. cbn [brackets within fst].
  eapply safe_text; [exact I|apply first_safe; [|exact U|exact W]|].
  - destruct I as [<-|[<-|[]]]; [left|right]; cbn; auto 10.
  - destruct I as [<-|[<-|[]]]; vm_compute; discriminate.
Qed.
Lemma for_head_layout k : layout false (word Fk_For :: Mark Fp_ParenL :: k) = s2b "for(" ++ layout false k.
Proof. reflexivity. Qed.
Lemma for_await_layout k : layout false (word Fk_For :: word Fk_Await :: Mark Fp_ParenL :: k) = s2b "for await(" ++ layout false k.
Proof. reflexivity. Qed.
Lemma init_text e test update body : let_unhidden e -> begins_well e -> forall t,
  display (fmt_statement (St_for (Some (Init_expression e)) test update body)) <> s2b "for(" ++ s2b "let[" ++ t.
Proof.
  intros U W t. rewrite display_displayed. unfold displayed. cbn [fmt_statement]. rewrite keyword_then, parens_then, prints_then, punct_then, for_head_layout.
  intros E. apply app_inv_head in E. revert E. cbn [fmt_option]. unfold fmt_for_init. rewrite !prints_hold. cbn [brackets within fst]. rewrite <- !app_assoc. cbn [app].
  apply (safe_text Fp_SquareL e); [left; reflexivity|apply first_safe; [left; cbn; auto|exact U|exact W]|vm_compute; discriminate].
Qed.
Lemma head_text left_r o a w rhs p b s : let_unhidden o -> begins_well o -> kept_off left_r p -> In p [Fp_SquareL; Fp_Period] -> forall t, exists k,
  fst (prints s None (fmt_for_head left_r (Left_member o a) w rhs ;; b)) = Mark Fp_ParenL :: k /\ layout false k <> s2b "let" ++ fpunct_text p ++ t.
Proof.
  intros U W KO I t. unfold fmt_for_head. rewrite parens_then, prints_then, keyword_then, prints_hold. eexists. split; [reflexivity|].
  cbn [brackets within fst fmt_for_left]. rewrite <- !app_assoc. cbn [app].
  eapply safe_text; [exact I|apply first_safe; [exact KO|exact U|exact W]|exact Logic.I].
Qed.
Lemma for_in_text o a rhs body : let_unhidden o -> begins_well o -> forall t,
  display (fmt_statement (St_for_in (Left_member o a) rhs body)) <> s2b "for(" ++ s2b "let[" ++ t.
Proof.
  intros U W t. rewrite display_displayed. unfold displayed. cbn [fmt_statement]. rewrite keyword_then.
  match goal with |- context [prints ?s None (fmt_for_head ?r ?x ?w ?h ;; ?b)] => destruct (head_text r o a w h Fp_SquareL b s U W) with (t := t) as (k & -> & K) end; [left; cbn; auto|left; reflexivity|].
  rewrite for_head_layout. intros E. apply app_inv_head in E. exact (K E).
Qed.
Lemma for_of_text o a rhs body : let_unhidden o -> begins_well o -> forall p t, In p [Fp_SquareL; Fp_Period] ->
  display (fmt_statement (St_for_of (Left_member o a) rhs body)) <> s2b "for(" ++ s2b "let" ++ fpunct_text p ++ t /\
  display (fmt_statement (St_for_await (Left_member o a) rhs body)) <> s2b "for await(" ++ s2b "let" ++ fpunct_text p ++ t.
Proof.
  intros U W p t I. rewrite !display_displayed. unfold displayed. cbn [fmt_statement]. rewrite !keyword_then. split.
  all: match goal with |- context [prints ?s None (fmt_for_head ?r ?x ?w ?h ;; ?b)] => destruct (head_text r o a w h p b s U W) with (t := t) as (k & -> & K) end; [destruct I as [<-|[<-|[]]]; [left|right]; cbn; auto|exact I|].
  all: rewrite ?for_head_layout, ?for_await_layout; intros E; apply app_inv_head in E; exact (K E).
Qed.
Lemma texts_begin e : let_unhidden e -> begins_well e -> forall t,
  display (fmt_statement (St_expression e)) <> s2b "let[" ++ t /\
  display (fmt_statement (St_expression e)) <> s2b "let." ++ t /\
  (forall test update body, display (fmt_statement (St_for (Some (Init_expression e)) test update body)) <> s2b "for(let[" ++ t) /\
  (forall a rhs body, display (fmt_statement (St_for_in (Left_member e a) rhs body)) <> s2b "for(let[" ++ t) /\
  (forall a rhs body, display (fmt_statement (St_for_of (Left_member e a) rhs body)) <> s2b "for(let[" ++ t /\
    display (fmt_statement (St_for_of (Left_member e a) rhs body)) <> s2b "for(let." ++ t) /\
  (forall a rhs body, display (fmt_statement (St_for_await (Left_member e a) rhs body)) <> s2b "for await(let[" ++ t /\
    display (fmt_statement (St_for_await (Left_member e a) rhs body)) <> s2b "for await(let." ++ t).
Proof.
  intros U W t.
  split; [exact (statement_text e U W Fp_SquareL t (or_introl eq_refl))|].
  split; [exact (statement_text e U W Fp_Period t (or_intror (or_introl eq_refl)))|].
  split; [intros; exact (init_text e _ _ _ U W t)|].
  split; [intros; exact (for_in_text e _ _ _ U W t)|].
  split; intros a rhs body; (split; [apply (for_of_text e a rhs body U W Fp_SquareL t); left; reflexivity|apply (for_of_text e a rhs body U W Fp_Period t); right; left; reflexivity]).
Qed.
