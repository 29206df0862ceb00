(** Displayed statements are read back: a reader of items finds the tree they display, with
    the braces the formatter puts. *)
From Coq Require Import String List NArith Bool Arith Lia.
From Verif Require Import Base Tokens SpecTokens SpecHints ByteFacts Formatter SpecFormatter FormatterFacts Nodes SpecNodes NodeItems NodeText
  Statements SpecStatements StatementItems SpecFaithful ReadNodes.
Import ListNotations.

Definition statement_keywords : list fkeyword :=
  [Fk_Var; Fk_Let; Fk_Const; Fk_If; Fk_Else; Fk_For; Fk_While; Fk_Do; Fk_Switch; Fk_Case; Fk_Default; Fk_With; Fk_Throw; Fk_Try; Fk_Catch; Fk_Finally;
   Fk_Continue; Fk_Break; Fk_Return; Fk_Debugger].
Definition keyword_of (w : bytes) : option fkeyword := find (fun k => beqb w (fkeyword_text k)) statement_keywords.
Lemma keyword_of_text k : In k statement_keywords -> keyword_of (fkeyword_text k) = Some k.
Proof. cbn [In statement_keywords]. intros H. repeat (destruct H as [<-|H]); try contradiction H; reflexivity. Qed.
Lemma variable_keyword w : variable w -> keyword_of w = None.
Proof.
  intros (_ & P & _). unfold keyword_of. destruct (find _ _) as [k|] eqn:F; [|reflexivity]. exfalso. apply find_some in F. destruct F as (I & B). apply beqb_eq in B. subst w.
  cbn [In statement_keywords] in I. repeat (destruct I as [<-|I]); try contradiction I; discriminate P.
Qed.

Notation "'take' p <- e ; f" := (match e with Some p => f | None => None end) (at level 200, p pattern, right associativity).
Definition eat (p : fpunct) (l : list item) : option (list item) :=
  match l with Mark q :: l => if beqb (fpunct_text p) (fpunct_text q) then Some l else None | _ => None end.
Definition at_mark (p : fpunct) (l : list item) : bool := match eat p l with Some _ => true | None => false end.
Definition at_keyword (l : list item) : option fkeyword := match l with Word w :: _ => keyword_of w | _ => None end.
Definition any_word (l : list item) : option (bytes * list item) := match l with Word w :: l => Some (w, l) | _ => None end.

Definition optionally (n : nat) (l : list item) : option (option expression * list item) :=
  if at_mark Fp_Semicolon l || at_mark Fp_ParenR l then Some (None, l) else take (e, l) <- whole n l; Some (Some e, l).
Definition between_parens (n : nat) (l : list item) : option (expression * list item) :=
  take l <- eat Fp_ParenL l; take (e, l) <- whole n l; take l <- eat Fp_ParenR l; Some (e, l).
Definition initialized (n : nat) (l : list item) : option (option expression * list item) :=
  match eat Fp_Eq l with
  | Some l => take (e, l) <- assign n l; Some (Some e, l)
  | None => Some (None, l)
  end.
Fixpoint declarators (n : nat) (l : list item) : option (list declarator * declarator * list item) :=
  match n with 0 => None | S n =>
  take (x, l) <- any_word l;
  take (init, l) <- initialized n l;
  match eat Fp_Comma l with
  | Some l => take (ds, last, l) <- declarators n l; Some (Declarator (x, None) init :: ds, last, l)
  | None => take l <- eat Fp_Semicolon l; Some ([], Declarator (x, None) init, l)
  end end.
Definition labelled_jump (l : list item) : option (option identifier * list item) :=
  match any_word l with
  | Some (x, l) => take l <- eat Fp_Semicolon l; Some (Some (x, None), l)
  | None => take l <- eat Fp_Semicolon l; Some (None, l)
  end.
(** A declaration in front of [in] or [of]. *)
Definition declares (l : list item) : option declaring :=
  match at_keyword l with Some Fk_Var => Some D_var | Some Fk_Const => Some D_const | Some Fk_Let => Some D_let | _ => None end.
Definition left_of (e : expression) : option for_left :=
  match e with
  | E_binding x None => Some (Left_identifier (x, None))
  | E_member o a => Some (Left_member o a)
  | _ => None
  end.
Definition for_starts (n : nat) (l : list item) : option ((option for_init + for_left) * list item) :=
  match eat Fp_Semicolon l with
  | Some l => Some (inl None, l)
  | None =>
    match declares l with
    | Some kind => take (_, l) <- any_word l; take (x, l) <- any_word l; Some (inr (Left_declaration kind (x, None) None), l)
    | None =>
      take (e, l) <- whole n l;
      match eat Fp_Semicolon l with
      | Some l => Some (inl (Some (Init_expression e)), l)
      | None => take lhs <- left_of e; Some (inr lhs, l)
      end
    end
  end.

Fixpoint statement_ (n : nat) (l : list item) {struct n} : option (statement * list item) :=
  match n with 0 => None | S n =>
  match at_keyword l with
  | Some k =>
    take (_, l) <- any_word l;
    match k with
    | Fk_Var => take (ds, last, l) <- declarators n l; Some (St_declaration D_var ds last, l)
    | Fk_Const => take (ds, last, l) <- declarators n l; Some (St_declaration D_const ds last, l)
    | Fk_Let => take (ds, last, l) <- declarators n l; Some (St_declaration D_let ds last, l)
    | Fk_If =>
      take (test, l) <- between_parens n l;
      take (c, l) <- statement_ n l;
      match at_keyword l with
      | Some Fk_Else => take (_, l) <- any_word l; take (a, l) <- statement_ n l; Some (St_if_else test c a, l)
      | _ => Some (St_if test c, l)
      end
    | Fk_For =>
      take l <- eat Fp_ParenL l;
      take (h, l) <- for_starts n l;
      match h with
      | inl init =>
        take (test, l) <- optionally n l;
        take l <- eat Fp_Semicolon l;
        take (update, l) <- optionally n l;
        take l <- eat Fp_ParenR l;
        take (body, l) <- statement_ n l;
        Some (St_for init test update body, l)
      | inr lhs =>
        take (w, l) <- any_word l;
        take (rhs, l) <- whole n l;
        take l <- eat Fp_ParenR l;
        take (body, l) <- statement_ n l;
        Some ((if beqb w (s2b "in") then St_for_in lhs rhs body else St_for_of lhs rhs body), l)
      end
    | Fk_While => take (test, l) <- between_parens n l; take (b, l) <- statement_ n l; Some (St_while test b, l)
    | Fk_Do =>
      take (b, l) <- statement_ n l;
      take (_, l) <- any_word l;
      take (test, l) <- between_parens n l;
      take l <- eat Fp_Semicolon l;
      Some (St_do_while b test, l)
    | Fk_Switch =>
      take (e, l) <- between_parens n l;
      take l <- eat Fp_CurlyL l;
      take (cs, l) <- clauses_ n l;
      take l <- eat Fp_CurlyR l;
      Some (St_switch e cs, l)
    | Fk_With => take (e, l) <- between_parens n l; take (b, l) <- statement_ n l; Some (St_with e b, l)
    | Fk_Throw => take (e, l) <- whole n l; Some (St_throw e, l)
    | Fk_Try =>
      take (b, l) <- block_ n l;
      match at_keyword l with
      | Some Fk_Catch =>
        take (_, l) <- any_word l;
        take l <- eat Fp_ParenL l;
        take (x, l) <- any_word l;
        take l <- eat Fp_ParenR l;
        take (h, l) <- block_ n l;
        match at_keyword l with
        | Some Fk_Finally => take (_, l) <- any_word l; take (f, l) <- block_ n l; Some (St_try_catch_finally b (Some (x, None)) h f, l)
        | _ => Some (St_try_catch b (Some (x, None)) h, l)
        end
      | _ => take (_, l) <- any_word l; take (f, l) <- block_ n l; Some (St_try_finally b f, l)
      end
    | Fk_Continue => take (x, l) <- labelled_jump l; Some (St_continue x, l)
    | Fk_Break => take (x, l) <- labelled_jump l; Some (St_break x, l)
    | Fk_Return => take (e, l) <- optionally n l; take l <- eat Fp_Semicolon l; Some (St_return e, l)
    | Fk_Debugger => take l <- eat Fp_Semicolon l; Some (St_debugger, l)
    | _ => None
    end
  | None =>
    if at_mark Fp_CurlyL l then take (b, l) <- block_ n l; Some (St_block b, l) else
    match eat Fp_Semicolon l with
    | Some l => Some (St_empty, l)
    | None =>
      take (e, l) <- whole n l;
      match eat Fp_Semicolon l with
      | Some l => Some (St_expression e, l)
      | None =>
        take l <- eat Fp_Colon l;
        match e with
        | E_binding x None => take (b, l) <- statement_ n l; Some (St_labelled (x, None) b, l)
        | _ => None
        end
      end
    end
  end end
with block_ (n : nat) (l : list item) {struct n} : option (statements * list item) :=
  match n with 0 => None | S n =>
  take l <- eat Fp_CurlyL l; take (b, l) <- statements_ n l; take l <- eat Fp_CurlyR l; Some (b, l) end
with statements_ (n : nat) (l : list item) {struct n} : option (statements * list item) :=
  match n with 0 => None | S n =>
  if match l with [] => true | _ => at_mark Fp_CurlyR l end || match at_keyword l with Some (Fk_Case | Fk_Default) => true | _ => false end
  then Some (No_statements, l)
  else take (s, l) <- statement_ n l; take (rest, l) <- statements_ n l; Some (Cons_statement s rest, l)
  end
with clauses_ (n : nat) (l : list item) {struct n} : option (clauses * list item) :=
  match n with 0 => None | S n =>
  match at_keyword l with
  | Some Fk_Case =>
    take (_, l) <- any_word l;
    take (e, l) <- whole n l; take l <- eat Fp_Colon l; take (c, l) <- statements_ n l; take (rest, l) <- clauses_ n l;
    Some (Cons_clause (Some e) c rest, l)
  | Some Fk_Default =>
    take (_, l) <- any_word l;
    take l <- eat Fp_Colon l; take (c, l) <- statements_ n l; take (rest, l) <- clauses_ n l; Some (Cons_clause None c rest, l)
  | _ => Some (No_clauses, l)
  end end.

(** Directives are the strings in front. *)
Fixpoint script_ (n : nat) (l : list item) : option (list bytes * statements) :=
  match l with
  | Quoted d :: Mark Fp_Semicolon :: l => take (ds, b) <- script_ n l; Some (d :: ds, b)
  | _ => take (b, l) <- statements_ n l; match l with [] => Some ([], b) | _ => None end
  end.

Lemma eat_same p l : eat p (Mark p :: l) = Some l.
Proof. cbn [eat]. rewrite (proj2 (beqb_eq _ _) eq_refl). reflexivity. Qed.
Lemma at_word k l : In k statement_keywords -> at_keyword (word k :: l) = Some k.
Proof. intros I. cbn [at_keyword word]. apply keyword_of_text, I. Qed.
Lemma any_word_word k l : any_word (word k :: l) = Some (fkeyword_text k, l).
Proof. reflexivity. Qed.

(** Items an expression begins with. *)
Definition starter (i : item) : Prop :=
  match i with Word w => keyword_of w = None | Number _ | Quoted _ | Mark Fp_ParenL => True | _ => False end.
Lemma leading e : well_formed e -> forall p, exists i x, items p e = i :: x /\ starter i.
Proof.
  induction e; cbn [well_formed]; intros W p; try contradiction W; try (eexists _, _; split; [reflexivity|]; exact I || reflexivity).
  - eexists _, _. split; [reflexivity|]. apply variable_keyword, W.
  - eexists _, _. split; [reflexivity|]. destruct value; reflexivity.
  - destruct (IHe (proj1 W) Pr_Member) as (i & x & E & H). cbn [items]. rewrite E. eexists _, _. split; [reflexivity|exact H].
  - destruct (IHe (proj1 W) Pr_New) as (i & x & E & H). cbn [items]. rewrite E. eexists _, _. split; [reflexivity|exact H].
  - cbn [items]. unfold wrap_if. destruct (below _ _); (eexists _, _; split; [reflexivity|]); [exact I|reflexivity].
  - cbn [items]. unfold wrap_if. destruct (below _ _); (eexists _, _; split; [reflexivity|]); [exact I|reflexivity].
  - cbn [items]. unfold wrap_if. destruct (below _ _); [eexists _, _; split; [reflexivity|exact I]|].
    destruct (IHe1 (proj1 W) Pr_LogicalOr) as (i & x & E & H). rewrite E. eexists _, _. split; [reflexivity|exact H].
  - cbn [items]. unfold wrap_if. destruct (below _ _); [eexists _, _; split; [reflexivity|exact I]|].
    destruct (IHe1 (proj1 W) Pr_Normal) as (i & x & E & H). rewrite E. eexists _, _. split; [reflexivity|exact H].
Qed.
Lemma starter_facts i l : starter i -> at_keyword (i :: l) = None /\ forall p, In p [Fp_Semicolon; Fp_ParenR; Fp_CurlyL; Fp_CurlyR] -> eat p (i :: l) = None.
Proof.
  intros H. destruct i as [w|q|s|s|v f|s]; try contradiction H; try (split; [exact H || reflexivity|]; reflexivity). destruct q; try contradiction H.
  split; [reflexivity|]. intros p I. cbn in I. repeat (destruct I as [<-|I]); try contradiction I; reflexivity.
Qed.

Lemma whole_read e : well_formed e -> faithful e -> ever (fun n => forall k, stops_expression k -> whole n (items Pr_Normal e ++ k) = Some (e, k)).
Proof. intros W F. apply expression_whole. apply (proj1 all_read e W F). Qed.
Lemma assign_read e : well_formed e -> faithful e -> ever (fun n => forall k, stops_assignment k -> assign n (items Pr_Assignment e ++ k) = Some (e, k)).
Proof. intros W F. apply (proj1 all_read e W F). Qed.
Lemma name_read w : variable w -> ever (fun n => forall k, stops_expression k -> whole n (Word w :: k) = Some (E_binding w None, k)).
Proof.
  intros V. apply (expression_whole (E_binding w None)). apply all_from_member; try reflexivity. exists 1. apply ever_now. intros n j k _. apply start_variable, V.
Qed.
Lemma parens_read e : well_formed e -> faithful e -> ever (fun n => forall k, between_parens n (wrapped (items Pr_Normal e) ++ k) = Some (e, k)).
Proof.
  intros W F. eapply ever_map; [|apply whole_read; eassumption]. cbn beta. intros n H k. unfold between_parens, wrapped. cbn [app]. rewrite eat_same, <- app_assoc. cbn [app].
  rewrite H by stopping. rewrite eat_same. reflexivity.
Qed.
Lemma optional_read o : optional well_formed o -> optional faithful o -> ever (fun n => forall k, headed [Fp_Semicolon; Fp_ParenR] k ->
  optionally n (items_option (items Pr_Normal) o ++ k) = Some (o, k)).
Proof.
  destruct o as [e|]; cbn [optional items_option app]; intros W F.
  - eapply ever_map; [|apply whole_read; eassumption]. cbn beta. intros n H k (p & k' & -> & I). destruct (leading e W Pr_Normal) as (i & x & E & S). rewrite E in *.
    destruct (starter_facts i (x ++ Mark p :: k') S) as (_ & N). unfold optionally, at_mark. cbn [app] in *. rewrite !N by (cbn; auto). cbn [orb].
    rewrite H by (cbn in I; destruct I as [<-|[<-|[]]]; stopping). reflexivity.
  - apply ever_now. intros n k (p & k' & -> & I). unfold optionally, at_mark. cbn in I. destruct I as [<-|[<-|[]]]; reflexivity.
Qed.
Lemma declarator_read kind d : declared kind d -> faithful_declarator d -> ever (fun n => forall k, headed [Fp_Comma; Fp_Semicolon] k ->
  exists x init l, items_declarator d ++ k = Word x :: l /\ initialized n l = Some (init, k) /\ d = Declarator (x, None) init).
Proof.
  destruct d as [(x & raw) [e|]]; intros (_ & W & _) (U & F); unfold unraw in U; cbn [snd optional] in *; subst raw.
  - eapply ever_map; [|apply assign_read; eassumption]. cbn beta. intros n H k (p & k' & -> & I). eexists x, (Some e), _. split; [reflexivity|]. split; [|reflexivity].
    unfold initialized. cbn [items_option items_initializer app]. rewrite eat_same, H; [reflexivity|]. cbn in I. destruct I as [<-|[<-|[]]]; stopping.
  - apply ever_now. intros n k (p & k' & -> & I). eexists x, None, _. split; [reflexivity|]. split; [|reflexivity]. cbn in I. destruct I as [<-|[<-|[]]]; reflexivity.
Qed.
Lemma declarators_read kind ds last : Forall (declared kind) ds -> declared kind last -> Forall faithful_declarator ds -> faithful_declarator last ->
  ever (fun n => forall k, declarators n (concat (map (fun d => items_declarator d ++ [Mark Fp_Comma]) ds) ++ items_declarator last ++ Mark Fp_Semicolon :: k) = Some (ds, last, k)).
Proof.
  intros D L FD FL. induction D as [|d ds W D IH]; cbn [map concat app].
  - apply ever_S. eapply ever_map; [|eapply declarator_read; eassumption]. cbn beta. intros n H k.
    destruct (H (Mark Fp_Semicolon :: k)) as (x & init & l & E & Q & ->); [eexists _, _; split; [reflexivity|]; cbn; auto|]. rewrite E. cbn [declarators any_word]. rewrite Q. reflexivity.
  - inversion FD as [|? ? Fd Fds]; subst. apply ever_S. eapply ever_map2; [|eapply declarator_read; [exact W|exact Fd]|exact (IH Fds)]. cbn beta. intros n H G k.
    rewrite <- !app_assoc. cbn [app]. destruct (H (Mark Fp_Comma :: concat (map (fun d0 => items_declarator d0 ++ [Mark Fp_Comma]) ds) ++ items_declarator last ++ Mark Fp_Semicolon :: k))
      as (x & init & l & E & Q & ->); [eexists _, _; split; [reflexivity|]; cbn; auto|]. rewrite E. cbn [declarators any_word]. rewrite Q, eat_same, G. reflexivity.
Qed.

(** ** Statements *)
Definition after_keywords : list fkeyword := [Fk_Else; Fk_Finally; Fk_Case; Fk_Default].
Definition initial (i : item) : Prop :=
  forall l, (forall k, at_keyword (i :: l) = Some k -> ~ In k after_keywords) /\ eat Fp_CurlyR (i :: l) = None.
Lemma starter_initial i : starter i -> initial i.
Proof. intros S l. destruct (starter_facts i l S) as (A & B). split; [rewrite A; discriminate|]. apply B. cbn. auto. Qed.
Lemma word_initial k : In k statement_keywords -> ~ In k after_keywords -> initial (word k).
Proof. intros I N l. split; [|reflexivity]. rewrite at_word by exact I. congruence. Qed.
Lemma name_initial x : named x -> initial (items_name x).
Proof. intros V. apply starter_initial. apply variable_keyword, V. Qed.
Lemma first_item s o : formed s -> exists i x, items_statement o s = i :: x /\ initial i.
Proof.
  assert (K : forall k x, In k statement_keywords -> ~ In k after_keywords -> exists i y, word k :: x = i :: y /\ initial i).
  { intros k x I N. eexists _, _. split; [reflexivity|]. apply word_initial; assumption. }
  assert (M : forall p (x : list item), p = Fp_CurlyL \/ p = Fp_Semicolon -> exists i y, Mark p :: x = i :: y /\ initial i).
  { intros p x P. eexists _, _. split; [reflexivity|]. intros l. split; [discriminate|]. destruct P as [-> | ->]; reflexivity. }
  destruct s; cbn [formed items_statement]; intros W; try contradiction W;
    try (apply K; cbn; intuition discriminate); try (apply M; auto; fail).
  - unfold items_declaration. apply K; destruct kind; cbn; intuition discriminate.
  - destruct (leading e W Pr_Normal) as (i & x & E & S). rewrite E. eexists _, _. split; [reflexivity|]. apply starter_initial, S.
  - destruct o; [apply M; auto|apply K; cbn; intuition discriminate].
  - eexists _, _. split; [reflexivity|]. apply name_initial, W.
Qed.

Definition not_at (ks : list fkeyword) (k : list item) : Prop := forall w, at_keyword k = Some w -> ~ In w ks.
Definition follows (o thrown : bool) (k : list item) : Prop :=
  not_at (if o then [Fk_Finally] else [Fk_Else; Fk_Finally]) k /\ (thrown = true -> stops_expression k).
Definition reads_statement (s : statement) : Prop := forall o,
  ever (fun n => forall k, follows o (ends_throwing o s) k -> statement_ n (items_statement o s ++ k) = Some (braced o s, k)).
(** [final]: no other clause follows. *)
Definition closes (final : bool) (k : list item) : Prop :=
  k = [] \/ (exists k', k = Mark Fp_CurlyR :: k') \/ final = false /\ exists w k', k = word w :: k' /\ (w = Fk_Case \/ w = Fk_Default).
Definition reads_list (final : bool) (l : statements) : Prop :=
  ever (fun n => forall k, closes final k -> statements_ n (items_statements l ++ k) = Some (braced_list l, k)).
Definition reads_clauses (l : clauses) : Prop :=
  ever (fun n => forall k, clauses_ n (items_clauses l ++ Mark Fp_CurlyR :: k) = Some (braced_clauses l, Mark Fp_CurlyR :: k)).

Lemma block_read l : reads_list true l -> ever (fun n => forall k, block_ n (curlied (items_statements l) ++ k) = Some (braced_list l, k)).
Proof.
  intros H. apply ever_S. eapply ever_map; [|exact H]. cbn beta. intros n R k. unfold curlied. cbn [app block_]. rewrite eat_same, <- app_assoc. cbn [app].
  rewrite R by (right; left; eauto). rewrite eat_same. reflexivity.
Qed.
Lemma follows_mark o b p k : In p [Fp_CurlyR; Fp_Semicolon] -> follows o b (Mark p :: k).
Proof. intros I. split; [intros w K; discriminate K|]. intros _. cbn in I. destruct I as [<-|[<-|[]]]; stopping. Qed.
Lemma stops_word w k : stops_expression (Word w :: k).
Proof. intros (p & k' & E & _). discriminate E. Qed.
Lemma follows_word (o b : bool) w k : In w statement_keywords -> ~ In w (if o then [Fk_Finally] else [Fk_Else; Fk_Finally]) -> follows o b (word w :: k).
Proof. intros I N. split; [intros v K; rewrite at_word in K by exact I; congruence|]. intros _. apply stops_word. Qed.
Lemma follows_initial (o : bool) i x : initial i -> follows o false (i :: x).
Proof.
  intros H. split; [|discriminate]. intros w K J. destruct (H x) as (A & _). apply (A w K). destruct o; cbn in *; intuition.
Qed.
Lemma statements_go n i l : initial i -> statements_ (S n) (i :: l) =
  (take (s, l) <- statement_ n (i :: l); take (rest, l) <- statements_ n l; Some (Cons_statement s rest, l)).
Proof.
  intros H. cbn [statements_]. unfold at_mark. destruct (H l) as (A & ->). cbn [orb]. destruct (at_keyword (i :: l)) as [w|]; [|reflexivity].
  specialize (A w eq_refl). destruct w; try reflexivity; exfalso; apply A; cbn; auto.
Qed.
Lemma statements_end n k : closes false k -> statements_ (S n) k = Some (No_statements, k).
Proof.
  intros [-> |[(k' & ->)|(_ & w & k' & -> & W)]]; [reflexivity|reflexivity|]. cbn [statements_]. destruct W as [-> | ->]; reflexivity.
Qed.
Lemma closes_less b k : closes b k -> closes false k.
Proof. intros [H|[H|(_ & H)]]; unfold closes; auto. Qed.
Lemma closes_follows o b k : closes true k -> follows o b k.
Proof.
  intros [-> |[(k' & ->)|(K & _)]]; [|apply follows_mark; cbn; auto|discriminate K]. split; [intros w K; discriminate K|]. intros _ (p & k' & K & _). discriminate K.
Qed.
Lemma closes_follows_false o final k : closes final k -> follows o false k.
Proof.
  intros [-> |[(k' & ->)|(_ & w & k' & -> & W)]]; [apply closes_follows; left; reflexivity|apply follows_mark; cbn; auto|].
  apply follows_word; destruct W as [-> | ->]; destruct o; cbn; intuition discriminate.
Qed.

Lemma for_left_read lhs : for_left_formed lhs -> faithful_left lhs ->
  ever (fun n => forall w k, for_starts n (items_for_left lhs ++ Word w :: k) = Some (inr lhs, Word w :: k)).
Proof.
  destruct lhs as [kind (x & raw) init|(x & raw)|o a]; cbn [for_left_formed faithful_left].
  - intros (_ & -> & _) (U & _). unfold unraw in U. cbn in U. subst raw. apply ever_now. intros n w k. destruct kind; reflexivity.
  - intros V U. unfold unraw in U. cbn in U. subst raw. eapply ever_map; [|apply (name_read x V)]. cbn beta. intros n H w k.
    cbn [items_for_left app]. change (items_name (x, None)) with (Word x). unfold for_starts, declares. cbn [eat at_keyword]. rewrite variable_keyword by exact V.
    rewrite H by apply stops_word. reflexivity.
  - intros W F. eapply ever_map; [|apply (whole_read (E_member o a) W F)]. cbn beta. intros n H w k. cbn [items_for_left].
    destruct (leading (E_member o a) W Pr_Normal) as (i & x & E & S). rewrite E in *. cbn [app] in *. destruct (starter_facts i (x ++ Word w :: k) S) as (A & B).
    unfold for_starts, declares. rewrite A, B by (cbn; auto). rewrite H by apply stops_word. reflexivity.
Qed.
Lemma for_init_read init : optional (fun i => match i with Init_expression e => well_formed e | Init_declaration _ _ _ => False end) init ->
  optional (fun i => match i with Init_expression e => faithful e | Init_declaration _ ds last => Forall faithful_declarator ds /\ faithful_declarator last end) init ->
  ever (fun n => forall k, for_starts n (items_option items_for_init init ++ Mark Fp_Semicolon :: k) = Some (inl init, k)).
Proof.
  destruct init as [[kind ds last|e]|]; cbn [optional]; intros W F; [contradiction| |apply ever_now; reflexivity].
  eapply ever_map; [|apply (whole_read e W F)]. cbn beta. intros n H k. cbn [items_option items_for_init].
  destruct (leading e W Pr_Normal) as (i & x & E & S). rewrite E in *. cbn [app] in *. destruct (starter_facts i (x ++ Mark Fp_Semicolon :: k) S) as (A & B).
  unfold for_starts, declares. rewrite A, B by (cbn; auto). rewrite H by stopping. rewrite eat_same. reflexivity.
Qed.
Lemma jump_read label : optional unraw label -> forall k, labelled_jump (items_option (fun x => [items_name x]) label ++ Mark Fp_Semicolon :: k) = Some (label, k).
Proof. destruct label as [(x & raw)|]; intros U k; [|reflexivity]. cbn in U. unfold unraw in U. cbn in U. subst raw. reflexivity. Qed.

Ltac at_kw k := cbn [statement_]; rewrite (at_word k) by (cbn; auto 22); rewrite any_word_word.

Theorem statements_read :
  (forall s, formed s -> faithful_statement s -> reads_statement s) /\
  (forall l, faithful_statements l -> forall final, formed_list final l -> reads_list final l) /\
  (forall l, faithful_clauses l -> forall first, formed_clauses first l -> reads_clauses l).
Proof.
  apply statement_node_ind; cbn [formed formed_list formed_clauses faithful_statement faithful_statements faithful_clauses].
  - intros body IH W F o. apply ever_S. eapply ever_map; [|apply block_read, (IH F true W)]. cbn beta. intros n H k _. cbn [items_statement].
    change (statement_ (S n) (curlied (items_statements body) ++ k)) with (take (b, l) <- block_ n (curlied (items_statements body) ++ k); Some (St_block b, l)).
    rewrite H. reflexivity.
  - intros kind ds last (D & L) (FD & FL) o. apply ever_S. eapply ever_map; [|eapply (declarators_read kind); eassumption]. cbn beta. intros n H k _.
    cbn [items_statement]. unfold items_declaration. cbn [app]. rewrite <- !app_assoc. cbn [app].
    destruct kind; cbn [declaring_keyword]; [at_kw Fk_Var|at_kw Fk_Let|at_kw Fk_Const]; rewrite H; reflexivity.
  - intros _ _ o. apply ever_S, ever_now. reflexivity.
  - intros e W F o. apply ever_S. eapply ever_map; [|apply (whole_read e W F)]. cbn beta. intros n H k _. cbn [items_statement]. rewrite <- app_assoc. cbn [app].
    destruct (leading e W Pr_Normal) as (i & x & E & S). rewrite E in *. cbn [app] in *. destruct (starter_facts i (x ++ Mark Fp_Semicolon :: k) S) as (A & B).
    cbn [statement_]. unfold at_mark. rewrite A, !B by (cbn; auto). rewrite H by stopping. rewrite eat_same. reflexivity.
  - intros test c IH (W & Wc & _) (F & Fc) o.
    assert (G : ever (fun n => forall k, follows false (ends_throwing false c) k ->
      statement_ n (word Fk_If :: wrapped (items Pr_Normal test) ++ items_statement false c ++ k) = Some (St_if test (braced false c), k))).
    { apply ever_S. eapply ever_map2; [|apply (parens_read test W F)|exact (IH Wc Fc false)]. cbn beta. intros n H1 H2 k Hk. at_kw Fk_If. rewrite H1, H2 by exact Hk.
      destruct Hk as (N & _). destruct (at_keyword k) as [w|] eqn:Q; [|reflexivity]. specialize (N w Q). destruct w; try reflexivity. exfalso. apply N. cbn. auto. }
    cbn [ends_throwing]. destruct o.
    + apply (ever_less _ 1) in G. apply (ever_plus _ 4). eapply ever_map; [|exact G]. cbn beta. intros n H k _. change (4 + n) with (S (S (S (1 + n)))).
      change (items_statement true (St_if test c)) with (curlied (word Fk_If :: wrapped (items Pr_Normal test) ++ items_statement false c)).
      unfold curlied. cbn [app]. rewrite <- !app_assoc. cbn [app].
      change (statement_ (S (S (S (1 + n)))) (Mark Fp_CurlyL :: word Fk_If :: wrapped (items Pr_Normal test) ++ items_statement false c ++ Mark Fp_CurlyR :: k))
        with (take (b, l) <- (take (b, l) <- statements_ (S (1 + n)) (word Fk_If :: wrapped (items Pr_Normal test) ++ items_statement false c ++ Mark Fp_CurlyR :: k);
              take l <- eat Fp_CurlyR l; Some (b, l)); Some (St_block b, l)).
      rewrite statements_go by (apply word_initial; cbn; intuition discriminate). rewrite H by (apply follows_mark; cbn; auto).
      rewrite statements_end by (right; left; eauto). rewrite eat_same. reflexivity.
    + eapply ever_map; [|exact G]. cbn beta. intros n H k Hk. cbn [items_statement app]. rewrite <- app_assoc. apply H, Hk.
  - intros test c IHc a IHa (W & (Wc & _) & (Wa & _) & T) (F & Fc & Fa) o. apply ever_S.
    eapply ever_map3; [|apply (parens_read test W F)|exact (IHc Wc Fc true)|exact (IHa Wa Fa o)]. cbn beta. intros n H1 H2 H3 k Hk.
    cbn [items_statement app]. rewrite <- !app_assoc. cbn [app]. at_kw Fk_If. rewrite H1, H2.
    + rewrite (at_word Fk_Else) by (cbn; auto 22). rewrite any_word_word, H3 by exact Hk. reflexivity.
    + rewrite T. apply follows_word; cbn; intuition discriminate.
  - intros init test update body IH (Wi & Wt & Wu & Wb & _) (Fi & Ft & Fu & Fb) o. apply ever_S.
    eapply ever_map2; [|exact (IH Wb Fb o)|eapply ever_map3; [|apply (for_init_read init Wi Fi)|apply (optional_read test Wt Ft)|apply (optional_read update Wu Fu)]; intros n X Y Z; exact (conj X (conj Y Z))].
    cbn beta. intros n H0 (H1 & H2 & H3) k Hk. cbn [items_statement]. unfold wrapped. repeat (cbn [app]; rewrite <- ?app_assoc). cbn [app]. at_kw Fk_For. rewrite eat_same, H1.
    rewrite H2 by (eexists _, _; split; [reflexivity|cbn; auto]). rewrite eat_same. rewrite H3 by (eexists _, _; split; [reflexivity|cbn; auto]). rewrite eat_same, H0 by exact Hk. reflexivity.
  - intros lhs rhs body IH (Wl & (Wr & _) & Wb & _) (Fl & Fr & Fb) o. apply ever_S.
    eapply ever_map3; [|apply (for_left_read lhs Wl Fl)|apply (whole_read rhs Wr Fr)|exact (IH Wb Fb o)]. cbn beta. intros n H1 H2 H3 k Hk.
    cbn [items_statement]. unfold items_for_head, wrapped. repeat (cbn [app]; rewrite <- ?app_assoc). cbn [app]. at_kw Fk_For. rewrite eat_same. unfold word at 1. rewrite H1.
    cbn [any_word]. rewrite H2 by stopping. rewrite eat_same, H3 by exact Hk. reflexivity.
  - intros lhs rhs body IH (Wl & (Wr & _) & Wb & _) (Fl & Fr & Fb) o. apply ever_S.
    eapply ever_map3; [|apply (for_left_read lhs Wl Fl)|apply (whole_read rhs Wr Fr)|exact (IH Wb Fb o)]. cbn beta. intros n H1 H2 H3 k Hk.
    cbn [items_statement]. unfold items_for_head, wrapped. repeat (cbn [app]; rewrite <- ?app_assoc). cbn [app]. at_kw Fk_For. rewrite eat_same. unfold word at 1. rewrite H1.
    cbn [any_word]. rewrite H2 by stopping. rewrite eat_same, H3 by exact Hk. reflexivity.
  - intros; contradiction.
  - intros test body IH (W & Wb & _) (F & Fb) o. apply ever_S. eapply ever_map2; [|apply (parens_read test W F)|exact (IH Wb Fb o)]. cbn beta. intros n H1 H2 k Hk.
    cbn [items_statement app]. rewrite <- !app_assoc. at_kw Fk_While. rewrite H1, H2 by exact Hk. reflexivity.
  - intros body IH test (W & (Wb & _) & T) (Fb & F) o. apply ever_S. eapply ever_map2; [|apply (parens_read test W F)|exact (IH Wb Fb o)]. cbn beta. intros n H1 H2 k Hk.
    cbn [items_statement app]. rewrite <- !app_assoc. cbn [app]. rewrite <- !app_assoc. cbn [app]. at_kw Fk_Do. rewrite H2.
    + rewrite any_word_word, H1, eat_same. reflexivity.
    + apply follows_word; destruct o; cbn; intuition discriminate.
  - intros e cases IH (W & Wc) (F & Fc) o. apply ever_S. eapply ever_map2; [|apply (parens_read e W F)|exact (IH Fc true Wc)]. cbn beta. intros n H1 H2 k _.
    cbn [items_statement app]. rewrite <- !app_assoc. unfold curlied. cbn [app]. rewrite <- !app_assoc. cbn [app]. at_kw Fk_Switch. rewrite H1, eat_same, H2, eat_same. reflexivity.
  - intros e body IH (W & Wb & _) (F & Fb) o. apply ever_S. eapply ever_map2; [|apply (parens_read e W F)|exact (IH Wb Fb o)]. cbn beta. intros n H1 H2 k Hk.
    cbn [items_statement app]. rewrite <- !app_assoc. at_kw Fk_With. rewrite H1, H2 by exact Hk. reflexivity.
  - intros (x & raw) body IH (V & Wb & _) (U & Fb) o. unfold unraw in U. cbn [snd] in U. subst raw. apply ever_S.
    eapply ever_map2; [|apply (name_read x V)|exact (IH Wb Fb o)]. cbn beta. intros n H1 H2 k Hk. cbn [items_statement app]. change (items_name (x, None)) with (Word x).
    cbn [statement_ at_keyword]. rewrite variable_keyword by exact V. change (at_mark Fp_CurlyL (Word x :: Mark Fp_Colon :: items_statement o body ++ k)) with false.
    change (eat Fp_Semicolon (Word x :: Mark Fp_Colon :: items_statement o body ++ k)) with (@None (list item)). cbn beta iota. rewrite H1 by stopping.
    change (eat Fp_Semicolon (Mark Fp_Colon :: items_statement o body ++ k)) with (@None (list item)). cbn beta iota. rewrite eat_same, H2 by exact Hk. reflexivity.
  - intros e W F o. apply ever_S. eapply ever_map; [|apply (whole_read e W F)]. cbn beta. intros n H k (_ & Hk). cbn [items_statement app]. at_kw Fk_Throw. rewrite H by (apply Hk; reflexivity). reflexivity.
  - intros body IHb param handler IHh (Wb & Np & Wp & Wh) (Fb & Fp & Fh) o. destruct param as [(x & raw)|]; [|congruence]. cbn in Fp. unfold unraw in Fp. cbn in Fp. subst raw. apply ever_S.
    eapply ever_map2; [|apply block_read, (IHb Fb true Wb)|apply block_read, (IHh Fh true Wh)]. cbn beta. intros n H1 H2 k Hk.
    cbn [items_statement app items_option]. rewrite <- !app_assoc. unfold items_param, wrapped. cbn [app]. at_kw Fk_Try. rewrite H1. rewrite (at_word Fk_Catch) by (cbn; auto 22).
    rewrite any_word_word, eat_same. change (items_name (x, None)) with (Word x). cbn [any_word]. rewrite eat_same, H2.
    destruct Hk as (N & _). destruct (at_keyword k) as [w|] eqn:Q; [|reflexivity]. specialize (N w Q). destruct w; try reflexivity. exfalso. apply N. destruct o; cbn; auto.
  - intros body IHb param handler IHh finalizer IHf (Wb & Np & Wp & Wh & Wf) (Fb & Fp & Fh & Ff) o. destruct param as [(x & raw)|]; [|congruence]. cbn in Fp. unfold unraw in Fp. cbn in Fp. subst raw. apply ever_S.
    eapply ever_map3; [|apply block_read, (IHb Fb true Wb)|apply block_read, (IHh Fh true Wh)|apply block_read, (IHf Ff true Wf)]. cbn beta. intros n H1 H2 H3 k _.
    cbn [items_statement app items_option]. rewrite <- !app_assoc. unfold items_param, wrapped. cbn [app]. rewrite <- !app_assoc. cbn [app]. at_kw Fk_Try. rewrite H1. rewrite (at_word Fk_Catch) by (cbn; auto 22).
    rewrite any_word_word, eat_same. change (items_name (x, None)) with (Word x). cbn [any_word]. rewrite eat_same, H2. rewrite (at_word Fk_Finally) by (cbn; auto 22). rewrite any_word_word, H3. reflexivity.
  - intros body IHb finalizer IHf (Wb & Wf) (Fb & Ff) o. apply ever_S. eapply ever_map2; [|apply block_read, (IHb Fb true Wb)|apply block_read, (IHf Ff true Wf)]. cbn beta. intros n H1 H2 k _.
    cbn [items_statement app]. rewrite <- !app_assoc. cbn [app]. at_kw Fk_Try. rewrite H1. rewrite (at_word Fk_Finally) by (cbn; auto 22). rewrite any_word_word, H2. reflexivity.
  - intros label W F o. apply ever_S, ever_now. intros n k _. cbn [items_statement]. unfold items_jump. cbn [app]. rewrite <- app_assoc. cbn [app]. at_kw Fk_Continue. rewrite jump_read by exact F. reflexivity.
  - intros label W F o. apply ever_S, ever_now. intros n k _. cbn [items_statement]. unfold items_jump. cbn [app]. rewrite <- app_assoc. cbn [app]. at_kw Fk_Break. rewrite jump_read by exact F. reflexivity.
  - intros value W F o. apply ever_S. eapply ever_map; [|apply (optional_read value W F)]. cbn beta. intros n H k _. cbn [items_statement app]. rewrite <- app_assoc. cbn [app]. at_kw Fk_Return.
    rewrite H by (eexists _, _; split; [reflexivity|cbn; auto]). rewrite eat_same. reflexivity.
  - intros _ _ o. apply ever_S, ever_now. reflexivity.
  - intros _ final _. apply ever_S, ever_now. intros n k Hk. apply statements_end, (closes_less final), Hk.
  - intros s IHs l IHl (Fs & Fl) final (Ws & T & Wl). apply ever_S. eapply ever_map2; [|exact (IHs Ws Fs false)|exact (IHl Fl final Wl)]. cbn beta. intros n H1 H2 k Hk.
    cbn [items_statements]. rewrite <- app_assoc. destruct (first_item s false Ws) as (i & x & E & I). rewrite E. cbn [app]. rewrite statements_go by exact I.
    rewrite app_comm_cons, <- E, H1; [rewrite H2 by exact Hk; reflexivity|].
    destruct (ends_throwing false s) eqn:Q.
    + destruct (T eq_refl) as (-> & ->). cbn [items_statements app]. apply closes_follows, Hk.
    + destruct l as [|s' l']; [eapply closes_follows_false, Hk|]. cbn [items_statements]. destruct (first_item s' false (proj1 Wl)) as (i' & x' & E' & I'). rewrite E'. cbn [app].
      apply follows_initial, I'.
  - intros _ first _. apply ever_S, ever_now. reflexivity.
  - intros test c IHc l IHl (Ft & Fc & Fl) first (Wt & _ & Wc & Wl). specialize (IHc Fc _ Wc). specialize (IHl Fl _ Wl). apply ever_S.
    assert (C : forall k, closes match l with No_clauses => true | _ => false end (items_clauses l ++ Mark Fp_CurlyR :: k)).
    { intros k. destruct l as [|[e|] c' l']; [right; left; eexists; reflexivity| |]; right; right; (split; [reflexivity|]); eexists _, _; (split; [reflexivity|auto]). }
    destruct test as [e|]; cbn [optional] in *.
    + eapply ever_map3; [|apply (whole_read e Wt Ft)|exact IHc|exact IHl]. cbn beta. intros n H1 H2 H3 k. cbn [items_clauses app]. repeat (cbn [app]; rewrite <- ?app_assoc). cbn [app clauses_].
      rewrite (at_word Fk_Case) by (cbn; auto 22). rewrite any_word_word, H1 by stopping. rewrite eat_same, H2 by apply C. rewrite H3. reflexivity.
    + eapply ever_map2; [|exact IHc|exact IHl]. cbn beta. intros n H2 H3 k. cbn [items_clauses app]. repeat (cbn [app]; rewrite <- ?app_assoc). cbn [app clauses_].
      rewrite (at_word Fk_Default) by (cbn; auto 22). rewrite any_word_word, eat_same, H2 by apply C. rewrite H3. reflexivity.
Qed.
