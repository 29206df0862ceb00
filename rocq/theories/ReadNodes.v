(** Displayed expressions are read back: a reader of items finds the tree they display. *)
From Coq Require Import String List NArith Bool Arith Lia.
From Verif Require Import Base Tokens SpecTokens SpecHints ByteFacts Formatter SpecFormatter FormatterFacts Nodes SpecNodes NodeItems NodeText Statements SpecStatements SpecFaithful.
Import ListNotations.

Fixpoint news (j : nat) (e : expression) : expression :=
  match j with 0 => e | S j => news j (E_new_empty e) end.

(** [j]: the number of [new]s in front that have no arguments yet. *)
Fixpoint start (n j : nat) (l : list item) {struct n} : option (expression * list item) :=
  match n with 0 => None | S n =>
  match l with
  | Mark Fp_ParenL :: l =>
    match whole n l with Some (e, Mark Fp_ParenR :: l) => continue n j e l | _ => None end
  | Number s :: l => continue n j (E_numeric s) l
  | Quoted s :: l => continue n j (E_string s None) l
  | Word w :: l =>
    if beqb w (s2b "new") then start n (S j) l
    else if beqb w (s2b "this") then continue n j E_this l
    else if beqb w (s2b "null") then continue n j E_null l
    else if beqb w (s2b "true") then continue n j (E_boolean true) l
    else if beqb w (s2b "false") then continue n j (E_boolean false) l
    else if beqb w (s2b "super") then
      match l with
      | Mark Fp_ParenL :: l => match arguments n l with Some (args, last, l) => continue n j (E_super_call args last) l | None => None end
      | _ => match property n l with Some (a, l) => continue n j (E_super_member a) l | None => None end
      end
    else continue n j (E_binding w None) l
  | _ => None
  end end
with continue (n j : nat) (e : expression) (l : list item) {struct n} : option (expression * list item) :=
  match n with 0 => None | S n =>
  match l with
  | Mark Fp_ParenL :: l =>
    match arguments n l with
    | Some (args, last, l) =>
      match j with 0 => continue n 0 (E_call e args last) l | S j => continue n j (E_new e args last) l end
    | None => None
    end
  | Mark Fp_Period :: _ | Mark Fp_SquareL :: _ =>
    match property n l with Some (a, l) => continue n j (E_member e a) l | None => None end
  | _ => Some (news j e, l)
  end end
with property (n : nat) (l : list item) {struct n} : option (access * list item) :=
  match n with 0 => None | S n =>
  match l with
  | Mark Fp_Period :: Word w :: l => Some (A_identifier w None, l)
  | Mark Fp_SquareL :: l => match assign n l with Some (e, Mark Fp_SquareR :: l) => Some (A_computed e, l) | _ => None end
  | _ => None
  end end
(** Behind the parenthesis. *)
with arguments (n : nat) (l : list item) {struct n} : option (arg_list * last_arg * list item) :=
  match n with 0 => None | S n =>
  match l with
  | Mark Fp_ParenR :: l => Some (No_args, No_last, l)
  | _ =>
    match passed n l with
    | Some (a, Mark Fp_Comma :: l) =>
      match arguments n l with Some (args, last, l) => Some (Cons_arg a args, last, l) | None => None end
    | Some (a, Mark Fp_ParenR :: l) => Some (No_args, Last a, l)
    | _ => None
    end
  end end
with passed (n : nat) (l : list item) {struct n} : option (argument * list item) :=
  match n with 0 => None | S n =>
  match l with
  | Mark Fp_Ellipsis :: l => match assign n l with Some (e, l) => Some (Arg_spread e, l) | None => None end
  | _ => match assign n l with Some (e, l) => Some (Arg_expression e, l) | None => None end
  end end
with assign (n : nat) (l : list item) {struct n} : option (expression * list item) :=
  match n with 0 => None | S n =>
  match start n 0 l with
  | Some (t, Mark Fp_Question :: l) =>
    match assign n l with
    | Some (c, Mark Fp_Colon :: l) => match assign n l with Some (a, l) => Some (E_conditional t c a, l) | None => None end
    | _ => None
    end
  | r => r
  end end
with whole (n : nat) (l : list item) {struct n} : option (expression * list item) :=
  match n with 0 => None | S n =>
  match assign n l with Some (e, l) => commas n e l | None => None end end
with commas (n : nat) (e : expression) (l : list item) {struct n} : option (expression * list item) :=
  match n with 0 => None | S n =>
  match l with
  | Mark Fp_Comma :: l => match assign n l with Some (y, l) => commas n (E_sequence e y) l | None => None end
  | _ => Some (e, l)
  end end.

(** What ends an operand, an assignment, an expression. *)
Definition headed (ps : list fpunct) (k : list item) : Prop := exists p k', k = Mark p :: k' /\ In p ps.
Definition stops (k : list item) : Prop := ~ headed [Fp_ParenL; Fp_Period; Fp_SquareL] k.
Definition stops_assignment (k : list item) : Prop := ~ headed [Fp_ParenL; Fp_Period; Fp_SquareL; Fp_Question] k.
Definition stops_expression (k : list item) : Prop := ~ headed [Fp_ParenL; Fp_Period; Fp_SquareL; Fp_Question; Fp_Comma] k.
Lemma stops_less k : stops_assignment k -> stops k.
Proof. intros H (p & k' & E & I). apply H. exists p, k'. split; [exact E|]. cbn in *. intuition. Qed.
Lemma stops_lesser k : stops_expression k -> stops_assignment k.
Proof. intros H (p & k' & E & I). apply H. exists p, k'. split; [exact E|]. cbn in *. intuition. Qed.
Lemma not_headed ps p k : ~ In p ps -> ~ headed ps (Mark p :: k).
Proof. intros N (q & k' & E & I). injection E as <- _. contradiction. Qed.
Ltac stopping := apply not_headed; cbn; intuition discriminate.

Definition ever (P : nat -> Prop) : Prop := exists m, forall n, m <= n -> P n.
Lemma ever_now (P : nat -> Prop) : (forall n, P n) -> ever P.
Proof. intros H. exists 0. auto. Qed.
Lemma ever_map (P Q : nat -> Prop) : (forall n, P n -> Q n) -> ever P -> ever Q.
Proof. intros H (m & P_). exists m. auto. Qed.
Lemma ever_map2 (P Q R : nat -> Prop) : (forall n, P n -> Q n -> R n) -> ever P -> ever Q -> ever R.
Proof. intros H (m & A) (m' & B). exists (max m m'). intros n L. apply H; [apply A|apply B]; lia. Qed.
Lemma ever_map3 (P Q R T : nat -> Prop) : (forall n, P n -> Q n -> R n -> T n) -> ever P -> ever Q -> ever R -> ever T.
Proof. intros H A B C. eapply ever_map2; [|exact A|eapply ever_map2; [|exact B|exact C]]; [|intros n X Y; exact (conj X Y)]. cbn. intros n X (Y & Z). auto. Qed.
Lemma ever_S (P : nat -> Prop) : ever (fun n => P (S n)) -> ever P.
Proof. intros (m & H). exists (S m). intros [|n] L; [lia|]. apply H. lia. Qed.
Lemma ever_plus (P : nat -> Prop) d : ever (fun n => P (d + n)) -> ever P.
Proof. intros (m & H). exists (d + m). intros n L. replace n with (d + (n - d)) by lia. apply H. lia. Qed.
Lemma ever_less (P : nat -> Prop) d : ever P -> ever (fun n => P (d + n)).
Proof. intros (m & H). exists m. intros n L. apply H. lia. Qed.

(** The items of [e] in front of an operand, at least as binding as a member. *)
Definition reads_member (e : expression) : Prop :=
  exists d, ever (fun n => forall j k, (j <> 0 -> calls e = false) -> start (d + n) j (items Pr_Member e ++ k) = continue n j e k).
Definition reads_operand (e : expression) : Prop :=
  ever (fun n => forall j k, stops k -> (j <> 0 -> calls e = false) -> start n j (items Pr_New e ++ k) = Some (news j e, k)).
Definition reads_assignment (e : expression) : Prop :=
  ever (fun n => forall k, stops_assignment k -> assign n (items Pr_Assignment e ++ k) = Some (e, k)).
Definition reads_expression (e : expression) : Prop :=
  exists d, ever (fun n => forall k, stops_assignment k -> whole (d + n) (items Pr_Normal e ++ k) = commas n e k).

Lemma continue_stops n j e k : stops k -> continue (S n) j e k = Some (news j e, k).
Proof.
  intros H. destruct k as [|[w|p|s|s|v f|s] k]; try reflexivity. destruct p; try reflexivity; exfalso; apply H; eexists _, _; (split; [reflexivity|]); cbn; auto.
Qed.
Lemma commas_stops n e k : stops_expression k -> commas (S n) e k = Some (e, k).
Proof.
  intros H. destruct k as [|[w|p|s|s|v f|s] k]; try reflexivity. destruct p; try reflexivity; exfalso; apply H; eexists _, _; (split; [reflexivity|]); cbn; auto 7.
Qed.

(** From the more binding to the less binding. *)
Lemma member_operand e : items Pr_New e = items Pr_Member e -> reads_member e -> reads_operand e.
Proof.
  intros Q (d & H). apply (ever_less _ 1) in H. apply (ever_plus _ (S d)). eapply ever_map; [|exact H]. intros n R j k Sk C. rewrite Q.
  replace (S d + n) with (d + (1 + n)) by lia. rewrite R by exact C. apply continue_stops, Sk.
Qed.
Lemma operand_assignment e : items Pr_Assignment e = items Pr_New e -> reads_operand e -> reads_assignment e.
Proof.
  intros Q H. apply ever_S. eapply ever_map; [|exact H]. cbn. intros n R k S. rewrite Q, R; [|apply stops_less, S|congruence]. cbn [news].
  destruct k as [|[w|p|s|s|v f|s] k]; try reflexivity. destruct p; try reflexivity. exfalso. apply S. eexists _, _. split; [reflexivity|]. cbn. auto.
Qed.
Lemma assignment_expression e : items Pr_Normal e = items Pr_Assignment e -> reads_assignment e -> reads_expression e.
Proof.
  intros Q H. exists 1. eapply ever_map; [|exact H]. cbn. intros n R k S. rewrite Q, R by exact S. reflexivity.
Qed.
Lemma expression_whole e : reads_expression e -> ever (fun n => forall k, stops_expression k -> whole n (items Pr_Normal e ++ k) = Some (e, k)).
Proof.
  intros (d & H). apply (ever_less _ 1) in H. apply (ever_plus _ (S d)). eapply ever_map; [|exact H]. intros n R k Sk.
  replace (S d + n) with (d + (1 + n)) by lia. rewrite R by apply stops_lesser, Sk. apply commas_stops, Sk.
Qed.
(** Between parentheses. *)
Lemma wrapped_member e : items Pr_Member e = wrapped (items Pr_Normal e) -> reads_expression e -> reads_member e.
Proof.
  intros Q H. exists 1. eapply ever_map; [|apply expression_whole, H]. cbn. intros n R j k _. rewrite Q. unfold wrapped. cbn [app]. rewrite <- app_assoc.
  rewrite R by stopping. reflexivity.
Qed.

Definition all_levels (e : expression) : Prop := reads_member e /\ reads_operand e /\ reads_assignment e /\ reads_expression e.
Lemma all_from_member e : items Pr_New e = items Pr_Member e -> items Pr_Assignment e = items Pr_New e -> items Pr_Normal e = items Pr_Assignment e ->
  reads_member e -> all_levels e.
Proof.
  intros Q1 Q2 Q3 M. assert (O : reads_operand e) by (apply member_operand; auto). assert (A : reads_assignment e) by (apply operand_assignment; auto).
  split; [exact M|]. split; [exact O|]. split; [exact A|]. apply assignment_expression; auto.
Qed.

Definition reads_access (a : access) : Prop := ever (fun n => forall k, property n (items_access a ++ k) = Some (a, k)).
Definition reads_argument (a : argument) : Prop :=
  ever (fun n => forall k, headed [Fp_Comma; Fp_ParenR] k -> passed n (items_argument Pr_Assignment a ++ k) = Some (a, k)).
Definition reads_args (l : arg_list) (x : last_arg) : Prop :=
  ever (fun n => forall k, arguments n (items_args l ++ items_last x ++ Mark Fp_ParenR :: k) = Some (l, x, k)).

Lemma word_new w : w <> s2b "new" -> beqb w (s2b "new") = false.
Proof. intros H. apply not_true_is_false. rewrite beqb_eq. exact H. Qed.
Definition atoms : list string := ["new"; "this"; "null"; "true"; "false"; "super"]%string.
Lemma variable_word w v : variable w -> In v atoms -> beqb w (s2b v) = false.
Proof.
  intros (_ & P & _) I. apply not_true_is_false. intros B. apply beqb_eq in B. subst w. cbn in I. repeat (destruct I as [<-|I]); try contradiction I; discriminate P.
Qed.
Lemma start_variable n j w k : variable w -> start (S n) j (Word w :: k) = continue n j (E_binding w None) k.
Proof. intros V. cbn [start]. rewrite !(variable_word w _ V) by (cbn; auto 8). reflexivity. Qed.

(** An argument begins neither with a comma nor with a parenthesis that closes. *)
Lemma arguments_open n i l : opens i \/ i = Mark Fp_Ellipsis -> arguments (S n) (i :: l) =
  match passed n (i :: l) with
  | Some (a, Mark Fp_Comma :: l) =>
    match arguments n l with Some (args, last, l) => Some (Cons_arg a args, last, l) | None => None end
  | Some (a, Mark Fp_ParenR :: l) => Some (No_args, Last a, l)
  | _ => None
  end.
Proof. intros [(_ & O)|O]; [|subst i; reflexivity]. destruct i as [w|p|s|s|v f|s]; try reflexivity. destruct p; try contradiction O; reflexivity. Qed.
Lemma passed_open n i l : opens i -> passed (S n) (i :: l) = match assign n (i :: l) with Some (e, l) => Some (Arg_expression e, l) | None => None end.
Proof. intros (_ & O). destruct i as [w|p|s|s|v f|s]; try reflexivity. destruct p; try contradiction O; reflexivity. Qed.
Lemma argument_opens a p : well_formed_argument a -> exists i x, items_argument p a = i :: x /\ (opens i \/ i = Mark Fp_Ellipsis).
Proof.
  destruct a as [e|e]; cbn [well_formed_argument items_argument]; intros W.
  - destruct (proj1 items_block e W p) as (_ & _ & (i & x & E & O) & _). exists i, x. auto.
  - eexists _, _. auto.
Qed.
Lemma sequence_items e : sequence_ e = false -> items Pr_Normal e = items Pr_Assignment e.
Proof. destruct e; try discriminate; reflexivity. Qed.

Lemma called j e args last k n : arguments n (items_args args ++ items_last last ++ Mark Fp_ParenR :: k) = Some (args, last, k) ->
  continue (S n) j e (wrapped (items_args args ++ items_last last) ++ k) =
  match j with 0 => continue n 0 (E_call e args last) k | S j => continue n j (E_new e args last) k end.
Proof. intros H. unfold wrapped. cbn [app continue]. rewrite <- !app_assoc. cbn [app]. rewrite H. destruct j; reflexivity. Qed.

Theorem all_read :
  (forall e, well_formed e -> faithful e -> all_levels e) /\
  (forall a, well_formed_access a -> faithful_access a -> reads_access a) /\
  (forall a, well_formed_argument a -> faithful_argument a -> reads_argument a) /\
  (forall l, well_formed_args l -> faithful_args l -> forall x, well_formed_last x -> reads_args No_args x -> reads_args l x) /\
  (forall x, well_formed_last x -> faithful_last x -> reads_args No_args x).
Proof.
  apply node_ind; cbn [well_formed well_formed_access well_formed_argument well_formed_args well_formed_last faithful faithful_access faithful_argument faithful_args faithful_last];
    try (intros; contradiction).
  - intros w raw (V & _) ->. apply all_from_member; try reflexivity. exists 1. apply ever_now. intros n j k _. apply start_variable, V.
  - intros _ _. apply all_from_member; try reflexivity. exists 1. apply ever_now. reflexivity.
  - intros _ _. apply all_from_member; try reflexivity. exists 1. apply ever_now. reflexivity.
  - intros b _ _. apply all_from_member; try reflexivity. exists 1. apply ever_now. intros n j k _. destruct b; reflexivity.
  - intros s _ _. apply all_from_member; try reflexivity. exists 1. apply ever_now. reflexivity.
  - intros s raw _ ->. apply all_from_member; try reflexivity. exists 1. apply ever_now. reflexivity.
  - intros o IHo a IHa (Wo & Wa & _) (Fo & Fa). apply all_from_member; try reflexivity. destruct (IHo Wo Fo) as ((d & M) & _). exists (S d).
    apply (ever_less _ 1) in M. eapply ever_map2; [|exact M|exact (IHa Wa Fa)]. cbn [calls]. intros n H A j k C.
    replace (S d + n) with (d + (1 + n)) by lia. cbn [items]. rewrite <- app_assoc, H by exact C. cbn [plus continue].
    destruct a; [| |contradiction Wa]; cbn [items_access app] in *; rewrite A; reflexivity.
  - intros a IHa Wa Fa. apply all_from_member; try reflexivity. exists 1. eapply ever_map; [|exact (IHa Wa Fa)]. cbn [plus]. intros n A j k _.
    cbn [items app start]. destruct a; [| |contradiction Wa]; cbn [items_access app] in *; rewrite A; reflexivity.
  - intros c IHc l IHl x IHx (Wc & Wl & Wx & _) ((Fc & N) & Fl & Fx). apply all_from_member; try reflexivity. destruct (IHc Wc Fc) as ((d & M) & _). exists (S d).
    apply (ever_less _ 1) in M. eapply ever_map2; [|exact M|exact (IHl Wl Fl x Wx (IHx Wx Fx))]. cbn [calls]. intros n H A j k C.
    destruct j as [|j]; [|exfalso; discriminate C; discriminate]. replace (S d + n) with (d + (1 + n)) by lia. cbn [items].
    replace (items Pr_New c) with (items Pr_Member c) by (destruct c; try reflexivity; destruct (N _ eq_refl)).
    rewrite <- app_assoc, H by congruence. change (1 + n) with (S n). rewrite called by apply A. reflexivity.
  - intros c IHc l IHl x IHx (Wc & Wl & Wx & _) ((Fc & N) & Fl & Fx). apply all_from_member; try reflexivity. destruct (IHc Wc Fc) as ((d & M) & _). exists (S (S d)).
    apply (ever_less _ 1) in M. eapply ever_map2; [|exact M|exact (IHl Wl Fl x Wx (IHx Wx Fx))]. cbn [calls]. intros n H A j k _.
    change (S (S d) + n) with (S (S (d + n))). change (items Pr_Member (E_new c l x)) with (word Fk_New :: items Pr_Member c ++ wrapped (items_args l ++ items_last x)).
    change (start (S (S (d + n))) j ((word Fk_New :: items Pr_Member c ++ wrapped (items_args l ++ items_last x)) ++ k))
      with (start (S (d + n)) (S j) ((items Pr_Member c ++ wrapped (items_args l ++ items_last x)) ++ k)).
    replace (S (d + n)) with (d + (1 + n)) by lia.
    rewrite <- app_assoc, H by (intros _; exact N). change (1 + n) with (S n). rewrite called by apply A. reflexivity.
  - intros c IHc Wc (Fc & N). destruct (IHc Wc Fc) as (_ & O & _).
    assert (O' : reads_operand (E_new_empty c)).
    { apply ever_S. eapply ever_map; [|exact O]. cbn beta. intros n H j k Sk _. 
      change (start (S n) j (items Pr_New (E_new_empty c) ++ k)) with (start n (S j) (items Pr_New c ++ k)). rewrite H; auto. }
    assert (A : reads_assignment (E_new_empty c)) by (apply operand_assignment; auto). assert (W : reads_expression (E_new_empty c)) by (apply assignment_expression; auto).
    split; [|auto]. apply wrapped_member; auto.
  - intros l IHl x IHx (Wl & Wx & _) (Fl & Fx). apply all_from_member; try reflexivity. exists 1.
    eapply ever_map; [|exact (IHl Wl Fl x Wx (IHx Wx Fx))]. cbn beta. intros n A j k _. 
    change (start (1 + n) j (items Pr_Member (E_super_call l x) ++ k))
      with (match arguments n (((items_args l ++ items_last x) ++ [Mark Fp_ParenR]) ++ k) with Some (args, last, k) => continue n j (E_super_call args last) k | None => None end).
    rewrite <- !app_assoc. cbn [app]. rewrite A. reflexivity.
  - intros t IHt c IHc a IHa (Wt & Wc & Wa) (Ft & Fc & Fa). destruct (IHt Wt Ft) as (_ & O & _). destruct (IHc Wc Fc) as (_ & _ & C & _). destruct (IHa Wa Fa) as (_ & _ & A & _).
    assert (A' : reads_assignment (E_conditional t c a)).
    { apply ever_S. eapply ever_map3; [|exact O|exact C|exact A]. cbn beta. intros n H1 H2 H3 k Sk.
      change (items Pr_Assignment (E_conditional t c a)) with (items Pr_LogicalOr t ++ Mark Fp_Question :: items Pr_Assignment c ++ Mark Fp_Colon :: items Pr_Assignment a).
      replace (items Pr_LogicalOr t) with (items Pr_New t) by (destruct t; reflexivity).
      rewrite <- app_assoc. cbn [app]. rewrite <- app_assoc. cbn [app]. cbn [assign]. rewrite H1 by (stopping || congruence). cbn [news].
      rewrite H2 by stopping. rewrite H3 by exact Sk. reflexivity. }
    assert (W : reads_expression (E_conditional t c a)) by (apply assignment_expression; auto). assert (M : reads_member (E_conditional t c a)) by (apply wrapped_member; auto).
    split; [exact M|]. split; [|auto]. apply member_operand; auto.
  - intros x IHx y IHy (Wx & Wy) (Fx & Fy). destruct (IHx Wx Fx) as (_ & _ & _ & (d & X)). destruct (IHy Wy Fy) as (_ & _ & Y & _).
    assert (W : reads_expression (E_sequence x y)).
    { exists (S d). apply (ever_less _ 1) in X. eapply ever_map2; [|exact X|exact Y]. cbn beta. intros n H1 H2 k Sk.
      change (items Pr_Normal (E_sequence x y)) with (items Pr_Normal x ++ Mark Fp_Comma :: items Pr_Assignment y). rewrite <- app_assoc. cbn [app].
      replace (S d + n) with (d + (1 + n)) by lia. rewrite H1 by stopping. change (1 + n) with (S n). cbn [commas]. rewrite H2 by exact Sk. reflexivity. }
    assert (M : reads_member (E_sequence x y)) by (apply wrapped_member; auto). assert (O : reads_operand (E_sequence x y)) by (apply member_operand; auto).
    split; [exact M|]. split; [exact O|]. split; [|exact W]. apply operand_assignment; auto.
  - intros w raw _ ->. apply ever_S, ever_now. reflexivity.
  - intros e IHe We Fe. destruct (IHe We Fe) as (_ & _ & A & _). apply ever_S. eapply ever_map; [|exact A]. cbn beta. intros n H k. cbn [items_access app property].
    rewrite <- app_assoc. cbn [app]. rewrite H by stopping. reflexivity.
  - intros e IHe We Fe. destruct (IHe We Fe) as (_ & _ & A & _). apply ever_S. eapply ever_map; [|exact A]. cbn beta. intros n H k Hk. cbn [items_argument].
    destruct (proj1 items_block e We Pr_Assignment) as (_ & _ & (i & z & E & O) & _). rewrite E. cbn [app]. rewrite passed_open by exact O.
    rewrite app_comm_cons, <- E, H; [reflexivity|]. destruct Hk as (p & k' & -> & I). cbn in I. destruct I as [<-|[<-|[]]]; stopping.
  - intros e IHe We Fe. destruct (IHe We Fe) as (_ & _ & A & _). apply ever_S. eapply ever_map; [|exact A]. cbn beta. intros n H k Hk. cbn [items_argument app passed].
    rewrite H; [reflexivity|]. destruct Hk as (p & k' & -> & I). cbn in I. destruct I as [<-|[<-|[]]]; stopping.
  - intros _ _ x _ H. exact H.
  - intros a IHa l IHl (Wa & Wl) (Fa & Fl) x Wx Hx. apply ever_S. eapply ever_map2; [|exact (IHa Wa Fa)|exact (IHl Wl Fl x Wx Hx)]. cbn beta. intros n H1 H2 k.
    cbn [items_args]. rewrite <- app_assoc. cbn [app]. destruct (argument_opens a Pr_Assignment Wa) as (i & z & E & O). rewrite E. cbn [app]. rewrite arguments_open by exact O.
    rewrite app_comm_cons, <- E, H1 by (eexists _, _; split; [reflexivity|]; cbn; auto). rewrite H2. reflexivity.
  - intros _ _. apply ever_S, ever_now. reflexivity.
  - intros a IHa Wa (Fa & Sq). apply ever_S. eapply ever_map; [|exact (IHa Wa Fa)]. cbn beta. intros n H k. cbn [items_args items_last app].
    replace (items_argument Pr_Normal a) with (items_argument Pr_Assignment a) by (destruct a; cbn [items_argument]; rewrite sequence_items by exact Sq; reflexivity).
    destruct (argument_opens a Pr_Assignment Wa) as (i & z & E & O). rewrite E. cbn [app]. rewrite arguments_open by exact O.
    rewrite app_comm_cons, <- E, H by (eexists _, _; split; [reflexivity|]; cbn; auto). reflexivity.
Qed.
