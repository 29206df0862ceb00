(** Every program can be written with all its semicolons. *)
From Coq Require Import String List Bool Arith Lia.
From Verif Require Import Base Tokens ParserCore SpecGrammar SpecLanguage GrammarRules SpecSemicolons.
Import ListNotations.
Local Open Scope string_scope.
Local Open Scope list_scope.

Lemma completed_more b k i i' : completed b k i i' -> forall k', k <= k' -> completed b k' i i'.
Proof.
  induction 1; intros k' L.
  - constructor.
  - constructor. assumption.
  - destruct k' as [|k']; [lia|]. constructor; [assumption|]. apply IHcompleted. lia.
Qed.
Lemma insertable_more b i : insertable false i = true -> insertable b i = true.
Proof. unfold insertable. destruct (snd (next i)) as [[]| | | | | | | | |]; cbn [orb]; intros H; rewrite ?H, ?orb_true_r; reflexivity. Qed.
Lemma completed_after k i i' : completed false k i i' -> forall b, completed b k i i'.
Proof.
  remember false as f eqn:F. induction 1; subst; intros b0; constructor; auto using insertable_more.
Qed.
Lemma completed_next b i i' : completed b 0 i i' -> next i' = next i /\ completed (closes_paren (snd (next i))) 2 (tl i) (tl i').
Proof. intros H. inversion H; subst; cbn; split; try reflexivity; try assumption. constructor. Qed.
Lemma completed_front b k i i' : completed b k i i' -> completed b 0 i i' \/ next i' = (false, TPunctuator Semicolon).
Proof. destruct 1; [left; constructor|left; constructor; assumption|right; reflexivity]. Qed.
Lemma completed_back b k i i' : completed b k i i' -> k = 0 \/ insertable b i = true \/ completed b 0 i i'.
Proof. destruct 1; [right; right; constructor|right; right; constructor; assumption|auto]. Qed.

(** How many semicolons may be added behind a phrase. *)
Definition cap (n : nt) : nat :=
  match n with
  | NVariableStatement | NLet | NConst => 1
  | NBlock | NLexical _ | NLexicalTail _ | NVariable | NVariableTail | NInitializer | NAssignment | NExpression
  | NExpressionTail | NArrowBody | NYield | NOptExpression | NConditional | NBinary | NBinaryTail | NUnary | NUpdate
  | NLeftHand _ | NLeftHandTail _ | NArguments | NPrimary | NArray | NObject | NTemplate | NTemplateRest
  | NParenthesized | NFunctionExpression | NFunctionRest _ _ => 2
  | _ => 0
  end.
(** Which nonterminals may derive nothing. *)
Definition vanishes (n : nt) : bool :=
  match n with
  | NModuleItems | NImportSpecifiers | NExportSpecifiers | NStatementList | NLexicalTail _ | NVariableTail | NForMore _
  | NOptExpression | NClauses _ | NFinally | NPatternProperties | NPatternElements | NParameterList | NParameterNext
  | NHeritage | NClassItems | NExpressionTail | NBinaryTail | NLeftHandTail _ | NArgumentList | NPlainArgumentList
  | NElements | NElement | NProperties | NParenthesizedBody | NParenthesizedTail => true
  | NMethodName static _ => static
  | _ => false
  end.

Fixpoint front (k : nat) (alpha : list sym) : nat :=
  match alpha with
  | [] => k
  | T _ :: _ => 0
  | N n _ :: beta => if vanishes n then front k beta else 0
  | Semi _ :: beta => S (front k beta)
  | When _ :: beta => front k beta
  end.
Fixpoint related (k : nat) (alpha : list sym) (i i' : tokens) : Prop :=
  match alpha with
  | [] => completed false k i i'
  | T ts :: beta => completed false 0 i i' /\ exists t j j', i = t :: j /\ i' = t :: j' /\ related k beta j j'
  | N n _ :: beta => completed false (if vanishes n then front k beta else 0) i i'
  | Semi b :: beta => completed b (S (front k beta)) i i'
  | When _ :: beta => related k beta i i'
  end.
Definition after_do (alpha : list sym) : bool := match alpha with Semi b :: _ => b | _ => false end.
Fixpoint fine (k : nat) (alpha : list sym) : Prop :=
  match alpha with
  | [] => True
  | T ts :: beta => fine k beta /\ front k beta <= 2 /\ (after_do beta = true -> ts = [P ParenClose])
  | N n _ :: beta => fine k beta /\ front k beta <= cap n /\ after_do beta = false
  | Semi _ :: beta => fine k beta /\ front k beta <= 2 /\ after_do beta = false
  | When c :: beta => fine k beta /\ after_do beta = false /\
      forall g i i', related k beta i i' -> c g i = true -> c g i' = true
  end.

Lemma related_completed k alpha i i' : fine k alpha -> related k alpha i i' -> completed (after_do alpha) (front k alpha) i i'.
Proof.
  revert i i'. induction alpha as [|[ts|n ch|b|c] beta IH]; intros i i'; cbn [fine related front after_do].
  - auto.
  - intros _ [H _]. exact H.
  - auto.
  - auto.
  - intros (F & D & _) R. rewrite <- D. auto.
Qed.

(** Leaving out conditions. *)
Inductive without_conditions : list sym -> list sym -> Prop :=
| w_nil : without_conditions [] []
| w_keep s alpha beta : without_conditions alpha beta -> without_conditions (s :: alpha) (s :: beta)
| w_drop c alpha beta : without_conditions alpha beta -> without_conditions (When c :: alpha) beta.
Lemma without_refl alpha : without_conditions alpha alpha.
Proof. induction alpha; constructor; assumption. Qed.

Definition phrase_completes (g : grammar_flags) (n : nt) (i r : tokens) : Prop :=
  forall k r', k <= cap n -> completed false k r r' ->
    exists i', completed false (if vanishes n then k else 0) i i' /\ explicit g n i' r'.
Definition seq_completes (g : grammar_flags) (alpha : list sym) (i r : tokens) : Prop :=
  forall beta k r', without_conditions alpha beta -> fine k beta -> completed false k r r' ->
    exists i', related k beta i i' /\ explicit_seq g beta i' r'.

Lemma one_of_paren g t : one_of g [P ParenClose] t = true -> closes_paren t = true.
Proof. destruct t as [[]| | | | | | | | |]; cbn; try discriminate; reflexivity. Qed.

Lemma seq_completes_end g i : seq_completes g [] i i.
Proof. intros beta k r' W _ C. inversion W; subst. exists r'. split; [exact C|constructor]. Qed.
Lemma seq_completes_token g ts nl t i alpha r : one_of g ts t = true -> seq_completes g alpha i r ->
  seq_completes g (T ts :: alpha) ((nl, t) :: i) r.
Proof.
  intros O IH beta k r' W F C. inversion W as [|? ? b W'|]; subst. cbn [fine] in F. destruct F as (F & L & D).
  destruct (IH b k r' W' F C) as (i' & R & X). exists ((nl, t) :: i'). split; [|constructor; assumption].
  cbn [related]. split; [|exists (nl, t), i, i'; auto].
  constructor. apply completed_more with (k := front k b); [|exact L].
  apply related_completed in R; [|exact F]. destruct (after_do b) eqn:A.
  - specialize (D eq_refl). subst ts. apply one_of_paren in O. rewrite O. exact R.
  - apply completed_after. exact R.
Qed.
Lemma seq_completes_nonterminal g n ch i m alpha r : phrase_completes (changed g ch) n i m -> seq_completes g alpha m r ->
  seq_completes g (N n ch :: alpha) i r.
Proof.
  intros Ph IH beta k r' W F C. inversion W as [|? ? b W'|]; subst. cbn [fine] in F. destruct F as (F & L & D).
  destruct (IH b k r' W' F C) as (m' & R & X). apply related_completed in R; [|exact F]. rewrite D in R.
  destruct (Ph _ _ L R) as (i' & R' & X'). exists i'. split; [exact R'|econstructor; eassumption].
Qed.
Lemma seq_completes_semicolon g b nl i alpha r : seq_completes g alpha i r ->
  seq_completes g (Semi b :: alpha) ((nl, TPunctuator Semicolon) :: i) r.
Proof.
  intros IH beta k r' W F C. inversion W as [|? ? b' W'|]; subst. cbn [fine] in F. destruct F as (F & L & D).
  destruct (IH b' k r' W' F C) as (i' & R & X). apply related_completed in R; [|exact F]. rewrite D in R.
  exists ((nl, TPunctuator Semicolon) :: i'). split; [|constructor; exact X].
  cbn [related]. constructor. eapply completed_more; [exact R|exact L].
Qed.
Lemma seq_completes_inserted g b i alpha r : insertable b i = true -> seq_completes g alpha i r ->
  seq_completes g (Semi b :: alpha) i r.
Proof.
  intros I IH beta k r' W F C. inversion W as [|? ? b' W'|]; subst. cbn [fine] in F. destruct F as (F & L & D).
  destruct (IH b' k r' W' F C) as (i' & R & X). apply related_completed in R; [|exact F]. rewrite D in R.
  exists ((false, TPunctuator Semicolon) :: i'). split; [|constructor; exact X].
  cbn [related]. constructor; [exact I|]. apply completed_after. exact R.
Qed.
Lemma seq_completes_condition g c i alpha r : c g i = true -> seq_completes g alpha i r -> seq_completes g (When c :: alpha) i r.
Proof.
  intros H IH beta k r' W F C. inversion W as [|? ? b W'|? ? b W']; subst.
  - cbn [fine] in F. destruct F as (F & D & A). destruct (IH b k r' W' F C) as (i' & R & X).
    exists i'. split; [exact R|]. constructor; [|exact X]. eapply A; eassumption.
  - exact (IH beta k r' W' F C).
Qed.

(** ** The conditions and added semicolons *)
Lemma keeps_no ts g k i i' : completed false k i i' -> one_of g ts (TPunctuator Semicolon) = false ->
  no ts g i = true -> no ts g i' = true.
Proof.
  intros C S H. unfold no in *. destruct (completed_front _ _ _ _ C) as [C0|F].
  - destruct (completed_next _ _ _ C0) as [E _]. rewrite E. exact H.
  - rewrite F. cbn [snd]. rewrite S. reflexivity.
Qed.
Lemma keeps_no_0 ts g i i' : completed false 0 i i' -> no ts g i = true -> no ts g i' = true.
Proof. intros C H. unfold no in *. destruct (completed_next _ _ _ C) as [E _]. rewrite E. exact H. Qed.
Lemma keeps_same_line g k i i' : completed false k i i' -> no_line_break g i = true -> no_line_break g i' = true.
Proof.
  intros C H. unfold no_line_break in *. destruct (completed_front _ _ _ _ C) as [C0|F].
  - destruct (completed_next _ _ _ C0) as [E _]. rewrite E. exact H.
  - rewrite F. reflexivity.
Qed.
Lemma keeps_line_break_0 g i i' : completed false 0 i i' -> line_break g i = true -> line_break g i' = true.
Proof. intros C H. unfold line_break in *. destruct (completed_next _ _ _ C) as [E _]. rewrite E. exact H. Qed.
Lemma keeps_no_pair ts sl us g k i i' : completed false k i i' -> one_of g ts (TPunctuator Semicolon) = false ->
  one_of g us (TPunctuator Semicolon) = false -> no_pair ts sl us g i = true -> no_pair ts sl us g i' = true.
Proof.
  intros C S U H. unfold no_pair, pair in *. destruct (completed_front _ _ _ _ C) as [C0|F].
  - destruct (completed_next _ _ _ C0) as [E C2]. rewrite E. destruct (completed_front _ _ _ _ C2) as [C3|F3].
    + destruct (completed_next _ _ _ C3) as [E3 _]. rewrite E3. exact H.
    + rewrite F3. cbn [snd]. rewrite U. rewrite andb_false_r. reflexivity.
  - rewrite F. cbn [snd]. rewrite S. reflexivity.
Qed.
Lemma keeps_both (c d : condition) g i i' : (c g i = true -> c g i' = true) -> (d g i = true -> d g i' = true) ->
  both c d g i = true -> both c d g i' = true.
Proof. unfold both. rewrite !andb_true_iff. tauto. Qed.
Lemma keeps_param f v g i i' : only_if f v g i = true -> only_if f v g i' = true.
Proof. auto. Qed.
(** Where the next two tokens are kept. *)
Lemma keeps_pair ts sl us g i i' : next i' = next i -> next (tl i') = next (tl i) -> pair ts sl us g i = true -> pair ts sl us g i' = true.
Proof. unfold pair. intros -> ->. auto. Qed.
Lemma second_kept k i i' : completed false k i i' -> k = 0 -> closes_paren (snd (next i)) = false ->
  fst (next (tl i)) = false -> snd (next (tl i)) <> TEOF -> snd (next (tl i)) <> TPunctuator CurlyClose ->
  next (tl i') = next (tl i).
Proof.
  intros C -> P0 L Ne Nc. destruct (completed_next _ _ _ C) as [_ C2]. rewrite P0 in C2.
  destruct (completed_back _ _ _ _ C2) as [K|[I|C3]]; [discriminate| |exact (proj1 (completed_next _ _ _ C3))].
  unfold insertable in I. rewrite L in I. destruct (snd (next (tl i))) as [[]| | | | | | | | |]; try discriminate; congruence.
Qed.
Lemma keeps_no_function g i i' : completed false 0 i i' -> no_function_start g i = true -> no_function_start g i' = true.
Proof.
  intros C H. destruct (completed_next _ _ _ C) as [E C2]. unfold no_function_start in *.
  rewrite andb_true_iff in *. destruct H as [A B]. split.
  - exact (keeps_no_pair [K "async"] true [K "function"] g 0 i i' C eq_refl eq_refl A).
  - rewrite E. destruct (one_of g [K "function"] (snd (next i))) eqn:O; [|reflexivity]. cbn [andb] in *.
    rewrite negb_involutive in *. pose proof B as B'. unfold pair in B. rewrite !andb_true_iff, negb_true_iff in B.
    destruct B as [[_ B1] B2]. cbn [andb] in B2.
    apply keeps_pair with (i := i); [exact E| |exact B'].
    eapply second_kept; [exact C|reflexivity| |exact B2| |].
    + destruct (snd (next i)) as [[]| | | | | | | | |]; try reflexivity. discriminate O.
    + intros K. rewrite K in B1. discriminate B1.
    + intros K. rewrite K in B1. discriminate B1.
Qed.

(** ** All productions *)
Lemma by_fine g n alpha i r k r' : In alpha (prods n) -> seq_completes g alpha i r -> completed false k r r' ->
  fine k alpha -> after_do alpha = false -> front k alpha <= (if vanishes n then k else 0) ->
  exists i', completed false (if vanishes n then k else 0) i i' /\ explicit g n i' r'.
Proof.
  intros I Q C F D L. destruct (Q alpha k r' (without_refl alpha) F C) as (i' & R & X).
  exists i'. split; [|econstructor; eassumption].
  apply related_completed in R; [|exact F]. rewrite D in R. eapply completed_more; eassumption.
Qed.

Ltac same_next :=
  repeat match goal with
  | H : _ /\ _ |- _ => destruct H
  | H : exists _, _ |- _ => destruct H
  end; subst;
  repeat match goal with
  | H : completed _ 0 _ _ |- _ => apply completed_next in H; destruct H
  end; cbn [next hd tl] in *; congruence.
Ltac keeps C R :=
  match goal with
  | |- both _ _ _ _ = true -> _ => apply keeps_both; keeps C R
  | |- no_item _ _ = true -> _ => unfold no_item; keeps C R
  | |- no_function_start _ _ = true -> _ => apply keeps_no_function; exact C
  | |- only_if _ _ _ _ = true -> _ => apply keeps_param
  | |- no_line_break _ _ = true -> _ => apply (keeps_same_line _ _ _ _ C)
  | |- line_break _ _ = true -> _ => apply keeps_line_break_0; exact C
  | |- no_for_let _ _ = true -> _ => apply (keeps_no_pair _ _ _ _ _ _ _ C); reflexivity
  | |- no_pair _ _ _ _ _ = true -> _ => apply (keeps_no_pair _ _ _ _ _ _ _ C); reflexivity
  | |- no _ _ _ = true -> _ => first [apply keeps_no_0; exact C|apply (keeps_no _ _ _ _ _ C); reflexivity]
  | |- for_let _ _ = true -> _ => apply keeps_pair; clear C; same_next
  | |- async_function _ _ = true -> _ => apply keeps_pair; clear C; same_next
  | |- pair _ _ _ _ _ = true -> _ => apply keeps_pair; clear C; same_next
  end.
Ltac tolerates :=
  let g := fresh "g" in let i := fresh "i" in let i' := fresh "i'" in let R := fresh "R" in let C := fresh "C" in
  intros g i i' R; cbn [related front vanishes star] in R;
  first [pose proof R as C; lazymatch type of C with completed _ _ _ _ => idtac end|pose proof (proj1 R) as C]; keeps C R.
Ltac is_fine :=
  cbn [fine front cap vanishes after_do star]; repeat split; try lia; try (intros; discriminate); try exact I; try tolerates.

Lemma line_break_ends g i r n (w : string) alpha : (n = NReturn \/ n = NBreak \/ n = NContinue) ->
  In alpha (prods n) -> alpha = [T [K w]; When line_break; Semi false] -> seq_completes g alpha i r -> phrase_completes g n i r.
Proof.
  intros N0 I -> Q k r' L C.
  assert (k = 0) as -> by (destruct N0 as [ ->|[ ->| ->]]; cbn in L; lia).
  destruct (Q [T [K w]; Semi false] 0 r') as (i' & R & X).
  - repeat constructor.
  - is_fine.
  - exact C.
  - exists i'. split; [destruct N0 as [ ->|[ ->| ->]]; exact (proj1 R)|].
    inversion X as [|? ? nl t i1 ? ? O X1| | |]; subst. inversion X1 as [| | |? ? nl1 i2 ? ? X2|]; subst.
    inversion X2; subst.
    destruct nl1.
    + econstructor; [exact I|]. repeat (constructor; try assumption; try reflexivity).
    + destruct N0 as [ ->|[ ->| ->]]; cbn [prods In] in I;
        repeat (destruct I as [I|I]; [try discriminate I|]); try contradiction; injection I; intros; subst w;
        (econstructor; [right; left; reflexivity|]; repeat (constructor; try assumption; try reflexivity)).
Qed.

Lemma yield_ends g i r : derives_seq g [T [K "yield"]; When line_break] i r -> phrase_completes g NYield i r.
Proof.
  intros H k r' L C. inversion H as [|? ? nl t i1 ? ? O X1| | | |]; subst. inversion X1 as [| | | | |? ? ? ? ? B X2]; subst.
  inversion X2; subst. exists ((nl, t) :: r'). split.
  - cbn [vanishes]. constructor. apply completed_after. eapply completed_more; [exact C|exact L].
  - destruct (completed_front _ _ _ _ C) as [C0|F].
    + econstructor; [right; right; left; reflexivity|].
      constructor; [exact O|]. constructor; [|constructor]. exact (keeps_line_break_0 g _ _ C0 B).
    + econstructor; [right; left; reflexivity|].
      constructor; [exact O|]. constructor; [unfold both, no_line_break, no; rewrite F; reflexivity|].
      econstructor; [|constructor]. econstructor; [right; left; reflexivity|].
      constructor; [unfold no; rewrite F; reflexivity|constructor].
Qed.
Lemma update_ends g i r : derives_seq g [!(NLeftHand true); When line_break] i r ->
  seq_completes g [!(NLeftHand true); When line_break] i r -> phrase_completes g NUpdate i r.
Proof.
  intros H Q k r' L C. cbn [cap] in L.
  assert (B : line_break g r = true).
  { inversion H as [| |? ? ? ? m ? ? X1 X2| | |]; subst. inversion X2 as [| | | | |? ? ? ? ? B X3]; subst. inversion X3; subst. exact B. }
  destruct (Q [!(NLeftHand true)] k r') as (i' & R & X).
  - repeat constructor.
  - is_fine.
  - exact C.
  - exists i'. split; [exact R|]. inversion X as [| |? ? ? ? m ? ? X1 X2| |]; subst. inversion X2; subst.
    destruct (completed_front _ _ _ _ C) as [C0|F].
    + econstructor; [right; right; right; left; reflexivity|]. econstructor; [exact X1|].
      constructor; [exact (keeps_line_break_0 g _ _ C0 B)|constructor].
    + econstructor; [right; right; left; reflexivity|]. econstructor; [exact X1|].
      constructor; [unfold both, no_line_break, no; rewrite F; reflexivity|constructor].
Qed.

Lemma production_completes g n alpha i r : In alpha (prods n) -> derives_seq g alpha i r -> seq_completes g alpha i r ->
  phrase_completes g n i r.
Proof.
  intros I D Q.
  destruct n;
    try match goal with k : for_kind |- _ => destruct k end;
    repeat match goal with b : bool |- _ => destruct b end;
    try match goal with h : method_head |- _ => destruct h as [[] [] []] end;
    pose proof I as J; cbn [prods In app map flat_map] in J;
    repeat (destruct J as [J|J]; [subst alpha|]); try contradiction J;
    try solve [intros k r' L C; cbn [cap] in L; try (assert (k = 0) as -> by lia);
               apply (by_fine g _ _ _ _ _ _ I Q C); [is_fine|reflexivity|cbn [front vanishes star]; lia]].
  - apply (line_break_ends g i r NReturn "return" _ ltac:(auto) I eq_refl Q).
  - apply (line_break_ends g i r NBreak "break" _ ltac:(auto) I eq_refl Q).
  - apply (line_break_ends g i r NContinue "continue" _ ltac:(auto) I eq_refl Q).
  - apply yield_ends. exact D.
  - apply update_ends; assumption.
Qed.

Theorem completes : (forall g n i r, derives g n i r -> phrase_completes g n i r) /\
  (forall g alpha i r, derives_seq g alpha i r -> derives_seq g alpha i r /\ seq_completes g alpha i r).
Proof.
  apply derives_both.
  - intros g n alpha i r I _ [D Q]. eapply production_completes; eassumption.
  - intros g i. split; [constructor|apply seq_completes_end].
  - intros g ts nl t i alpha r O _ [D Q]. split; [constructor; assumption|apply seq_completes_token; assumption].
  - intros g n ch i m alpha r H Ph _ [D Q]. split; [econstructor; eassumption|eapply seq_completes_nonterminal; eassumption].
  - intros g b nl i alpha r _ [D Q]. split; [constructor; assumption|apply seq_completes_semicolon; assumption].
  - intros g b i alpha r Ne I _ [D Q]. split; [apply d_inserted; assumption|apply seq_completes_inserted; assumption].
  - intros g c i alpha r H _ [D Q]. split; [constructor; assumption|apply seq_completes_condition; assumption].
Qed.

Theorem semicolons_can_be_written l : program l -> exists l', semicolons_added l l' /\ explicit_program l'.
Proof. intros H. exact (proj1 completes _ _ _ _ H 0 [] (Nat.le_0_l _) (c_nil false 0)). Qed.

(** ** Programs with all their semicolons are programs *)
Scheme explicit_mut := Minimality for explicit Sort Prop
  with explicit_seq_mut := Minimality for explicit_seq Sort Prop.
Combined Scheme explicit_both from explicit_mut, explicit_seq_mut.
Lemma explicit_derives : (forall g n i r, explicit g n i r -> derives g n i r) /\
  (forall g alpha i r, explicit_seq g alpha i r -> derives_seq g alpha i r).
Proof. apply explicit_both; intros; try (constructor; assumption); econstructor; eassumption. Qed.
Lemma explicit_program_program l : explicit_program l -> program l.
Proof. apply explicit_derives. Qed.
