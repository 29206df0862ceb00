(** What is between balanced braces. *)
From Coq Require Import String List Bool Arith Lia.
From Verif Require Import Base Tokens ByteFacts ParserCore SpecBrackets SpecGrammar SpecLanguage GrammarRules GrammarFacts SpecSequel SpecEnclose Enclose.
Import ListNotations.
Local Open Scope string_scope.
Local Open Scope list_scope.

Scheme balanced_both := Induction for balanced Sort Prop with template_rest_both := Induction for template_rest Sort Prop.
Lemma balanced_scan l : balanced l -> forall st, scan l st = Some st.
Proof.
  intros H. induction H using balanced_both with (P0 := fun l _ => forall st, scan l (BTemplate :: st) = Some st); intros; cbn [scan].
  - reflexivity.
  - assert (Q : step t st = Some st); [|rewrite Q; auto]. destruct t as [q| | | | | | | |f c v|]; try reflexivity.
    + destruct q; try reflexivity; exfalso; apply p; unfold bracket_pairs; cbn [In]; eauto 8.
    + cbn in p. subst f. reflexivity.
  - cbn in i. destruct i as [[= <- <-]|[[= <- <-]|[[= <- <-]|[]]]]; cbn [step]; rewrite scan_app, IHbalanced1; cbn [scan step]; apply IHbalanced2.
  - cbn [step]. rewrite scan_app, IHbalanced. apply IHbalanced0.
  - rewrite scan_app, IHbalanced. reflexivity.
  - rewrite scan_app, IHbalanced. cbn [scan step]. apply IHbalanced0.
Qed.
Lemma first_close (u v : tokens) b c k l : forall st, scan (map snd u) st = Some [] -> scan (map snd v) st = Some [] ->
  u ++ (b, TPunctuator CurlyClose) :: k = v ++ (c, TPunctuator CurlyClose) :: l -> u = v /\ b = c /\ k = l.
Proof.
  revert v. induction u as [|x u IH]; intros [|y v] st U V Q; cbn [app map scan] in *.
  - injection Q as <- <-. auto.
  - injection Q as <- Q. injection U as ->. cbn in V. discriminate V.
  - injection Q as -> Q. injection V as ->. cbn in U. discriminate U.
  - injection Q as -> Q. destruct (step (snd y) st) as [st'|]; [|discriminate U]. destruct (IH v st' U V Q) as (-> & R). auto.
Qed.

(** ** A statement that starts with a brace is a block *)
Lemma word_first g n b p i r : (forall alpha, In alpha (prods n) -> exists w beta, alpha = T [K w] :: beta) -> ~ derives g n ((b, TPunctuator p) :: i) r.
Proof.
  intros P D. inversion D as [? ? alpha ? ? I Q]; subst. destruct (P _ I) as (w & beta & ->). inversion Q as [|? ? nl t ? ? ? O| | | |]; subst. discriminate O.
Qed.
Ltac starts_with_words := let I := fresh in intros ? I; cbn [prods In] in I; repeat (destruct I as [<-|I]; [eexists _, _; reflexivity|]); destruct I.
Ltac single H D := inversion H as [| |? ? ? ? ?m ? ? D ?Q| | |]; subst;
  match goal with Q : derives_seq _ [] _ _ |- _ => apply seq_nil in Q; subst end; cbn [changed fold_left] in D.
Lemma declaration_first g b i r : ~ derives g NDeclaration ((b, TPunctuator CurlyOpen) :: i) r.
Proof.
  intros D. inversion D as [? ? alpha ? ? I Q]; subst. cbn [prods In] in I. destruct I as [<-|[<-|[<-|[<-|[]]]]].
  - single Q D1. revert D1. apply word_first. starts_with_words.
  - inversion Q as [| | | | |? ? ? ? ? _ Q1]; subst. single Q1 D1. inversion D1 as [? ? alpha ? ? I Q2]; subst. cbn [prods In] in I.
    destruct I as [<-|[<-|[<-|[]]]]; inversion Q2 as [| | | | |? ? ? ? ? C Q3]; subst; [discriminate C| |]; inversion Q3 as [|? ? nl t ? ? ? O| | | |]; subst; discriminate O.
  - single Q D1. revert D1. apply word_first. starts_with_words.
  - single Q D1. revert D1. apply word_first. starts_with_words.
Qed.
Lemma statement_block g b i r : derives g NStatement ((b, TPunctuator CurlyOpen) :: i) r -> derives g NBlock ((b, TPunctuator CurlyOpen) :: i) r.
Proof.
  intros D. inversion D as [? ? alpha ? ? I Q]; subst. cbn [prods In] in I.
  destruct I as [<-|I]; [single Q D1; exact D1|]. exfalso.
  destruct I as [<-|I]; [inversion Q as [|? ? nl t ? ? ? O| | | |]; subst; discriminate O|].
  destruct I as [<-|I]; [single Q D1; revert D1; apply word_first; starts_with_words|].
  destruct I as [<-|I]; [single Q D1; revert D1; apply word_first; starts_with_words|].
  destruct I as [<-|I].
  { single Q D1. inversion D1 as [? ? beta ? ? J Q1]; subst. cbn [prods In] in J. destruct J as [<-|[<-|[]]].
    - single Q1 D2. inversion D2 as [? ? beta ? ? J Q2]; subst. cbn [prods In] in J.
      destruct J as [<-|[<-|[<-|[]]]]; single Q2 D3; revert D3; apply word_first; starts_with_words.
    - single Q1 D2. revert D2. apply word_first. starts_with_words. }
  do 7 (destruct I as [<-|I]; [single Q D1; revert D1; apply word_first; starts_with_words|]).
  destruct I as [<-|[<-|[]]]; inversion Q as [| | | | |? ? ? ? ? C _]; subst; discriminate C.
Qed.
Lemma item_block g b i r : derives g NScriptItem ((b, TPunctuator CurlyOpen) :: i) r -> derives g NBlock ((b, TPunctuator CurlyOpen) :: i) r.
Proof.
  intros D. inversion D as [? ? alpha ? ? I Q]; subst. cbn [prods In] in I. destruct I as [<-|[<-|[]]].
  - single Q D1. exfalso. revert D1. apply declaration_first.
  - inversion Q as [| | | | |? ? ? ? ? _ Q1]; subst. single Q1 D1. apply statement_block, D1.
Qed.
Lemma program_block b i : program ((b, TPunctuator CurlyOpen) :: i) -> exists m, derives no_parameters NBlock ((b, TPunctuator CurlyOpen) :: i) m.
Proof.
  intros D. inversion D as [? ? alpha ? ? I Q]; subst. cbn [prods In] in I. destruct I as [<-|[]]. inversion Q as [| |? ? ? ? m ? ? D1 _| | |]; subst. cbn [changed fold_left] in D1.
  inversion D1 as [? ? alpha ? ? I Q1]; subst. cbn [prods In] in I. destruct I as [<-|[<-|[]]]; [|inversion Q1 as [| | | | |? ? ? ? ? C _]; subst; discriminate C].
  inversion Q1 as [| |? ? ? ? m1 ? ? D2 _| | |]; subst. cbn [changed fold_left] in D2. exists m1.
  inversion D2 as [? ? alpha ? ? I Q2]; subst. cbn [prods In] in I. destruct I as [<-|[<-|[<-|[]]]]; [|inversion Q2 as [| | | | |? ? ? ? ? C _]; subst; discriminate C..].
  single Q2 D3. apply item_block, D3.
Qed.

(** ** Between braces *)
Theorem unwrapped a nl nl' : balanced (map snd a) -> program (in_block a nl ++ [(nl', TEOF)]) -> script a nl.
Proof.
  intros B D. unfold in_block in D. cbn [app] in D. destruct (program_block _ _ D) as (m & D1). inversion D1 as [? ? alpha ? ? I Q]; subst.
  cbn [prods In] in I. destruct I as [<-|[]]. inversion Q as [|? ? ? ? ? ? ? _ Q1| | | |]; subst. inversion Q1 as [| |? ? ? ? m1 ? ? D2 Q2| | |]; subst.
  change (changed no_parameters [(FTemplate, false)]) with no_parameters in D2.
  inversion Q2 as [|? ? c t ? ? ? O Q3| | | |]; subst. apply seq_nil in Q3. subst.
  assert (t = TPunctuator CurlyClose) as -> by (destruct t; try discriminate O; cbn [one_of existsb matches] in O; destruct (punctuator_eq_dec CurlyClose p); [subst; reflexivity|discriminate O]).
  destruct (proj1 derives_scan _ _ _ _ D2) as (w & E & W). rewrite <- app_assoc in E. cbn [app] in E.
  destruct (first_close w a c nl m [(nl', TEOF)] []) as (-> & -> & ->); [exact (W [])|apply balanced_scan, B|symmetry; exact E|].
  apply (script_enclosed a nl [(nl', TEOF)]). rewrite <- app_assoc in D2. exact D2.
Qed.
Lemma blocks_balanced n a nl : balanced (map snd a) -> balanced (map snd (in_blocks n a nl)).
Proof.
  intros B. induction n as [|n IH]; [exact B|]. cbn [in_blocks]. unfold in_block. cbn [map snd app]. rewrite map_app. cbn [map snd].
  apply (balanced_pair CurlyOpen CurlyClose); [right; right; left; reflexivity|exact IH|constructor].
Qed.
Theorem all_unwrapped n a nl : balanced (map snd a) -> program (in_blocks (S n) a nl ++ [(nl, TEOF)]) -> script a nl.
Proof.
  intros B. induction n as [|n IH]; intros D; [exact (unwrapped a nl nl B D)|].
  apply IH. apply script_program. apply (unwrapped _ nl nl); [apply blocks_balanced, B|exact D].
Qed.
