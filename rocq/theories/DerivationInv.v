(** Inversion of derivations, one symbol at a time. *)
From Coq Require Import String List Arith NArith Bool Lia.
From Verif Require Import Base Tokens ByteFacts ParserCore ParserBody AbstractParser SpecGrammar GrammarFirst GrammarRules Precedence
  CompleteBase GrammarComplete.
Import ListNotations.

Lemma first_of n F g i r : fn_of n = Some F -> derives g n i r -> first (F 0 g) g i = true.
Proof.
  intros Fn D. apply (complete_holds n F g i r 0 Fn) in D. pose proof (parse0_first (F 0 g) g i) as H. rewrite D in H. exact H.
Qed.
Lemma s_end g i r : derives_seq g [] i r -> r = i.
Proof. intros D. inversion D; subst. reflexivity. Qed.
Lemma s_token g ts a i r : derives_seq g (T ts :: a) i r ->
  exists nl t i', i = (nl, t) :: i' /\ one_of g ts t = true /\ derives_seq g a i' r.
Proof. intros D. inversion D; subst. eauto 8. Qed.
Lemma s_nt g n ch a i r : derives_seq g (N n ch :: a) i r -> exists m, derives (changed g ch) n i m /\ derives_seq g a m r.
Proof. intros D. inversion D; subst. eauto. Qed.
Lemma s_semi g b a i r : derives_seq g (Semi b :: a) i r ->
  (exists nl i', i = (nl, TPunctuator Semicolon) :: i' /\ derives_seq g a i' r) \/
  (snd (next i) <> TPunctuator Semicolon /\ insertable b i = true /\ derives_seq g a i r).
Proof. intros D. inversion D; subst; eauto. Qed.
Lemma s_when g c a i r : derives_seq g (When c :: a) i r -> c g i = true /\ derives_seq g a i r.
Proof. intros D. inversion D; subst. auto. Qed.

(** [prods_of D]: one goal for each production of the nonterminal. *)
Ltac prods_of D :=
  let alpha := fresh "alpha" in let Z := fresh "Z" in
  apply derives_inv in D; destruct D as (alpha & Z & D); cbn [prods app] in Z; cbn in Z;
  repeat (destruct Z as [<-|Z]); try contradiction.
(** [steps D]: go through the symbols of a production up to the first nonterminal. *)
Ltac steps D :=
  lazymatch type of D with
  | derives_seq _ [] _ _ => apply s_end in D
  | derives_seq _ (T _ :: _) _ _ =>
    let nl := fresh "nl" in let t := fresh "t" in let i := fresh "i" in let E := fresh "E" in let O := fresh "O" in
    apply s_token in D; destruct D as (nl & t & i & E & O & D); steps D
  | derives_seq _ (When _ :: _) _ _ =>
    let C := fresh "C" in apply s_when in D; destruct D as (C & D); steps D
  | _ => idtac
  end.
(** The same, also through nonterminals (kept as hypotheses) and semicolons (two cases). *)
Ltac all_steps D :=
  lazymatch type of D with
  | derives_seq _ [] _ _ => apply s_end in D
  | derives_seq _ (T _ :: _) _ _ =>
    let nl := fresh "nl" in let t := fresh "t" in let i := fresh "i" in let E := fresh "E" in let O := fresh "O" in
    apply s_token in D; destruct D as (nl & t & i & E & O & D); all_steps D
  | derives_seq _ (When _ :: _) _ _ =>
    let C := fresh "C" in apply s_when in D; destruct D as (C & D); all_steps D
  | derives_seq _ (N _ _ :: _) _ _ =>
    let m := fresh "m" in let M := fresh "M" in apply s_nt in D; destruct D as (m & M & D); cbn [changed fold_left] in M; all_steps D
  | derives_seq _ (Semi _ :: _) _ _ =>
    let nl := fresh "nl" in let i := fresh "i" in let E := fresh "E" in
    apply s_semi in D; destruct D as [(nl & i & E & D)|(? & ? & D)]; all_steps D
  end.
