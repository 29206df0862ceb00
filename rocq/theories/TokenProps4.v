(** The tokenizer properties, continued: whole runs. *)
From Coq Require Import String List NArith ZArith Bool Arith Lia.
From Verif Require Import Base Tokens SpecTokens SpecStream Tokenizer ByteFacts LoopFacts StringFacts NumberFacts LexFacts LexTotal NextFacts TokenProps TokenProps2.
Import ListNotations.

Lemma run_shift E t hs l t' : run E t hs l t' -> forall u t0 k, stands t u -> stands t0 u ->
  offset (st_pos t) = k + offset (st_pos t0) ->
  exists l0 t0', run E t0 hs l0 t0' /\ Forall2 (shifted k) l l0.
Proof.
  induction 1 as [t|t h hs tok rg t1 l t2 H R IH]; intros u t0 k St St0 K.
  - exists [], t0. split; constructor.
  - destruct (same_text E h t t0 [] [] u) as [[[p Hp] _]|(g & w & tok' & r & -> & Bg & (rg1 & t1' & R1 & A1 & B1 & P1 & C1 & S1) & (rg2 & t2' & R2 & A2 & B2 & P2 & C2 & S2))];
      try constructor; auto; [congruence|].
    rewrite R1 in H. injection H as <- <- <-.
    destruct (IH r t2' k S1 S2) as (l0 & t0' & R' & F).
    { rewrite P1, P2. cbn [app] in *. lia. }
    exists ((tok', rg2) :: l0), t0'. split; [econstructor; eassumption|].
    constructor; [|exact F]. unfold shifted. cbn [fst snd]. cbn [app] in *. split; [reflexivity|lia].
Qed.

Lemma c22_run E t hs l t' u : stands t u -> run E t hs l t' ->
  exists l0 t0', run E (into_tokenizer u) hs l0 t0' /\ Forall2 (shifted (offset (st_pos t))) l l0.
Proof.
  intros St R. eapply run_shift; [exact R|exact St| |cbn; lia].
  apply stands_start. destruct St as (a & _ & _ & U). exact U.
Qed.

Lemma c19 E t h u tok rg t' : stands t u -> next_token E t h = TOk (tok, rg, t') ->
  exists g w r, u = g ++ w ++ r /\ blanks g /\ spells tok w /\
    r_start rg = Pos (offset (st_pos t) + length g) (line (st_pos t)) (column (st_pos t) + length g) /\
    advance (chars w) (line (r_start rg)) (column (r_start rg)) (line (r_end rg)) (column (r_end rg)) /\
    offset (r_end rg) = offset (r_start rg) + length w.
Proof.
  intros St H. destruct (next_ok E t h u tok rg t' St H) as (g & w & r & -> & Bg & Hl & (S1 & S2 & S3 & S4 & S5 & S6 & S7) & _).
  exists g, w, r. split; [reflexivity|]. split; [exact Bg|]. split; [eapply lexeme_spells; exact Hl|].
  split; [|auto]. destruct (r_start rg) as [o ln cl]. cbn [offset line column] in *. congruence.
Qed.

