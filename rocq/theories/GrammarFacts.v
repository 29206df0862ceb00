(** Facts about derivations: what is derived is a prefix, contains no EOF before its end,
    and is well bracketed. *)
From Coq Require Import String List Arith NArith Bool Lia.
From Verif Require Import Base Tokens ParserCore SpecGrammar SpecBrackets GrammarRules.
Import ListNotations.

Ltac all_prods n := destruct n; repeat match goal with
  | h : method_head |- _ => destruct h as [[] [] []]
  | b : bool |- _ => destruct b
  | k : for_kind |- _ => destruct k end.

(** ** EOF *)
Definition eofless_term (t : term) : bool := match t with Eof => false | _ => true end.
Definition eofless (s : sym) : bool :=
  match s with T ts => forallb eofless_term ts | N NModule _ => false | _ => true end.
Lemma eofless_prods n : n <> NModule -> forallb (forallb eofless) (prods n) = true.
Proof. all_prods n; intros H; try reflexivity. congruence. Qed.
Lemma eofless_one g ts t : forallb eofless_term ts = true -> one_of g ts t = true -> t <> TEOF.
Proof.
  intros H K ->. unfold one_of in K. apply existsb_exists in K. destruct K as (x & I & M).
  rewrite forallb_forall in H. specialize (H x I). destruct x; discriminate.
Qed.
Lemma no_eof_inside :
  (forall g n i r, derives g n i r -> n <> NModule -> exists w, i = w ++ r /\ ~ In TEOF (map snd w)) /\
  (forall g alpha i r, derives_seq g alpha i r -> forallb eofless alpha = true ->
     exists w, i = w ++ r /\ ~ In TEOF (map snd w)).
Proof.
  apply derives_both.
  - intros g n alpha i r In _ IH N. apply IH. pose proof (eofless_prods n N) as P. rewrite forallb_forall in P. auto.
  - intros g i _. exists []. auto.
  - intros g ts nl t i alpha r O _ IH H. cbn [forallb eofless] in H. apply andb_true_iff in H. destruct H as [H1 H2].
    destruct (IH H2) as (w & -> & W). exists ((nl, t) :: w). split; [reflexivity|]. intros [K|K]; [|auto].
    eapply eofless_one; eassumption.
  - intros g n ch i m alpha r _ IH1 _ IH2 H. cbn [forallb] in H. apply andb_true_iff in H. destruct H as [H1 H2].
    destruct IH1 as (w1 & -> & W1). { intros ->. discriminate. }
    destruct (IH2 H2) as (w2 & -> & W2). exists (w1 ++ w2). rewrite app_assoc, map_app. split; [reflexivity|].
    rewrite in_app_iff. tauto.
  - intros g b nl i alpha r _ IH H. destruct (IH H) as (w & -> & W). exists ((nl, TPunctuator Semicolon) :: w).
    split; [reflexivity|]. intros [K|K]; [discriminate|auto].
  - intros g b i alpha r _ _ _ IH H. exact (IH H).
  - intros g c i alpha r _ _ IH H. exact (IH H).
Qed.
Theorem module_eof g i r : derives g NModule i r ->
  exists w nl, i = w ++ (nl, TEOF) :: r /\ ~ In TEOF (map snd w).
Proof.
  intros H. apply derives_inv in H. destruct H as (alpha & I & H). cbn in I. destruct I as [<-|[]].
  inversion H; subst. match goal with H : derives_seq _ [_] _ _ |- _ => inversion H; subst end.
  match goal with H : derives_seq _ [] _ _ |- _ => inversion H; subst end.
  match goal with H : derives _ _ _ _ |- _ => apply no_eof_inside in H; [|discriminate]; destruct H as (w & -> & W) end.
  assert (t = TEOF) as -> by (destruct t; try discriminate; reflexivity). eauto.
Qed.

(** ** Brackets *)
Inductive bracket : Set := BParen | BSquare | BCurly | BTemplate.
Definition step (t : token) (st : list bracket) : option (list bracket) :=
  match t, st with
  | TPunctuator ParenOpen, _ => Some (BParen :: st)
  | TPunctuator SquareOpen, _ => Some (BSquare :: st)
  | TPunctuator CurlyOpen, _ => Some (BCurly :: st)
  | TTemplate TF_Head _ _, _ => Some (BTemplate :: st)
  | TPunctuator ParenClose, BParen :: st' => Some st'
  | TPunctuator SquareClose, BSquare :: st' => Some st'
  | TPunctuator CurlyClose, BCurly :: st' => Some st'
  | TTemplate TF_Tail _ _, BTemplate :: st' => Some st'
  | TTemplate TF_Middle _ _, BTemplate :: st' => Some st
  | TPunctuator ParenClose, _ | TPunctuator SquareClose, _ | TPunctuator CurlyClose, _
  | TTemplate TF_Tail _ _, _ | TTemplate TF_Middle _ _, _ => None
  | _, _ => Some st
  end.
Fixpoint scan (l : list token) (st : list bracket) : option (list bracket) :=
  match l with
  | [] => Some st
  | t :: l' => match step t st with Some st' => scan l' st' | None => None end
  end.
Lemma scan_app u v st : scan (u ++ v) st = match scan u st with Some st' => scan v st' | None => None end.
Proof. revert st. induction u as [|t u IH]; intros st; [reflexivity|]. cbn. destruct (step t st); [apply IH|reflexivity]. Qed.

(** What closes the open brackets [st], outermost last. *)
Inductive closes : list bracket -> list token -> Prop :=
| closes_nil u : balanced u -> closes [] u
| closes_paren st u v : balanced u -> closes st v -> closes (BParen :: st) (u ++ TPunctuator ParenClose :: v)
| closes_square st u v : balanced u -> closes st v -> closes (BSquare :: st) (u ++ TPunctuator SquareClose :: v)
| closes_curly st u v : balanced u -> closes st v -> closes (BCurly :: st) (u ++ TPunctuator CurlyClose :: v)
| closes_template st u v : template_rest u -> closes st v -> closes (BTemplate :: st) (u ++ v).

Lemma closes_plain t st l : plain t -> closes st l -> closes st (t :: l).
Proof.
  intros P H. destruct H as [u B|st u v B C|st u v B C|st u v B C|st u v B C].
  - constructor. constructor; assumption.
  - apply (closes_paren st (t :: u) v); [constructor; assumption|assumption].
  - apply (closes_square st (t :: u) v); [constructor; assumption|assumption].
  - apply (closes_curly st (t :: u) v); [constructor; assumption|assumption].
  - apply (closes_template st (t :: u) v); [|assumption]. destruct B as [a b w B|a b w x B R].
    + apply (rest_tail a b (t :: w)). constructor; assumption.
    + apply (rest_middle a b (t :: w)); [constructor; assumption|assumption].
Qed.
Lemma closes_pair o c u st l : In (o, c) bracket_pairs -> balanced u -> closes st l -> closes st (TPunctuator o :: u ++ TPunctuator c :: l).
Proof.
  intros P U H. destruct H as [v B|st v w B C|st v w B C|st v w B C|st v w B C].
  - constructor. constructor; assumption.
  - change (closes (BParen :: st) ((TPunctuator o :: u ++ (TPunctuator c :: v) ++ TPunctuator ParenClose :: w))). rewrite app_assoc.
    apply (closes_paren st (TPunctuator o :: u ++ TPunctuator c :: v) w); [constructor; assumption|assumption].
  - change (closes (BSquare :: st) ((TPunctuator o :: u ++ (TPunctuator c :: v) ++ TPunctuator SquareClose :: w))). rewrite app_assoc.
    apply (closes_square st (TPunctuator o :: u ++ TPunctuator c :: v) w); [constructor; assumption|assumption].
  - change (closes (BCurly :: st) ((TPunctuator o :: u ++ (TPunctuator c :: v) ++ TPunctuator CurlyClose :: w))). rewrite app_assoc.
    apply (closes_curly st (TPunctuator o :: u ++ TPunctuator c :: v) w); [constructor; assumption|assumption].
  - change (closes (BTemplate :: st) ((TPunctuator o :: u ++ (TPunctuator c :: v) ++ w))). rewrite app_assoc.
    apply (closes_template st (TPunctuator o :: u ++ TPunctuator c :: v) w); [|assumption]. destruct B as [a b x B|a b x y B R].
    + replace (TPunctuator o :: u ++ TPunctuator c :: x ++ [TTemplate TF_Tail a b]) with
       ((TPunctuator o :: u ++ TPunctuator c :: x) ++ [TTemplate TF_Tail a b]) by (cbn; rewrite <- app_assoc; reflexivity).
      apply rest_tail. constructor; assumption.
    + replace (TPunctuator o :: u ++ TPunctuator c :: x ++ TTemplate TF_Middle a b :: y) with
       ((TPunctuator o :: u ++ TPunctuator c :: x) ++ TTemplate TF_Middle a b :: y) by (cbn; rewrite <- app_assoc; reflexivity).
      apply rest_middle; [constructor; assumption|assumption].
Qed.
Lemma closes_whole a b u st l : template_rest u -> closes st l -> closes st (TTemplate TF_Head a b :: u ++ l).
Proof.
  intros U H. destruct H as [v B|st v w B C|st v w B C|st v w B C|st v w B C].
  - constructor. constructor; assumption.
  - rewrite app_assoc. apply (closes_paren st (TTemplate TF_Head a b :: u ++ v) w); [constructor; assumption|assumption].
  - rewrite app_assoc. apply (closes_square st (TTemplate TF_Head a b :: u ++ v) w); [constructor; assumption|assumption].
  - rewrite app_assoc. apply (closes_curly st (TTemplate TF_Head a b :: u ++ v) w); [constructor; assumption|assumption].
  - rewrite app_assoc. apply (closes_template st (TTemplate TF_Head a b :: u ++ v) w); [|assumption]. destruct B as [c d x B|c d x y B R].
    + rewrite app_assoc. apply (rest_tail c d (TTemplate TF_Head a b :: u ++ x)). constructor; assumption.
    + rewrite app_assoc. apply (rest_middle c d (TTemplate TF_Head a b :: u ++ x)); [constructor; assumption|assumption].
Qed.

Ltac plain_token := cbn; intros (o & c & Z & K); decompose [or] Z; try contradiction;
  match goal with E : _ = (o, c) |- _ => injection E as <- <- end; destruct K; discriminate.
Lemma scan_closes l : forall st, scan l st = Some [] -> closes st l.
Proof.
  induction l as [|t l IH]; intros st H.
  { injection H as ->. apply closes_nil, balanced_nil. }
  cbn [scan] in H. destruct (step t st) as [st'|] eqn:E; [|discriminate]. apply IH in H. clear IH.
  destruct t as [p| | | | | | | |f a b|]; try (injection E as <-; apply closes_plain; [exact Logic.I|exact H]).
  - destruct p; cbn in E; try (injection E as <-; apply closes_plain; [plain_token|exact H]).
    all: try match type of E with Some (_ :: _) = _ => idtac | _ => destruct st as [|[] st]; try discriminate E end.
    all: injection E as <-.
    all: try (inversion H; subst; apply closes_pair; [cbn; auto|assumption|assumption]).
    all: first [apply (closes_curly st [] l)|apply (closes_square st [] l)|apply (closes_paren st [] l)]; [apply balanced_nil|exact H].
  - destruct f; cbn in E.
    + injection E as <-. apply closes_plain; [reflexivity|exact H].
    + injection E as <-. inversion H; subst. apply closes_whole; assumption.
    + destruct st as [|[] st]; try discriminate E. injection E as <-. inversion H; subst.
      rewrite app_comm_cons. apply closes_template; [|assumption]. apply (rest_middle a b []); [apply balanced_nil|assumption].
    + destruct st as [|[] st]; try discriminate E. injection E as <-. 
      apply (closes_template st [TTemplate TF_Tail a b] l); [|exact H]. apply (rest_tail a b []). apply balanced_nil.
Qed.
Theorem scan_balanced l : scan l [] = Some [] -> balanced l.
Proof. intros H. apply scan_closes in H. inversion H. assumption. Qed.

(** What the productions do to the stack. *)
Definition neutral (t : term) : bool :=
  match t with
  | P (ParenOpen | ParenClose | SquareOpen | SquareClose | CurlyOpen | CurlyClose) | TplHead | TplMiddle | TplTail => false
  | _ => true
  end.
Definition shape_terms (ts : list term) (st : list bracket) : option (list bracket) :=
  match ts, st with
  | [P ParenOpen], _ => Some (BParen :: st)
  | [P SquareOpen], _ => Some (BSquare :: st)
  | [P CurlyOpen], _ => Some (BCurly :: st)
  | [TplHead], _ => Some (BTemplate :: st)
  | [P ParenClose], BParen :: st' => Some st'
  | [P SquareClose], BSquare :: st' => Some st'
  | [P CurlyClose], BCurly :: st' => Some st'
  | [TplTail], BTemplate :: st' => Some st'
  | [TplMiddle], BTemplate :: _ => Some st
  | _, _ => if forallb neutral ts then Some st else None
  end.
Definition shape_sym (s : sym) (st : list bracket) : option (list bracket) :=
  match s with
  | T ts => shape_terms ts st
  | N NTemplateRest _ => match st with BTemplate :: st' => Some st' | _ => None end
  | _ => Some st
  end.
Fixpoint shape (alpha : list sym) (st : list bracket) : option (list bracket) :=
  match alpha with
  | [] => Some st
  | s :: alpha' => match shape_sym s st with Some st' => shape alpha' st' | None => None end
  end.
Definition need (n : nt) : list bracket := match n with NTemplateRest => [BTemplate] | _ => [] end.
Lemma shape_prods n alpha : In alpha (prods n) -> shape alpha (need n) = Some [].
Proof.
  assert (H : forallb (fun a => match shape a (need n) with Some [] => true | _ => false end) (prods n) = true)
    by (all_prods n; reflexivity).
  rewrite forallb_forall in H. intros I. specialize (H alpha I). destruct (shape alpha (need n)) as [[|]|]; congruence.
Qed.
Lemma neutral_step g t tok st : neutral t = true -> matches g t tok = true -> step tok st = Some st.
Proof.
  destruct t, tok; cbn; try discriminate; try reflexivity.
  - destruct (punctuator_eq_dec p p0); [subst|discriminate]. destruct p0; try discriminate; reflexivity.
  - destruct format; try discriminate; reflexivity.
Qed.
Lemma neutral_one g ts tok st : forallb neutral ts = true -> one_of g ts tok = true -> step tok st = Some st.
Proof.
  intros H K. unfold one_of in K. apply existsb_exists in K. destruct K as (x & I & M). rewrite forallb_forall in H.
  eapply neutral_step; eauto.
Qed.
Lemma terms_step g ts tok st st' more : shape_terms ts st = Some st' -> one_of g ts tok = true -> step tok (st ++ more) = Some (st' ++ more).
Proof.
  intros H O.
  destruct (forallb neutral ts) eqn:N.
  - rewrite (neutral_one g ts tok _ N O). f_equal. f_equal.
    destruct ts as [|[[]| | | | | | | | | | | |] [|? ?]]; cbn [forallb neutral andb] in N; try discriminate N; cbn in H; rewrite ?N in H; congruence.
  - assert (X : exists x, ts = [x]).
    { destruct ts as [|x [|y ts]]; [discriminate|eauto|]. destruct x; try destruct p; cbn in H, N; rewrite ?N in H; discriminate. }
    destruct X as [x ->]. unfold one_of in O. cbn [existsb] in O. rewrite orb_false_r in O.
    destruct x as [p| | | | | | | | | | | |]; cbn in N; try discriminate.
    + destruct tok; try discriminate. cbn in O. destruct (punctuator_eq_dec p p0); [subst p0|discriminate].
      destruct p; cbn in N; try discriminate; cbn in H |- *; try (injection H as <-; reflexivity);
        destruct st as [|[] st]; try discriminate; injection H as <-; reflexivity.
    + destruct tok as [| | | | | | | |[]|]; try discriminate. cbn in *. injection H as <-. reflexivity.
    + destruct tok as [| | | | | | | |[]|]; try discriminate. cbn in *. destruct st as [|[] st]; try discriminate. injection H as <-. reflexivity.
    + destruct tok as [| | | | | | | |[]|]; try discriminate. cbn in *. destruct st as [|[] st]; try discriminate. injection H as <-. reflexivity.
Qed.
Lemma derives_scan :
  (forall g n i r, derives g n i r -> exists w, i = w ++ r /\ forall more, scan (map snd w) (need n ++ more) = Some more) /\
  (forall g alpha i r, derives_seq g alpha i r -> forall st, shape alpha st = Some [] ->
     exists w, i = w ++ r /\ forall more, scan (map snd w) (st ++ more) = Some more).
Proof.
  apply derives_both.
  - intros g n alpha i r I _ IH. apply IH, shape_prods, I.
  - intros g i st H. injection H as ->. exists []. auto.
  - intros g ts nl t i alpha r O _ IH st H. cbn [shape shape_sym] in H. destruct (shape_terms ts st) as [st'|] eqn:E; [|discriminate].
    destruct (IH st' H) as (w & -> & W). exists ((nl, t) :: w). split; [reflexivity|]. intros more. cbn [map snd scan].
    rewrite (terms_step g ts t st st' more E O). apply W.
  - intros g n ch i m alpha r _ (w1 & -> & W1) _ IH st H. cbn [shape] in H. destruct (shape_sym (N n ch) st) as [st'|] eqn:E; [|discriminate].
    destruct (IH st' H) as (w2 & -> & W2). exists (w1 ++ w2). rewrite app_assoc. split; [reflexivity|]. intros more.
    rewrite map_app, scan_app. assert (X : st = need n ++ st').
    { destruct n; cbn in E |- *; try congruence. destruct st as [|[] st]; try discriminate. congruence. }
    rewrite X, <- app_assoc, W1. apply W2.
  - intros g b nl i alpha r _ IH st H. destruct (IH st H) as (w & -> & W). exists ((nl, TPunctuator Semicolon) :: w). split; [reflexivity|].
    exact W.
  - intros g b i alpha r _ _ _ IH st H. exact (IH st H).
  - intros g c i alpha r _ _ IH st H. exact (IH st H).
Qed.
Theorem derives_prefix g n i r : derives g n i r -> exists w, i = w ++ r.
Proof. intros H. apply derives_scan in H. destruct H as (w & H & _). eauto. Qed.
Theorem module_balanced g i : derives g NModule i [] -> balanced (map snd i).
Proof.
  intros H. apply derives_scan in H. destruct H as (w & -> & W). rewrite app_nil_r. apply scan_balanced. apply (W []).
Qed.
