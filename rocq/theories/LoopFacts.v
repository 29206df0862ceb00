(** What each scanning loop of Tokenizer.v computes, in terms of SpecTokens.v. *)
From Coq Require Import String List NArith ZArith Bool Arith Lia.
From Verif Require Import Base Tokens SpecTokens Tokenizer ByteFacts.
Import ListNotations.
Local Open Scope N_scope.

(** ** Spans *)

Lemma span_exists (P : N -> Prop) (dec : forall b, P b \/ ~ P b) s :
  exists v r, s = v ++ r /\ Forall P v /\ ~ head_is P r.
Proof.
  induction s as [|b s IH].
  - exists [], []. repeat split; auto using head_is_nil.
  - destruct (dec b) as [Hb|Hb].
    + destruct IH as (v & r & -> & Hv & Hr). exists (b :: v), r. repeat split; auto.
    + exists [], (b :: s). repeat split; auto. rewrite head_is_cons. exact Hb.
Qed.

Lemma digit_iff b : in_range 48 57 b = true <-> digit b.
Proof. apply in_range_iff. Qed.
Lemma digit_not b : in_range 48 57 b = false <-> ~ digit b.
Proof. apply in_range_not. Qed.
Lemma lower_iff b : in_range 97 122 b = true <-> lower b.
Proof. apply in_range_iff. Qed.
Lemma digit_dec b : digit b \/ ~ digit b.
Proof. unfold digit. lia. Qed.
Lemma lower_dec b : lower b \/ ~ lower b.
Proof. unfold lower. lia. Qed.
Lemma ident_char_dec b : ident_char b \/ ~ ident_char b.
Proof. unfold ident_char, lower, upper, digit. lia. Qed.
Lemma blank_dec b : blank b \/ ~ blank b.
Proof. unfold blank. lia. Qed.

Lemma blank_iff b : is_blank_byte b = true <-> blank b.
Proof.
  unfold is_blank_byte, blank. rewrite !orb_true_iff, !N.eqb_eq. tauto.
Qed.
Lemma blank_not b : is_blank_byte b = false <-> ~ blank b.
Proof. rewrite <- blank_iff. destruct (is_blank_byte b); split; congruence. Qed.

Lemma ident_iff b : is_ident_byte b = true <-> ident_char b.
Proof.
  unfold is_ident_byte, ident_char, lower, upper, digit.
  rewrite !orb_true_iff, !in_range_iff, !N.eqb_eq. tauto.
Qed.
Lemma ident_not b : is_ident_byte b = false <-> ~ ident_char b.
Proof. rewrite <- ident_iff. destruct (is_ident_byte b); split; congruence. Qed.

Lemma tok_ident_loop_spec v r i :
  Forall ident_char v -> ~ head_is ident_char r -> tok_ident_loop (v ++ r) i = (i + length v)%nat.
Proof.
  intros Hv Hr. revert i. induction Hv as [|b v Hb Hv IH]; intros i; cbn [app length].
  - destruct r as [|b r]; cbn [tok_ident_loop]; [lia|].
    rewrite head_is_cons in Hr. apply ident_not in Hr. rewrite Hr. lia.
  - cbn [tok_ident_loop]. apply ident_iff in Hb. rewrite Hb, IH. lia.
Qed.

Lemma regex_flags_loop_spec v r i :
  Forall lower v -> ~ head_is lower r -> regex_flags_loop (v ++ r) i = (i + length v)%nat.
Proof.
  intros Hv Hr. revert i. induction Hv as [|b v Hb Hv IH]; intros i; cbn [app length].
  - destruct r as [|b r]; cbn [regex_flags_loop]; [lia|].
    rewrite head_is_cons in Hr. destruct (in_range 97 122 b) eqn:E; [|lia].
    apply lower_iff in E. contradiction.
  - cbn [regex_flags_loop]. apply lower_iff in Hb. rewrite Hb, IH. lia.
Qed.

Lemma eat_whitespace_loop_spec v r i :
  blanks v -> ~ head_is blank r ->
  eat_whitespace_loop (v ++ r) i =
  (i + length v + (if starts_with bom r || starts_with nbsp r then 1 else 0))%nat.
Proof.
  intros Hv Hr. revert i. induction Hv as [|b v Hb Hv IH]; intros i; cbn [app length].
  - destruct r as [|b r]; [cbn; lia|].
    rewrite head_is_cons in Hr. apply blank_not in Hr. cbn [eat_whitespace_loop]. rewrite Hr.
    unfold bom, nbsp, WS_ZWNBSP, WS_NBSP.
    destruct (starts_with [239; 187; 191] (b :: r)) eqn:E1.
    { apply starts_with_begins in E1 as [x E1]. injection E1 as -> ->. cbn. lia. }
    rewrite andb_false_r. cbn [orb].
    destruct (starts_with [194; 160] (b :: r)) eqn:E2.
    { apply starts_with_begins in E2 as [x E2]. injection E2 as -> ->. cbn. lia. }
    rewrite andb_false_r. lia.
  - cbn [eat_whitespace_loop]. apply blank_iff in Hb. rewrite Hb, IH. lia.
Qed.

(** ** Line comments *)

Lemma at_lt_cases b r :
  at_line_terminator (b :: r) <->
  (b =? 13) || (b =? 10) = true \/
  (b =? 226) && (starts_with NS_LS (b :: r) || starts_with NS_PS (b :: r)) = true.
Proof.
  rewrite orb_true_iff, andb_true_iff, orb_true_iff, !N.eqb_eq, !starts_with_begins.
  unfold at_line_terminator, line_terminators, NS_LS, NS_PS. split.
  - intros (t & [<-|[<-|[<-|[<-|[]]]]] & r' & H); injection H as -> ->.
    + left; right; reflexivity.
    + left; left; reflexivity.
    + right; split; [reflexivity | left; eexists; reflexivity].
    + right; split; [reflexivity | right; eexists; reflexivity].
  - intros [[->| ->]|[-> [[r' H]|[r' H]]]].
    + exists [13]. split; [cbn; tauto | eexists; reflexivity].
    + exists [10]. split; [cbn; tauto | eexists; reflexivity].
    + rewrite H. eexists. split; [|eexists; reflexivity]. cbn; tauto.
    + rewrite H. eexists. split; [|eexists; reflexivity]. cbn; tauto.
Qed.

Lemma at_lt_nil : ~ at_line_terminator [].
Proof. intros (t & [<-|[<-|[<-|[<-|[]]]]] & r' & H); discriminate. Qed.

Lemma at_lt_dec s : at_line_terminator s \/ ~ at_line_terminator s.
Proof.
  destruct s as [|b r]; [right; apply at_lt_nil|]. rewrite at_lt_cases.
  destruct (_ || _); [tauto|]. destruct (_ && _); [tauto|]. right. intros [|]; discriminate.
Qed.

Lemma line_comment_loop_spec v r i :
  line_comment_text v r ->
  line_comment_loop (v ++ r) i = match r with [] => None | _ => Some (i + length v)%nat end.
Proof.
  intros [Hr Hv]. revert i. induction v as [|b v IH]; intros i.
  - cbn [app length]. destruct r as [|b r]; [reflexivity|].
    destruct Hr as [Hr|Hr]; [discriminate|]. apply at_lt_cases in Hr.
    cbn [line_comment_loop]. destruct Hr as [Hr|Hr].
    + rewrite Hr. f_equal; lia.
    + rewrite Hr. destruct ((b =? 13) || (b =? 10)); cbn iota; f_equal; lia.
  - cbn [app line_comment_loop].
    assert (N : ~ at_line_terminator (b :: v ++ r)).
    { apply (Hv [] (b :: v)); [reflexivity | discriminate]. }
    rewrite at_lt_cases in N.
    destruct (_ || _); [tauto|]. destruct (_ && _); [tauto|].
    rewrite IH.
    + destruct r; [reflexivity|]. cbn [length]. f_equal; lia.
    + intros a c E Hc. apply (Hv (b :: a)); [cbn; congruence | exact Hc].
Qed.

Lemma line_comment_exists s : exists v r, s = v ++ r /\ line_comment_text v r.
Proof.
  induction s as [|b s IH].
  - exists [], []. split; [reflexivity|]. split; [auto|].
    intros a b E Hb. destruct a, b; try discriminate; congruence.
  - destruct (at_lt_dec (b :: s)) as [H|H].
    + exists [], (b :: s). split; [reflexivity|]. split; [auto|].
      intros x y E Hb. destruct x, y; try discriminate; congruence.
    + destruct IH as (v & r & -> & Hr & Hv). exists (b :: v), r. split; [reflexivity|].
      split; [exact Hr|]. intros x y E Hy. destruct x as [|c x].
      * cbn in E. subst y. exact H.
      * injection E as -> E. apply (Hv x); assumption.
Qed.

(** ** Absence of a pattern *)

Lemma absent_cons p c v : absent p (c :: v) <-> ~ begins p (c :: v) /\ absent p v.
Proof.
  split.
  - intros H. split.
    + intros [r E]. apply (H [] r). exact E.
    + intros a b E. apply (H (c :: a) b). cbn. congruence.
  - intros [H1 H2] a b E. destruct a as [|x a].
    + apply H1. exists b. exact E.
    + injection E as -> E. apply (H2 a b). exact E.
Qed.

Lemma absent_nil c p : absent (c :: p) [].
Proof. intros a b E. destruct a; discriminate. Qed.

Lemma first_occurrence p s : p <> [] ->
  absent p s \/ exists a b, s = a ++ p ++ b /\ ends_at_first p (a ++ p).
Proof.
  intros Hp. induction s as [|c s IH].
  - left. destruct p; [congruence | apply absent_nil].
  - destruct (begins_dec p (c :: s)) as [[r E]|N].
    + right. exists [], r. split; [exact E|]. split; [exists []; reflexivity|].
      intros a b E'. cbn [app] in E'.
      assert (L := f_equal (@length N) E'). rewrite !app_length in L.
      destruct b; [reflexivity|]. cbn in L. lia.
    + destruct IH as [H|(a & b & -> & Hf)].
      * left. apply absent_cons. auto.
      * right. exists (c :: a), b. split; [reflexivity|]. split; [exists (c :: a); reflexivity|].
        intros a' b' E. destruct a' as [|x a'].
        -- exfalso. apply N. exists (b' ++ b).
           change (c :: a ++ p ++ b) with ((c :: a) ++ p ++ b). rewrite app_assoc.
           change ((c :: a) ++ p) with (c :: a ++ p). cbn [app] in E. rewrite E, <- app_assoc.
           reflexivity.
        -- injection E as -> E. apply (proj2 Hf a' b' E).
Qed.

Lemma ends_at_first_cons p c s : begins p (c :: s) -> s <> [] -> (length p <= length s)%nat ->
  ~ ends_at_first p (c :: s).
Proof.
  intros [r E] Hs L [_ H]. specialize (H [] r E). subst r. rewrite app_nil_r in E.
  assert (X := f_equal (@length N) E). cbn in X. lia.
Qed.

Lemma ends_at_first_tail p c s : (length p <= length s)%nat ->
  ends_at_first p (c :: s) <-> ends_at_first p s /\ ~ begins p (c :: s).
Proof.
  intros L. split.
  - intros [[a E] H]. split.
    + split.
      * destruct a as [|x a].
        -- assert (X := f_equal (@length N) E). cbn in X. lia.
        -- injection E as -> E. exists a. exact E.
      * intros a' b' E'. apply (H (c :: a') b'). cbn. congruence.
    + intros [r E']. specialize (H [] r E'). subst r. rewrite app_nil_r in E'.
      assert (X := f_equal (@length N) E'). cbn in X. lia.
  - intros [[[a E] H] N]. split.
    + exists (c :: a). cbn. congruence.
    + intros a' b' E'. destruct a' as [|x a'].
      * exfalso. apply N. exists b'. exact E'.
      * injection E' as -> E'. apply (H a' b' E').
Qed.

(** ** Block comments *)

Lemma block_comment_loop_spec v r : forall i bs,
  block_comment_text v -> (bs = true -> ~ begins [47] (v ++ [42])) ->
  block_comment_loop (v ++ 42 :: 47 :: r) i bs = Some (i + length v + 1)%nat.
Proof.
  unfold block_comment_text. change (s2b "*/") with [42; 47].
  induction v as [|b v IH]; intros i bs Hv Hbs.
  - cbn [app block_comment_loop length]. change (42 =? 47) with false. cbn [andb].
    change (42 =? 42) with true. cbn iota. change (47 =? 47) with true. cbn [andb].
    f_equal; lia.
  - cbn [app] in Hv. apply ends_at_first_tail in Hv;
      [|rewrite app_length; cbn; lia]. destruct Hv as [Hv N].
    cbn [app block_comment_loop length].
    destruct (N.eqb_spec b 47) as [->|Nb].
    + destruct bs.
      * exfalso. apply Hbs; [reflexivity|]. eexists; reflexivity.
      * cbn [andb]. change (47 =? 42) with false. cbn iota.
        rewrite IH; [f_equal; lia | exact Hv | discriminate].
    + cbn [andb]. destruct (N.eqb_spec b 42) as [->|Nb'].
      * rewrite IH; [f_equal; lia | exact Hv |].
        intros _ [x E]. apply N. destruct v as [|c v]; cbn in E; injection E as E1 E2; try discriminate.
        subst. eexists. cbn. reflexivity.
      * rewrite IH; [f_equal; lia | exact Hv | discriminate].
Qed.

Lemma block_comment_loop_none v : forall i bs,
  absent (s2b "*/") v -> (bs = true -> ~ begins [47] v) ->
  block_comment_loop v i bs = None.
Proof.
  change (s2b "*/") with [42; 47].
  induction v as [|b v IH]; intros i bs Hv Hbs; [reflexivity|].
  apply absent_cons in Hv as [N Hv]. cbn [block_comment_loop].
  destruct (N.eqb_spec b 47) as [->|Nb].
  - destruct bs.
    + exfalso. apply Hbs; [reflexivity|]. eexists; reflexivity.
    + cbn [andb]. change (47 =? 42) with false. cbn iota. apply IH; [exact Hv|discriminate].
  - cbn [andb]. destruct (N.eqb_spec b 42) as [->|Nb'].
    + apply IH; [exact Hv|]. intros _ [x ->]. apply N. eexists; reflexivity.
    + apply IH; [exact Hv|discriminate].
Qed.

(** ** Templates *)

Lemma template_text_cons c v : template_text (c :: v) <->
  c <> 96 /\ ~ begins [36; 123] (c :: v) /\ template_text v.
Proof.
  unfold template_text. change (s2b "`") with [96]. change (s2b "${") with [36; 123].
  rewrite !absent_cons. split.
  - intros [[N1 A1] [N2 A2]]. repeat split; auto. intros ->. apply N1. eexists; reflexivity.
  - intros (N1 & N2 & A1 & A2). repeat split; auto. intros [r E]. injection E as -> _. congruence.
Qed.

Lemma template_text_nil : template_text [].
Proof. split; apply absent_nil. Qed.

Lemma template_loop_spec v : forall i bc s,
  template_text v -> (bc = true -> ~ begins [123] (v ++ s)) ->
  (s = [] \/ begins [96] s \/ begins [36; 123] s) ->
  template_loop (v ++ s) i bc =
  match s with
  | [] => StopNone
  | c :: _ => if c =? 96 then StopTick (i + length v)%nat else StopCurly (i + length v + 1)%nat
  end.
Proof.
  induction v as [|b v IH]; intros i bc s Hv Hbc Hs.
  - cbn [app length]. destruct s as [|c s]; [reflexivity|].
    destruct Hs as [Hs|[[r Hs]|[r Hs]]]; [discriminate| |].
    + injection Hs as -> ->. cbn [template_loop]. change (96 =? 123) with false. cbn [andb].
      change (96 =? 96) with true. cbn iota. f_equal; lia.
    + injection Hs as -> ->. cbn [template_loop app].
      change (36 =? 123) with false. cbn [andb]. change (36 =? 96) with false. cbn iota.
      change (36 =? 36) with true. cbn iota. change (123 =? 123) with true. cbn [andb].
      f_equal; lia.
  - apply template_text_cons in Hv as (N1 & N2 & Hv). cbn [app template_loop length].
    replace ((b =? 123) && bc) with false; cycle 1.
    { symmetry. destruct (N.eqb_spec b 123) as [->|]; [|reflexivity]. destruct bc; [|reflexivity].
      exfalso. apply Hbc; [reflexivity|]. eexists; reflexivity. }
    destruct (N.eqb_spec b 96); [contradiction|].
    assert (G : forall bc', (bc' = true -> ~ begins [123] (v ++ s)) ->
      template_loop (v ++ s) (S i) bc' =
      match s with
      | [] => StopNone
      | c :: _ => if c =? 96 then StopTick (i + S (length v))%nat else StopCurly (i + S (length v) + 1)%nat
      end).
    { intros bc' Hbc'. rewrite IH by assumption. destruct s; [reflexivity|].
      destruct (_ =? _); f_equal; lia. }
    destruct (N.eqb_spec b 36) as [->|].
    + apply G. intros _ [x E]. destruct v as [|c v].
      * destruct Hs as [->|[[y ->]|[y ->]]]; discriminate.
      * cbn in E. injection E as -> E. apply N2. eexists. cbn. reflexivity.
    + apply G. discriminate.
Qed.

Lemma template_exists s :
  template_text s \/
  exists v r, template_text v /\ (s = v ++ s2b "`" ++ r \/ s = v ++ s2b "${" ++ r).
Proof.
  change (s2b "`") with [96]. change (s2b "${") with [36; 123].
  induction s as [|c s IH].
  - left. apply template_text_nil.
  - destruct (N.eq_dec c 96) as [->|N1].
    { right. exists [], s. split; [apply template_text_nil | left; reflexivity]. }
    destruct (begins_dec [36; 123] (c :: s)) as [[r E]|N2].
    { right. exists [], r. split; [apply template_text_nil | right; exact E]. }
    destruct IH as [H|(v & r & Hv & [-> | ->])].
    + left. apply template_text_cons. auto.
    + right. exists (c :: v), r. split; [|left; reflexivity].
      apply template_text_cons. repeat split; auto. 2,3: apply Hv.
      intros [x E]. apply N2. destruct v as [|d v]; [discriminate|].
      injection E as -> -> E. eexists. cbn. reflexivity.
    + right. exists (c :: v), r. split; [|right; reflexivity].
      apply template_text_cons. repeat split; auto. 2,3: apply Hv.
      intros [x E]. apply N2. destruct v as [|d v]; [discriminate|].
      injection E as -> -> E. eexists. cbn. reflexivity.
Qed.

(** ** Regular expressions *)

Ltac neqb := repeat match goal with
  | H : ?a <> ?b |- context [?a =? ?b] =>
    rewrite (proj2 (N.eqb_neq a b) H); cbn [andb orb negb]
  | |- context [?a =? ?a] => rewrite (N.eqb_refl a); cbn [andb orb negb]
  end.

Lemma regex_class_loop u : regex_class u -> forall s i,
  regex_loop (u ++ 93 :: s) i false true = regex_loop s (i + length u + 1) false false.
Proof.
  induction 1; intros s i; cbn [app regex_loop length].
  - change (93 =? 92) with false. cbn. f_equal; lia.
  - neqb. rewrite !andb_false_r. rewrite IHregex_class. f_equal; lia.
  - neqb. rewrite IHregex_class. f_equal; lia.
Qed.

Lemma regex_loop_spec p : regex_body p -> forall r i,
  regex_loop (p ++ 47 :: r) i false false = Some (i + length p)%nat.
Proof.
  induction 1; intros s i; cbn [app regex_loop length].
  - change (47 =? 92) with false. cbn. f_equal; lia.
  - neqb. rewrite !andb_false_r. rewrite IHregex_body. f_equal; lia.
  - neqb. rewrite IHregex_body. f_equal; lia.
  - change (91 =? 92) with false. change (91 =? 47) with false. change (91 =? 91) with true.
    cbn [andb negb]. rewrite <- app_assoc. cbn [app]. rewrite regex_class_loop by assumption.
    rewrite IHregex_body. rewrite app_length. cbn [length]. f_equal; lia.
Qed.

Lemma regex_loop_inv : forall n s, (length s <= n)%nat ->
  (forall i j, regex_loop s i false false = Some j ->
     exists p r, s = p ++ 47 :: r /\ regex_body p) /\
  (forall i j, regex_loop s i false true = Some j ->
     exists u p r, s = u ++ 93 :: p ++ 47 :: r /\ regex_class u /\ regex_body p).
Proof.
  induction n as [|n IH]; intros s L.
  - destruct s; [|cbn in L; lia]. split; intros; discriminate.
  - destruct s as [|b s]; [split; intros; discriminate|]. cbn [length] in L.
    destruct (IH s ltac:(lia)) as [IH1 IH2].
    split; intros i j H; cbn [regex_loop] in H; rewrite ?andb_true_r, ?andb_false_r in H.
    + destruct (N.eqb_spec b 92) as [->|N1].
      { destruct s as [|c s]; [discriminate|]. cbn [regex_loop] in H.
        destruct (IH s ltac:(cbn in L; lia)) as [IH1' _].
        destruct (IH1' _ _ H) as (p & r & -> & Hp). exists (92 :: c :: p), r.
        split; [reflexivity|]. constructor; assumption. }
      cbn [negb] in H. rewrite ?andb_true_r in H.
      destruct (N.eqb_spec b 47) as [->|N2].
      { exists [], s. split; [reflexivity|constructor]. }
      destruct (N.eqb_spec b 91) as [->|N3].
      { destruct (IH2 _ _ H) as (u & p & r & -> & Hu & Hp). exists (91 :: u ++ 93 :: p), r.
        split; [cbn; rewrite <- app_assoc; reflexivity|]. constructor; assumption. }
      destruct (IH1 _ _ H) as (p & r & -> & Hp). exists (b :: p), r.
      split; [reflexivity|]. constructor; assumption.
    + destruct (N.eqb_spec b 92) as [->|N1].
      { destruct s as [|c s]; [discriminate|]. cbn [regex_loop] in H.
        destruct (IH s ltac:(cbn in L; lia)) as [_ IH2'].
        destruct (IH2' _ _ H) as (u & p & r & -> & Hu & Hp). exists (92 :: c :: u), p, r.
        split; [reflexivity|]. split; [constructor; assumption|assumption]. }
      cbn [negb] in H. rewrite ?andb_false_r in H.
      destruct (N.eqb_spec b 93) as [->|N2].
      { destruct (IH1 _ _ H) as (p & r & -> & Hp). exists [], p, r.
        repeat split; auto. constructor. }
      destruct (IH2 _ _ H) as (u & p & r & -> & Hu & Hp). exists (b :: u), p, r.
      split; [reflexivity|]. split; [constructor; assumption|assumption].
Qed.

Lemma regex_loop_exists s i j : regex_loop s i false false = Some j ->
  exists p r, s = p ++ 47 :: r /\ regex_body p.
Proof. apply (proj1 (regex_loop_inv (length s) s (le_n _))). Qed.
