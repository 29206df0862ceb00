(** What the scan of a string literal computes. *)
From Coq Require Import String List NArith ZArith Bool Arith Lia.
From Verif Require Import Base Tokens SpecTokens Tokenizer ByteFacts LoopFacts.
Import ListNotations.
Local Open Scope N_scope.

Definition plain (nl : bool) : str_state := StrState 0 false false false nl.

Lemma simple_escape_iff c : is_simple_escape c = true <-> simple_escape c.
Proof.
  unfold is_simple_escape, simple_escape.
  change (34 :: s2b "'\bfnrtv0") with [34; 39; 92; 98; 102; 110; 114; 116; 118; 48]. cbn [In].
  rewrite !orb_true_iff, !N.eqb_eq. lia.
Qed.
Lemma simple_escape_not c : is_simple_escape c = false <-> ~ simple_escape c.
Proof. rewrite <- simple_escape_iff. destruct (is_simple_escape c); split; congruence. Qed.

Lemma at_ls_ps_iff s : starts_ls_or_ps s = true <-> at_ls_ps s.
Proof.
  unfold starts_ls_or_ps, at_ls_ps, NS_LS, NS_PS. rewrite orb_true_iff, !starts_with_begins. tauto.
Qed.
Lemma at_ls_ps_not s : starts_ls_or_ps s = false <-> ~ at_ls_ps s.
Proof. rewrite <- at_ls_ps_iff. destruct (starts_ls_or_ps s); split; congruence. Qed.
Lemma at_ls_ps_head c s : at_ls_ps (c :: s) -> c = 226.
Proof. intros [[r H]|[r H]]; injection H as -> _; reflexivity. Qed.
Lemma at_ls_ps_app s r : at_ls_ps s -> at_ls_ps (s ++ r).
Proof.
  intros [[x ->]|[x ->]]; [left|right]; rewrite <- app_assoc; eexists; reflexivity.
Qed.
Lemma at_ls_ps_test c s :
  (c =? 226) && starts_ls_or_ps (c :: s) = starts_ls_or_ps (c :: s).
Proof.
  destruct (N.eqb_spec c 226) as [->|N]; [reflexivity|].
  symmetry. apply at_ls_ps_not. intros H. apply N. eapply at_ls_ps_head, H.
Qed.
Lemma at_ls_ps_dec s : at_ls_ps s \/ ~ at_ls_ps s.
Proof. rewrite <- at_ls_ps_iff. destruct (starts_ls_or_ps s); [left|right]; congruence. Qed.

(** What follows does not complete a U+2028 or U+2029. *)
Definition clean (s : bytes) : Prop := ~ head_is (fun b => is_cont b = true) s.

Lemma at_ls_ps_clean v s : clean s -> v <> [] -> at_ls_ps (v ++ s) -> at_ls_ps v.
Proof.
  intros Hs Hv H.
  assert (C : forall b s', s = b :: s' -> is_cont b = false).
  { intros b s' ->. unfold clean in Hs. rewrite head_is_cons in Hs. destruct (is_cont b); congruence. }
  destruct v as [|a [|b [|c v]]]; [congruence| | |].
  - exfalso. destruct H as [[r H]|[r H]]; cbn in H; injection H as -> H; apply C in H; discriminate.
  - exfalso. destruct H as [[r H]|[r H]]; cbn in H; injection H as -> -> H; apply C in H; discriminate.
  - destruct H as [[r H]|[r H]]; cbn in H; injection H as -> -> -> H; [left|right]; eexists; reflexivity.
Qed.

(** ** One step *)

Section Step.
Variable q : N.
Hypothesis Hq : q = 34 \/ q = 39.

Lemma quote_test b : ((b =? 34) && (q =? 34)) = (b =? q) && (q =? 34).
Proof.
  destruct Hq as [-> | ->]; [reflexivity|]. change (39 =? 34) with false.
  rewrite !andb_false_r. reflexivity.
Qed.

Lemma step_char nl c s : c <> 92 -> c <> q -> c <> 13 -> (c = 10 -> nl = true) ->
  ~ at_ls_ps (c :: s) -> str_step q c (c :: s) (plain nl) = StrContinue (plain nl).
Proof.
  intros N1 N2 N3 N4 N5. unfold str_step. cbn [in_escape plain Nat.eqb].
  unfold str_middle. cbn [in_hex_escape in_unicode_escape in_escape andb plain Nat.eqb].
  unfold str_plain. rewrite at_ls_ps_test. apply at_ls_ps_not in N5. rewrite N5.
  neqb. cbn [ignore_nl].
  replace ((c =? 34) && (q =? 34)) with false; cycle 1.
  { symmetry. destruct Hq as [-> | ->]; neqb; [reflexivity|]. rewrite andb_false_r. reflexivity. }
  replace ((c =? 39) && (q =? 39)) with false; cycle 1.
  { symmetry. destruct Hq as [-> | ->]; neqb; [|reflexivity]. rewrite andb_false_r. reflexivity. }
  destruct (N.eqb_spec c 10) as [->|]; cbn [andb].
  - rewrite N4 by reflexivity. reflexivity.
  - reflexivity.
Qed.

Lemma step_close nl s : str_step q q (q :: s) (plain nl) = StrClose.
Proof. destruct Hq as [-> | ->]; reflexivity. Qed.

Lemma step_backslash nl s :
  str_step q 92 (92 :: s) (plain nl) = StrContinue (StrState 1 false false false nl).
Proof. reflexivity. Qed.

Lemma step_escape nl c s : simple_escape c \/ c = 10 ->
  str_step q c (c :: s) (StrState 1 false false false nl) = StrContinue (plain nl).
Proof.
  intros H. unfold str_step. cbn [in_escape Nat.eqb].
  destruct (N.eqb_spec c 13) as [->|N].
  { exfalso. destruct H as [H|H]; [|discriminate]. apply simple_escape_iff in H. discriminate. }
  destruct (N.eqb_spec c 10); [reflexivity|].
  destruct H as [H|H]; [|contradiction].
  apply simple_escape_iff in H. rewrite H. destruct (_ && _); reflexivity.
Qed.

Lemma step_escape_cr nl s :
  str_step q 13 (13 :: s) (StrState 1 false false false nl) = StrContinue (plain true).
Proof. reflexivity. Qed.

Lemma step_escape_ls_ps nl s : at_ls_ps (226 :: s) ->
  str_step q 226 (226 :: s) (StrState 1 false false false nl) = StrContinue (plain nl).
Proof.
  intros H. apply at_ls_ps_iff in H. unfold str_step. cbn [in_escape Nat.eqb].
  rewrite H. reflexivity.
Qed.

(** After [\xh] the scanner behaves as outside escapes. *)
Lemma step_after_x b s nl :
  str_step q b s (StrState 3 true false false nl) = str_step q b s (plain nl).
Proof. reflexivity. Qed.
Lemma step_after_u b s nl :
  str_step q b s (StrState 5 false true false nl) = str_step q b s (plain nl).
Proof.
  unfold str_step. cbn [in_escape Nat.eqb]. unfold str_middle, plain. cbn. reflexivity.
Qed.

Lemma loop_after_x s i nl :
  str_loop q s i (StrState 3 true false false nl) = str_loop q s i (plain nl).
Proof. destruct s; [reflexivity|]. cbn [str_loop]. rewrite step_after_x. reflexivity. Qed.
Lemma loop_after_u s i nl :
  str_loop q s i (StrState 5 false true false nl) = str_loop q s i (plain nl).
Proof. destruct s; [reflexivity|]. cbn [str_loop]. rewrite step_after_u. reflexivity. Qed.

Lemma step_u_1 a s nl : a <> 123 ->
  str_step q a s (StrState 2 false true false nl) = StrContinue (StrState 3 false true false nl).
Proof.
  intros N. unfold str_step. cbn [in_escape Nat.eqb]. unfold str_middle. cbn. neqb. reflexivity.
Qed.
Lemma step_u_2 a s nl :
  str_step q a s (StrState 3 false true false nl) = StrContinue (StrState 4 false true false nl).
Proof. reflexivity. Qed.
Lemma step_u_3 a s nl :
  str_step q a s (StrState 4 false true false nl) = StrContinue (StrState 5 false true false nl).
Proof. reflexivity. Qed.
Lemma step_long n a s nl : (3 <= n)%nat -> a <> 125 ->
  str_step q a s (StrState n false true true nl) = StrContinue (StrState (S n) false true true nl).
Proof.
  intros Hn N. unfold str_step. cbn [in_escape].
  destruct n as [|[|[|n]]]; try lia. cbn [Nat.eqb]. unfold str_middle. cbn. neqb. reflexivity.
Qed.
Lemma step_long_end n s nl : (3 <= n)%nat ->
  str_step q 125 s (StrState n false true true nl) = str_step q 125 s (plain nl).
Proof.
  intros Hn. unfold str_step. cbn [in_escape].
  destruct n as [|[|[|n]]]; try lia. reflexivity.
Qed.

Lemma loop_long u s : Forall (fun x => x <> 125) u -> forall n i nl, (3 <= n)%nat ->
  str_loop q (u ++ 125 :: s) i (StrState n false true true nl) =
  str_loop q (125 :: s) (i + length u) (plain nl).
Proof.
  induction 1 as [|a u Ha Hu IH]; intros n i nl Hn; cbn [app length].
  - cbn [str_loop]. rewrite step_long_end by assumption.
    replace (i + 0)%nat with i by lia. reflexivity.
  - replace (i + S (length u))%nat with (S i + length u)%nat by lia.
    rewrite <- (IH (S n)) by lia. cbn [str_loop]. rewrite step_long by assumption. reflexivity.
Qed.

Lemma loop_long_open u : Forall (fun x => x <> 125) u -> forall n i nl, (3 <= n)%nat ->
  str_loop q u i (StrState n false true true nl) = TOk None.
Proof.
  induction 1 as [|a u Ha Hu IH]; intros n i nl Hn; [reflexivity|].
  cbn [str_loop]. rewrite step_long by assumption. apply IH. lia.
Qed.

(** ** The loop over a string text *)

Lemma loop_text v nl nl' : string_text q nl v nl' -> forall s i, clean s ->
  str_loop q (v ++ s) i (plain nl) = str_loop q s (i + length v) (plain nl').
Proof.
  induction 1; intros s i Hs; cbn [app length].
  - replace (i + 0)%nat with i by lia. reflexivity.
  - cbn [str_loop]. rewrite step_char; auto.
    + rewrite IHstring_text by assumption. f_equal. lia.
    + intros X. apply H3. apply (at_ls_ps_clean (c :: v) s); [assumption | discriminate | exact X].
  - cbn [str_loop]. rewrite step_backslash, step_escape by assumption.
    rewrite IHstring_text by assumption. f_equal. lia.
  - cbn [str_loop]. rewrite step_backslash, step_escape_cr.
    rewrite IHstring_text by assumption. f_equal. lia.
  - cbn [str_loop]. rewrite step_backslash, step_escape_ls_ps.
    + rewrite IHstring_text by assumption. f_equal. lia.
    + apply (at_ls_ps_app (226 :: v)). assumption.
  - cbn [str_loop]. rewrite step_backslash.
    change (str_step q 120 (120 :: a :: v ++ s) (StrState 1 false false false nl))
      with (StrContinue (StrState 2 true false false nl)). cbv iota beta.
    change (str_step q a (a :: v ++ s) (StrState 2 true false false nl))
      with (StrContinue (StrState 3 true false false nl)). cbv iota beta.
    rewrite loop_after_x, IHstring_text by assumption. f_equal. lia.
  - cbn [str_loop]. rewrite step_backslash.
    change (str_step q 117 (117 :: a :: b :: c :: v ++ s) (StrState 1 false false false nl))
      with (StrContinue (StrState 2 false true false nl)). cbv iota beta.
    rewrite step_u_1, step_u_2, step_u_3 by assumption.
    rewrite loop_after_u, IHstring_text by assumption. f_equal. lia.
  - rewrite <- app_assoc. cbn [app str_loop]. rewrite step_backslash.
    change (str_step q 117 (117 :: 123 :: u ++ 125 :: v ++ s) (StrState 1 false false false nl))
      with (StrContinue (StrState 2 false true false nl)). cbv iota beta.
    change (str_step q 123 (123 :: u ++ 125 :: v ++ s) (StrState 2 false true false nl))
      with (StrContinue (StrState 3 false true true nl)). cbv iota beta.
    rewrite loop_long by (assumption || lia).
    specialize (IHstring_text s (S (S (S i)) + length u)%nat Hs). cbn [app] in IHstring_text.
    rewrite IHstring_text. f_equal. rewrite app_length. cbn [length]. lia.
Qed.

Lemma clean_quote r : clean (q :: r).
Proof. unfold clean. rewrite head_is_cons. destruct Hq as [-> | ->]; discriminate. Qed.

Lemma loop_closed v nl nl' r i : string_text q nl v nl' ->
  str_loop q (v ++ q :: r) i (plain nl) = TOk (Some (i + length v)%nat).
Proof.
  intros H. rewrite (loop_text _ _ _ H) by apply clean_quote.
  cbn [str_loop]. rewrite step_close. reflexivity.
Qed.

Lemma loop_cut r : cut_escape r -> forall i nl, str_loop q r i (plain nl) = TOk None.
Proof.
  intros H i nl. destruct H as [| | |w L N|u Hu].
  - reflexivity.
  - reflexivity.
  - reflexivity.
  - cbn [str_loop]. rewrite step_backslash.
    change (str_step q 117 (117 :: w) (StrState 1 false false false nl))
      with (StrContinue (StrState 2 false true false nl)). cbv iota beta.
    destruct w as [|a [|b [|c w]]]; [reflexivity| | |cbn in L; lia].
    + cbn [str_loop]. rewrite step_u_1; [reflexivity|]. intros ->. apply N. eexists; reflexivity.
    + cbn [str_loop]. rewrite step_u_1, step_u_2; [reflexivity|].
      intros ->. apply N. eexists; reflexivity.
  - cbn [str_loop]. rewrite step_backslash.
    change (str_step q 117 (117 :: 123 :: u) (StrState 1 false false false nl))
      with (StrContinue (StrState 2 false true false nl)). cbv iota beta.
    change (str_step q 123 (123 :: u) (StrState 2 false true false nl))
      with (StrContinue (StrState 3 false true true nl)). cbv iota beta.
    apply loop_long_open; [exact Hu | lia].
Qed.

Lemma clean_cut r : cut_escape r -> clean r.
Proof.
  intros H. unfold clean. destruct H; rewrite ?head_is_cons; try discriminate. apply head_is_nil.
Qed.

Lemma loop_open s i : string_open q s -> str_loop q s i (plain false) = TOk None.
Proof.
  intros (v & r & nl & -> & Hv & Hr). rewrite (loop_text _ _ _ Hv) by (apply clean_cut, Hr).
  apply loop_cut, Hr.
Qed.

Lemma step_error nl c s : c <> q -> string_error_here nl (c :: s) ->
  exists p, forall i, str_loop q (c :: s) i (plain nl) = TPanic p.
Proof.
  intros Hc H. cbn [str_loop].
  destruct H as [H|[[H Hnl]|[H|(d & r & E & N1 & N2 & N3 & N4 & N5 & N6)]]].
  - destruct H as [r H]. injection H as -> ->. destruct nl, Hq as [-> | ->]; eexists; reflexivity.
  - destruct H as [r H]. injection H as -> ->. subst nl. destruct Hq as [-> | ->]; eexists; reflexivity.
  - assert (E := at_ls_ps_head _ _ H). subst c. apply at_ls_ps_iff in H.
    unfold str_step. cbn [in_escape plain Nat.eqb]. unfold str_middle.
    cbn [in_hex_escape in_unicode_escape in_escape andb plain Nat.eqb]. unfold str_plain.
    rewrite H. destruct nl, Hq as [-> | ->]; eexists; reflexivity.
  - injection E as -> ->. rewrite step_backslash. cbn [str_loop].
    unfold str_step at 1. cbn [in_escape Nat.eqb]. rewrite at_ls_ps_test.
    apply at_ls_ps_not in N6. rewrite N6. apply simple_escape_not in N1. rewrite N1.
    neqb. destruct (in_range 49 57 d); eexists; reflexivity.
Qed.

Lemma clean_error nl s : string_error_here nl s -> clean s.
Proof.
  intros H. unfold clean.
  destruct H as [[r ->]|[[[r ->] _]|[[[r ->]|[r ->]]|(d & r & -> & _)]]];
    cbn [app]; rewrite head_is_cons; discriminate.
Qed.

Lemma loop_error s : string_error q s ->
  exists p, str_loop q s 1 (plain false) = TPanic p.
Proof.
  intros (v & r & nl & -> & Hv & N & Hr).
  rewrite (loop_text _ _ _ Hv) by (eapply clean_error, Hr).
  destruct r as [|c r].
  - destruct Hr as [[x H]|[[[x H] _]|[[[x H]|[x H]]|(d & x & H & _)]]]; discriminate.
  - destruct (step_error nl c r) as [p Hp].
    + intros ->. apply N. eexists; reflexivity.
    + exact Hr.
    + exists p. apply Hp.
Qed.

(** ** Every text is closed, cut short or in error *)

Definition closed_from (nl : bool) (s : bytes) : Prop :=
  exists v r nl', s = v ++ q :: r /\ string_text q nl v nl'.
Definition open_from (nl : bool) (s : bytes) : Prop :=
  exists v r nl', s = v ++ r /\ string_text q nl v nl' /\ cut_escape r.
Definition error_from (nl : bool) (s : bytes) : Prop :=
  exists v r nl', s = v ++ r /\ string_text q nl v nl' /\ ~ begins [q] r /\ string_error_here nl' r.

(** Prefixing a piece of text. *)
Lemma from_app w nl nl1 s :
  (forall v nl', string_text q nl1 v nl' ->
     (exists r, s = v ++ r /\ clean r) -> string_text q nl (w ++ v) nl') ->
  closed_from nl1 s \/ open_from nl1 s \/ error_from nl1 s ->
  closed_from nl (w ++ s) \/ open_from nl (w ++ s) \/ error_from nl (w ++ s).
Proof.
  intros Hw [(v & r & nl' & -> & Hv)|[(v & r & nl' & -> & Hv & Hr)|(v & r & nl' & -> & Hv & N & Hr)]].
  - left. exists (w ++ v), r, nl'. split; [apply app_assoc|].
    apply Hw; [exact Hv|]. exists (q :: r). split; [reflexivity | apply clean_quote].
  - right; left. exists (w ++ v), r, nl'. split; [apply app_assoc|]. split; [|exact Hr].
    apply Hw; [exact Hv|]. exists r. split; [reflexivity | apply clean_cut, Hr].
  - right; right. exists (w ++ v), r, nl'. split; [apply app_assoc|]. split; [|split; [exact N|exact Hr]].
    apply Hw; [exact Hv|]. exists r. split; [reflexivity | eapply clean_error, Hr].
Qed.

Lemma error_now nl s : ~ begins [q] s -> string_error_here nl s -> error_from nl s.
Proof. intros N H. exists [], s, nl. repeat split; auto. constructor. Qed.

Lemma string_cases : forall n s nl, (length s <= n)%nat ->
  closed_from nl s \/ open_from nl s \/ error_from nl s.
Proof.
  induction n as [|n IH]; intros s nl L.
  { destruct s; [|cbn in L; lia]. right; left. exists [], [], nl. repeat split; constructor. }
  destruct s as [|c s].
  { right; left. exists [], [], nl. repeat split; constructor. }
  cbn [length] in L.
  destruct (N.eq_dec c q) as [->|Nq].
  { left. exists [], s, nl. split; [reflexivity|constructor]. }
  assert (NQ : ~ begins [q] (c :: s)) by (intros [x E]; injection E as -> _; congruence).
  destruct (N.eq_dec c 92) as [->|N92].
  2: { destruct (N.eq_dec c 13) as [->|N13].
       { right; right. apply error_now; [exact NQ|]. left. eexists; reflexivity. }
       destruct (at_ls_ps_dec (c :: s)) as [A|A].
       { right; right. apply error_now; [exact NQ|]. right; right; left. exact A. }
       assert (D : (c = 10 /\ nl = false) \/ (c = 10 -> nl = true))
         by (destruct nl; [right; reflexivity|]; destruct (N.eq_dec c 10); [left|right]; auto; contradiction).
       destruct D as [[-> ->]|D].
       { right; right. apply error_now; [exact NQ|]. right; left. split; [eexists; reflexivity|reflexivity]. }
       apply (from_app [c] nl nl s); [|apply IH; lia].
       intros v nl' Hv (r & -> & Hr). cbn [app]. apply st_char; auto.
       intros X. apply A. apply (at_ls_ps_app (c :: v)). exact X. }
  destruct s as [|d s].
  { right; left. exists [], [92], nl. repeat split; constructor. }
  cbn [length] in L.
  destruct (N.eq_dec d 13) as [->|N13].
  { apply (from_app [92; 13] nl true s); [|apply IH; lia].
    intros v nl' Hv _. cbn [app]. apply st_escape_cr. exact Hv. }
  destruct (N.eq_dec d 120) as [->|N120].
  { destruct s as [|a s].
    { right; left. exists [], [92; 120], nl. repeat split; constructor. }
    apply (from_app [92; 120; a] nl nl s); [|apply IH; cbn in L; lia].
    intros v nl' Hv _. cbn [app]. apply st_escape_x. exact Hv. }
  destruct (N.eq_dec d 117) as [->|N117].
  { destruct s as [|a s].
    { right; left. exists [], [92; 117], nl. repeat split; [constructor|].
      apply (ce_u []); [cbn; lia | intros [x E]; discriminate]. }
    destruct (N.eq_dec a 123) as [->|N123].
    { destruct (span_exists (fun x => x <> 125) (fun b => match N.eq_dec b 125 with left e => or_intror (fun n => n e) | right n => or_introl n end) s) as (u & r & -> & Hu & Hr).
      destruct r as [|b r].
      { right; left. exists [], (92 :: 117 :: 123 :: u ++ []), nl. repeat split; [constructor|].
        rewrite app_nil_r. apply ce_u_long. exact Hu. }
      rewrite head_is_cons in Hr. destruct (N.eq_dec b 125) as [->|Nb]; [|contradiction].
      replace (92 :: 117 :: 123 :: u ++ 125 :: r) with ((92 :: 117 :: 123 :: u ++ [125]) ++ r)
        by (cbn [app]; rewrite <- app_assoc; reflexivity).
      apply (from_app _ nl nl r).
      - intros v nl' Hv _. cbn [app]. rewrite <- app_assoc. cbn [app]. apply st_escape_u_long; [exact Hu|].
        apply st_char; [discriminate | destruct Hq as [-> | ->]; discriminate | discriminate | discriminate | | exact Hv].
        intros X. apply at_ls_ps_head in X. discriminate.
      - apply IH. cbn [length] in L. rewrite app_length in L. cbn in L. lia. }
    destruct s as [|b s].
    { right; left. exists [], [92; 117; a], nl. repeat split; [constructor|].
      apply (ce_u [a]); [cbn; lia | intros [x E]; injection E as -> _; congruence]. }
    destruct s as [|c s].
    { right; left. exists [], [92; 117; a; b], nl. repeat split; [constructor|].
      apply (ce_u [a; b]); [cbn; lia | intros [x E]; injection E as -> _; congruence]. }
    apply (from_app [92; 117; a; b; c] nl nl s); [|apply IH; cbn in L; lia].
    intros v nl' Hv _. cbn [app]. apply st_escape_u; assumption. }
  destruct (is_simple_escape d) eqn:Hd.
  { apply simple_escape_iff in Hd. apply (from_app [92; d] nl nl s); [|apply IH; lia].
    intros v nl' Hv _. cbn [app]. apply st_escape; [left; exact Hd | exact Hv]. }
  apply simple_escape_not in Hd.
  destruct (N.eq_dec d 10) as [->|N10].
  { apply (from_app [92; 10] nl nl s); [|apply IH; lia].
    intros v nl' Hv _. cbn [app]. apply st_escape; [right; reflexivity | exact Hv]. }
  destruct (at_ls_ps_dec (d :: s)) as [A|A].
  { assert (E := at_ls_ps_head _ _ A). subst d.
    apply (from_app [92; 226] nl nl s); [|apply IH; lia].
    intros v nl' Hv (r & -> & Hr). cbn [app]. apply st_escape_ls_ps; [|exact Hv].
    apply (at_ls_ps_clean (226 :: v) r); [exact Hr | discriminate | exact A]. }
  right; right. apply error_now; [exact NQ|]. right; right; right.
  exists d, s. repeat split; assumption.
Qed.

Lemma string_cases_start s :
  (exists v r nl, s = v ++ q :: r /\ string_text q false v nl) \/ string_open q s \/ string_error q s.
Proof. exact (string_cases (length s) s false (le_n _)). Qed.

End Step.
