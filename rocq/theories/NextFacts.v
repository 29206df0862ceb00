(** [next_token] in terms of the specification: blanks, then a lexeme. *)
From Coq Require Import String List NArith ZArith Bool Arith Lia.
From Verif Require Import Base Tokens SpecTokens SpecStream Tokenizer ByteFacts LoopFacts StringFacts NumberFacts LexFacts LexTotal.
Import ListNotations.
Local Open Scope N_scope.

(** ** Lexemes cut texts at char boundaries *)

Lemma utf8_cut_ascii x c r : c < 128 -> utf8 (x ++ c :: r) -> utf8 (x ++ [c]) /\ utf8 r.
Proof.
  intros Hc Hu. destruct (utf8_split _ Hu x c r eq_refl) as [A B]; [apply is_cont_not; lia|].
  split; [|eapply utf8_ascii_tail; eassumption].
  apply utf8_app; [exact A|]. apply utf8_1; [exact Hc|constructor].
Qed.

Lemma utf8_cut_ascii_w w x c r : w = x ++ [c] -> c < 128 -> utf8 (w ++ r) -> utf8 w /\ utf8 r.
Proof.
  intros -> Hc Hu. rewrite <- app_assoc in Hu. apply utf8_cut_ascii; assumption.
Qed.

Lemma utf8_all_ascii w r : Forall (fun b => b < 128) w -> utf8 (w ++ r) -> utf8 w /\ utf8 r.
Proof. intros Hw Hu. split; [apply utf8_ascii, Hw|]. eapply utf8_rest_ascii; eassumption. Qed.

Lemma spelling_ascii p : Forall (fun b => b < 128) (spelling p).
Proof. destruct p; repeat constructor. Qed.

Lemma ident_ascii v : Forall ident_char v -> Forall (fun b => b < 128) v.
Proof. apply Forall_impl. unfold ident_char, lower, upper, digit. intros; lia. Qed.

Lemma lower_ascii v : Forall lower v -> Forall (fun b => b < 128) v.
Proof. apply Forall_impl. unfold lower. intros; lia. Qed.

Lemma lexeme_utf8 checks h w t r : lexeme checks h w t r -> utf8 (w ++ r) -> utf8 w /\ utf8 r.
Proof.
  intros H Hu. destruct H.
  - split; constructor.
  - assert (Hw : utf8 t).
    { cbn [In line_terminators] in H. destruct H as [<-|[<-|[<-|[<-|[]]]]].
      - apply utf8_1; [lia|constructor].
      - apply utf8_1; [lia|constructor].
      - apply utf8_3; try reflexivity; try lia. constructor.
      - apply utf8_3; try reflexivity; try lia. constructor. }
    split; [exact Hw|]. revert Hu. apply utf8_app_inv, Hw.
  - apply utf8_all_ascii; [apply spelling_ascii|exact Hu].
  - apply utf8_all_ascii; [repeat constructor|exact Hu].
  - apply utf8_all_ascii; [repeat constructor|exact Hu].
  - apply utf8_all_ascii; [repeat constructor|exact Hu].
  - destruct H as [[->|Hr] _]; [rewrite app_nil_r in Hu; split; [exact Hu|constructor]|].
    destruct r as [|b r]; [exfalso; exact (at_lt_nil Hr)|].
    apply (utf8_split _ Hu _ b r eq_refl). apply is_cont_not. apply at_lt_cases in Hr.
    destruct Hr as [Hr|Hr].
    + rewrite orb_true_iff, !N.eqb_eq in Hr. lia.
    + rewrite andb_true_iff, N.eqb_eq in Hr. lia.
  - apply (utf8_cut_ascii_w _ (s2b "/*" ++ v ++ [42]) 47); [|lia|exact Hu].
    rewrite <- !app_assoc. reflexivity.
  - rewrite 2!app_assoc in Hu. rewrite <- app_assoc in Hu.
    destruct (utf8_split _ Hu (s2b "/" ++ p) 47 (fl ++ r)) as [A B]; [|reflexivity|].
    { rewrite <- !app_assoc. reflexivity. }
    change (47 :: fl ++ r) with (([47] ++ fl) ++ r) in B. apply utf8_all_ascii in B.
    + split; [|apply B]. rewrite app_assoc. apply utf8_app; [exact A|apply B].
    + constructor; [lia|]. apply lower_ascii. assumption.
  - apply (utf8_cut_ascii_w _ (s2b "`" ++ v) 96); [|lia|exact Hu]. rewrite <- app_assoc. reflexivity.
  - apply (utf8_cut_ascii_w _ (s2b "`" ++ v ++ [36]) 123); [|lia|exact Hu].
    rewrite <- !app_assoc. reflexivity.
  - apply (utf8_cut_ascii_w _ (s2b "}" ++ v ++ [36]) 123); [|lia|exact Hu].
    rewrite <- !app_assoc. reflexivity.
  - apply (utf8_cut_ascii_w _ (s2b "}" ++ v) 96); [|lia|exact Hu]. rewrite <- app_assoc. reflexivity.
  - apply utf8_all_ascii; [|exact Hu]. apply ident_ascii. constructor; assumption.
  - split; [constructor|exact Hu].
  - apply (utf8_cut_ascii_w _ (q :: v) q); [reflexivity| |exact Hu]. destruct H as [-> | ->]; lia.
  - split; [constructor|exact Hu].
  - apply utf8_all_ascii; [|exact Hu]. apply Forall_app.
    split; [eapply decimal_text_ascii; eassumption|]. destruct H; try (eapply exponent_ascii; eassumption). constructor.
  - apply utf8_all_ascii; [|exact Hu].
    constructor; [lia|]. constructor; [eapply radix_letter_ascii; eassumption|].
    constructor; [apply H0|]. eapply radix_digit_ascii; eassumption.
Qed.

(** ** Positions *)

Lemma is_break_iff c : is_break c <-> c = 10 \/ c = 13 \/ c = 8232 \/ c = 8233.
Proof. unfold is_break. cbn [In]. intuition. Qed.

Lemma is_break_dec c : is_break c \/ ~ is_break c.
Proof. rewrite is_break_iff. lia. Qed.

(** The loop, after a CR ([cr = true]) or not. *)
Definition lf_rest (cr : bool) (cs : list N) : list N :=
  match cs with c :: r => if cr && (c =? 10) then r else cs | [] => [] end.

Lemma line_breaks_cons c r : line_breaks (c :: r) =
  if c =? 13 then S (line_breaks (lf_rest true r))
  else if (c =? 10) || (c =? 8232) || (c =? 8233) then S (line_breaks r) else line_breaks r.
Proof.
  cbn [line_breaks]. destruct (c =? 13).
  - destruct r as [|d r']; [reflexivity|]. cbn [lf_rest andb]. destruct (d =? 10); reflexivity.
  - destruct (in_dec N.eq_dec c [10; 8232; 8233]) as [H|H]; cbn [In] in H.
    + replace ((c =? 10) || (c =? 8232) || (c =? 8233)) with true; [reflexivity|].
      symmetry. rewrite !orb_true_iff, !N.eqb_eq. intuition.
    + replace ((c =? 10) || (c =? 8232) || (c =? 8233)) with false; [reflexivity|].
      symmetry. rewrite !orb_false_iff, !N.eqb_neq. intuition.
Qed.

Lemma no_breaks_lines cs : Forall (fun x => ~ is_break x) cs -> line_breaks cs = 0%nat.
Proof.
  induction 1 as [|c cs Hc H IH]; [reflexivity|]. rewrite line_breaks_cons. rewrite is_break_iff in Hc.
  replace (c =? 13) with false by (symmetry; apply N.eqb_neq; lia).
  replace ((c =? 10) || (c =? 8232) || (c =? 8233)) with false; [exact IH|].
  symmetry. rewrite !orb_false_iff, !N.eqb_neq. lia.
Qed.

Lemma increment_loop_gen cs : forall cr l c,
  exists c', increment_position_loop cs cr l c = pair (l + line_breaks (lf_rest cr cs))%nat c' /\
  ((Forall (fun x => ~ is_break x) cs /\ c' = (c + length cs)%nat) \/
   (exists r, cr = true /\ cs = 10 :: r /\ Forall (fun x => ~ is_break x) r /\ c' = (c + length r)%nat) \/
   (exists a b d, cs = a ++ b :: d /\ is_break b /\ Forall (fun x => ~ is_break x) d /\
                  ~ (cr = true /\ a = [] /\ b = 10) /\ c' = length d)).
Proof.
  induction cs as [|x cs IH]; intros cr l c.
  { exists c. split; [cbn; f_equal; lia|]. left. split; [constructor|cbn; lia]. }
  cbn [increment_position_loop].
  assert (K : forall cr0 l0 c0, is_break x -> c0 = 0%nat -> ~ (cr = true /\ x = 10) ->
    (cr0 = true -> x = 13) ->
    exists c', increment_position_loop cs cr0 l0 c0 = pair (l0 + line_breaks (lf_rest cr0 cs))%nat c' /\
    (exists a b d, x :: cs = a ++ b :: d /\ is_break b /\ Forall (fun x => ~ is_break x) d /\
                  ~ (cr = true /\ a = [] /\ b = 10) /\ c' = length d)).
  { intros cr0 l0 c0 Hx -> Ncr Hcr. destruct (IH cr0 l0 0%nat) as (c' & E & [(A & B)|[(r & A & B & C & D)|(a & b & d & A & B & C & D & F)]]).
    - exists c'. split; [exact E|]. exists [], x, cs. repeat split; auto. intros (P & _ & Q). auto.
    - exists c'. split; [exact E|]. exists [x], 10, r. rewrite B. repeat split; auto.
      + apply is_break_iff; lia.
      + intros (_ & P & _). discriminate.
    - exists c'. split; [exact E|]. exists (x :: a), b, d. rewrite A. repeat split; auto.
      intros (_ & P & _). discriminate. }
  destruct (N.eqb_spec x 13) as [->|N13].
  { destruct (K true (S l) 0%nat) as (c' & E & H); auto; [apply is_break_iff; lia|intros [_ ?]; lia|].
    exists c'. rewrite E. split; [|auto]. f_equal.
    assert (L : lf_rest cr (13 :: cs) = 13 :: cs) by (cbn [lf_rest]; rewrite andb_false_r; reflexivity).
    rewrite L, line_breaks_cons. cbn [N.eqb Pos.eqb]. lia. }
  destruct (N.eqb_spec x 10) as [->|N10].
  { assert (L0 : lf_rest false cs = cs) by (destruct cs; reflexivity).
    destruct cr.
    - change (lf_rest true (10 :: cs)) with cs.
      destruct (IH false l c) as (c' & E & [(A & B)|[(r & A & B & C & D)|(a & b & d & A & B & C & D & F)]]).
      + exists c'. rewrite E. split; [rewrite L0; reflexivity|]. right; left. exists cs. auto.
      + discriminate.
      + exists c'. rewrite E. split; [rewrite L0; reflexivity|]. right; right. exists (10 :: a), b, d. rewrite A.
        repeat split; auto. intros (_ & P & _). discriminate.
    - destruct (K false (S l) 0%nat) as (c' & E & H); auto; [apply is_break_iff; lia|intros [? _]; discriminate|discriminate|].
      exists c'. rewrite E. split; [|auto]. f_equal.
      change (lf_rest false (10 :: cs)) with (10 :: cs). rewrite line_breaks_cons. cbn [N.eqb Pos.eqb orb].
      destruct cs; cbn [lf_rest andb]; lia. }
  assert (L : lf_rest cr (x :: cs) = x :: cs).
  { cbn [lf_rest]. rewrite (proj2 (N.eqb_neq x 10)) by exact N10. rewrite andb_false_r. reflexivity. }
  assert (L0 : lf_rest false cs = cs) by (destruct cs; reflexivity).
  rewrite L, line_breaks_cons, (proj2 (N.eqb_neq x 13)), (proj2 (N.eqb_neq x 10)) by assumption. cbn [orb].
  destruct ((x =? 8232) || (x =? 8233)) eqn:EB.
  { rewrite orb_true_iff, !N.eqb_eq in EB.
    destruct (K false (S l) 0%nat) as (c' & E & H); auto; [apply is_break_iff; lia|intros [_ ?]; lia|discriminate|].
    exists c'. rewrite E, L0. split; [|auto]. f_equal. lia. }
  rewrite orb_false_iff, !N.eqb_neq in EB.
  destruct (IH false l (S c)) as (c' & E & [(A & B)|[(r & A & B & C & D)|(a & b & d & A & B & C & D & F)]]).
  - exists c'. rewrite E, L0. split; [reflexivity|]. left. split; [|cbn [length]; lia].
    constructor; [|exact A]. rewrite is_break_iff. lia.
  - discriminate.
  - exists c'. rewrite E, L0. split; [reflexivity|]. right; right. exists (x :: a), b, d. rewrite A.
    repeat split; auto. intros (_ & P & _). discriminate.
Qed.

Lemma increment_loop_advance cs l c :
  exists l' c', increment_position_loop cs false l c = (l', c') /\ advance cs l c l' c'.
Proof.
  destruct (increment_loop_gen cs false l c) as (c' & E & H).
  assert (L0 : lf_rest false cs = cs) by (destruct cs; reflexivity). rewrite L0 in E.
  exists (l + line_breaks cs)%nat, c'. split; [exact E|].
  destruct H as [(A & ->)|[(r & A & _)|(a & b & d & A & B & C & _ & ->)]].
  - rewrite (no_breaks_lines _ A), Nat.add_0_r. apply adv_same_line, A.
  - discriminate.
  - eapply adv_new_line; eassumption.
Qed.

(** ** One call of [next_token] *)

(** What a successful call that reads [w] after the blanks [g] does to the position. *)
Definition steps (t : slice_tokenizer) (g w : bytes) (rg : token_range) (t' : slice_tokenizer) : Prop :=
  st_code t' = st_code t /\ st_pos t' = r_end rg /\
  offset (r_start rg) = (offset (st_pos t) + length g)%nat /\
  line (r_start rg) = line (st_pos t) /\
  column (r_start rg) = (column (st_pos t) + length g)%nat /\
  offset (r_end rg) = (offset (r_start rg) + length w)%nat /\
  advance (chars w) (line (r_start rg)) (column (r_start rg)) (line (r_end rg)) (column (r_end rg)).

Lemma blanks_ascii g : blanks g -> Forall (fun b => b < 128) g.
Proof. apply Forall_impl. unfold blank. intros; lia. Qed.

Lemma no_bom_nbsp s : ~ begins nbsp s -> ~ begins bom s -> starts_with bom s || starts_with nbsp s = false.
Proof. intros A B. apply starts_with_not in A, B. rewrite A, B. reflexivity. Qed.

Lemma lexeme_no_bom checks h w t r : lexeme checks h w t r ->
  ~ begins nbsp (w ++ r) /\ ~ begins bom (w ++ r).
Proof.
  assert (X : forall c s, c <> 194 -> c <> 239 -> ~ begins nbsp (c :: s) /\ ~ begins bom (c :: s)).
  { intros c s A B. split; intros [x Hx]; injection Hx as Hx; congruence. }
  assert (Y : ~ begins nbsp [] /\ ~ begins bom []) by (split; intros [x Hx]; discriminate).
  intros H. destruct H; cbn [app]; try (apply X; discriminate); try exact Y.
  - cbn [In line_terminators] in H. destruct H as [<-|[<-|[<-|[<-|[]]]]]; apply X; discriminate.
  - destruct p; apply X; discriminate.
  - apply X; unfold ident_char, lower, upper, digit in H; lia.
  - destruct H as (_ & _ & A & B). auto.
  - apply X; lia.
  - apply X; lia.
  - destruct H; cbn [app]; apply X; lia.
Qed.

Lemma lexeme_no_blank checks h w t r : lexeme checks h w t r -> ~ head_is blank (w ++ r).
Proof.
  assert (X : forall c s, ~ blank c -> ~ head_is blank (c :: s)) by (intros; rewrite head_is_cons; assumption).
  intros H. unfold blank in *. destruct H; cbn [app]; try (apply X; lia); try (apply X; cbv; intuition discriminate).
  - apply head_is_nil.
  - cbn [In line_terminators] in H. destruct H as [<-|[<-|[<-|[<-|[]]]]]; apply X; lia.
  - destruct p; apply X; cbv; intuition discriminate.
  - apply X. unfold ident_char, lower, upper, digit in H. lia.
  - destruct H as ((c & s & -> & A & B & _) & _). apply X. exact B.
  - destruct H; cbn [app]; apply X; lia.
Qed.

Section Next.
  Variables (E : env) (h : hint) (t : slice_tokenizer) (a u : bytes).
  Hypothesis (Hcode : st_code t = a ++ u) (Hoff : offset (st_pos t) = length a) (Hu : utf8 u).

  Lemma eat_blanks g s : u = g ++ s -> blanks g -> ~ head_is blank s ->
    ~ begins nbsp s -> ~ begins bom s ->
    eat_whitespace (st_code t) (st_pos t) =
    TOk (Pos (length a + length g) (line (st_pos t)) (column (st_pos t) + length g)).
  Proof.
    intros Hg Bg Bs N1 N2. unfold eat_whitespace.
    rewrite Hcode, Hoff, slice_from_app by exact Hu. cbn [tbind].
    rewrite Hg, eat_whitespace_loop_spec, no_bom_nbsp by assumption. do 2 f_equal; lia.
  Qed.

  Lemma next_lexeme g w r tok : u = g ++ w ++ r -> blanks g -> lexeme (overflow_checks E) h w tok r ->
    exists tok' rg t', next_token E t h = TOk (tok', rg, t') /\ same_token tok tok' /\ steps t g w rg t'.
  Proof.
    intros Hg Bg Hl. destruct (lexeme_no_bom _ _ _ _ _ Hl) as [N1 N2].
    assert (Ug : utf8 (w ++ r)).
    { rewrite Hg in Hu. eapply utf8_rest_ascii; [apply blanks_ascii; eassumption|exact Hu]. }
    destruct (lexeme_utf8 _ _ _ _ _ Hl Ug) as [Uw Ur].
    destruct (lexeme_read E h w tok r Hl Ug) as (tok' & R & S).
    unfold next_token. rewrite (eat_blanks g (w ++ r)); try assumption; [|eapply lexeme_no_blank; eassumption].
    cbn [tbind offset].
    rewrite (slice_from_at _ _ (a ++ g) (w ++ r));
      [|rewrite Hcode, Hg, <- app_assoc; reflexivity|rewrite app_length; reflexivity|exact Ug].
    cbn [tbind]. rewrite R. cbn [tbind]. unfold increment_position. rewrite slice_0_app by exact Ur. cbn [tbind].
    cbn [line column offset].
    destruct (increment_loop_advance (chars w) (line (st_pos t)) (column (st_pos t) + length g)) as (l' & c' & -> & A).
    cbn [tbind]. do 3 eexists. split; [reflexivity|]. split; [exact S|].
    unfold steps. cbn [st_code st_pos r_start r_end offset line column]. rewrite Hoff. repeat split; auto.
  Qed.

  Lemma next_error g s : u = g ++ s -> blanks g -> ~ head_is blank s -> lex_error (overflow_checks E) h s ->
    exists p, next_token E t h = TPanic p.
  Proof.
    intros Hg Bg Bs He. unfold next_token.
    assert (Us : utf8 s).
    { rewrite Hg in Hu. eapply utf8_rest_ascii; [apply blanks_ascii; eassumption|exact Hu]. }
    assert (SF : forall c x, s = c :: x -> 128 <= c ->
      starts_with bom s || starts_with nbsp s = true -> slice_from (st_code t) (length a + length g + 1) = TPanic P_slice).
    { intros c x -> Hc Hb. unfold slice_from. rewrite Hcode, Hg.
      replace (a ++ g ++ c :: x) with ((a ++ g) ++ c :: x) by (symmetry; apply app_assoc).
      destruct x as [|c2 x].
      { exfalso. apply orb_true_iff in Hb as [Hb|Hb]; apply starts_with_begins in Hb as [y Hb]; discriminate. }
      assert (B : is_cont c2 = true).
      { apply orb_true_iff in Hb as [Hb|Hb]; apply starts_with_begins in Hb as [y Hb]; injection Hb as -> -> _; reflexivity. }
      replace (is_char_boundary ((a ++ g) ++ c :: c2 :: x) (length a + length g + 1)) with false; [reflexivity|].
      symmetry. unfold is_char_boundary.
      replace (length a + length g + 1)%nat with (length ((a ++ g) ++ [c])) by (rewrite !app_length; cbn; lia).
      replace ((a ++ g) ++ c :: c2 :: x) with (((a ++ g) ++ [c]) ++ c2 :: x) by (rewrite <- app_assoc; reflexivity).
      unfold at_. rewrite app_nth2, Nat.sub_diag by lia. cbn [nth]. rewrite B, andb_false_r, orb_false_r.
      apply orb_false_iff. split; apply Nat.eqb_neq; rewrite !app_length; cbn [length]; lia. }
    destruct (starts_with bom s || starts_with nbsp s) eqn:Hb.
    - unfold eat_whitespace. rewrite Hcode, Hoff, slice_from_app by exact Hu. cbn [tbind].
      rewrite Hg, eat_whitespace_loop_spec, Hb by assumption. cbn [offset].
      destruct s as [|c x]; [discriminate|]. rewrite <- Hg, <- Hcode.
      rewrite (SF c x eq_refl); [cbn [tbind]; eauto| |reflexivity].
      apply orb_true_iff in Hb as [Hb|Hb]; apply starts_with_begins in Hb as [y Hb]; injection Hb as -> _; lia.
    - apply orb_false_iff in Hb as [B1 B2]. apply starts_with_not in B1, B2.
      rewrite (eat_blanks g s) by assumption. cbn [tbind offset].
      rewrite (slice_from_at _ _ (a ++ g) s);
        [|rewrite Hcode, Hg, <- app_assoc; reflexivity|rewrite app_length; reflexivity|exact Us].
      cbn [tbind]. destruct (lex_error_read E h s He Us) as [p ->]. cbn [tbind]. eauto.
  Qed.

  Theorem next_token_ok tok rg t' : next_token E t h = TOk (tok, rg, t') ->
    exists g w r, u = g ++ w ++ r /\ blanks g /\ lexeme (overflow_checks E) h w tok r /\
                  utf8 w /\ utf8 r /\ steps t g w rg t'.
  Proof.
    intros H. destruct (span_exists blank blank_dec u) as (g & s & Hg & Bg & Bs).
    destruct (lex_total (overflow_checks E) h s Bs) as [(w & tok0 & r & -> & Hl)|He].
    - destruct (next_lexeme g w r tok0 Hg Bg Hl) as (tok' & rg' & t1 & R & S & St).
      rewrite R in H. injection H as -> -> ->. exists g, w, r.
      split; [exact Hg|]. split; [exact Bg|]. split; [eapply lexeme_same; eassumption|].
      assert (Ug : utf8 (w ++ r)).
      { rewrite Hg in Hu. eapply utf8_rest_ascii; [apply blanks_ascii; eassumption|exact Hu]. }
      destruct (lexeme_utf8 _ _ _ _ _ Hl Ug). auto.
    - destruct (next_error g s Hg Bg Bs He) as [p Hp]. congruence.
  Qed.

  Theorem next_token_panics : (exists p, next_token E t h = TPanic p) <->
    exists g s, u = g ++ s /\ blanks g /\ ~ head_is blank s /\ lex_error (overflow_checks E) h s.
  Proof.
    split.
    - intros [p H]. destruct (span_exists blank blank_dec u) as (g & s & Hg & Bg & Bs).
      exists g, s. repeat split; auto.
      destruct (lex_total (overflow_checks E) h s Bs) as [(w & tok0 & r & -> & Hl)|He]; [|exact He].
      destruct (next_lexeme g w r tok0 Hg Bg Hl) as (tok' & rg' & t1 & R & _). congruence.
    - intros (g & s & Hg & Bg & Bs & He). eapply next_error; eassumption.
  Qed.
End Next.
