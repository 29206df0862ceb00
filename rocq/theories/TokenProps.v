(** The tokenizer properties, from the one-call characterization of NextFacts.v. *)
From Coq Require Import String List NArith ZArith Bool Arith Lia.
From Verif Require Import Base Tokens SpecTokens SpecStream Tokenizer ByteFacts LoopFacts StringFacts NumberFacts LexFacts LexTotal NextFacts.
Import ListNotations.
Local Open Scope N_scope.

Lemma stands_rest t g s a : st_code t = a ++ g ++ s -> offset (st_pos t) = length a -> utf8 (g ++ s) ->
  blanks g -> utf8 s.
Proof. intros _ _ U Bg. eapply utf8_rest_ascii; [apply blanks_ascii; eassumption|exact U]. Qed.

(** ** [next_token] as a function of the remaining text *)

Lemma next_eq E t h g s : stands t (g ++ s) -> blanks g -> ~ head_is blank s ->
  ~ begins nbsp s -> ~ begins bom s ->
  next_token E t h =
  (tdo (tok, size) <- read_next E s h ;;
   tdo e <- increment_position s size
              (Pos (offset (st_pos t) + length g) (line (st_pos t)) (column (st_pos t) + length g)) ;;
   TOk (tok, Range (Pos (offset (st_pos t) + length g) (line (st_pos t)) (column (st_pos t) + length g)) e,
        SliceTokenizer (st_code t) e)).
Proof.
  intros (a & Hc & Ho & Hu) Bg Bs N1 N2. unfold next_token.
  rewrite (eat_blanks t a (g ++ s) Hc Ho Hu g s eq_refl Bg Bs N1 N2). cbn [tbind offset].
  rewrite (slice_from_at _ _ (a ++ g) s);
    [|rewrite Hc, <- app_assoc; reflexivity|rewrite app_length; reflexivity
     |eapply utf8_rest_ascii; [apply blanks_ascii; eassumption|exact Hu]].
  rewrite Ho. reflexivity.
Qed.

Lemma next_ok E t h u tok rg t' : stands t u -> next_token E t h = TOk (tok, rg, t') ->
  exists g w r, u = g ++ w ++ r /\ blanks g /\ lexeme (overflow_checks E) h w tok r /\
    steps t g w rg t' /\ utf8 w /\ stands t' r.
Proof.
  intros (a & Hc & Ho & Hu) H.
  destruct (next_token_ok E h t a u Hc Ho Hu tok rg t' H) as (g & w & r & Eu & Bg & Hl & Uw & Ur & St).
  exists g, w, r. repeat split; auto.
  - apply St.
  - apply St.
  - apply St.
  - apply St.
  - apply St.
  - apply St.
  - apply St.
  - destruct St as (S1 & S2 & S3 & _ & _ & S4 & _).
    exists (a ++ g ++ w). split; [rewrite S1, Hc, Eu, <- !app_assoc; reflexivity|]. split; [|exact Ur].
    rewrite S2, S4, S3, Ho, !app_length. lia.
Qed.

(** A lexeme after blanks is read, up to the value of a number. *)
Lemma reads_lexeme E t h g w tok r : stands t (g ++ w ++ r) -> blanks g -> lexeme (overflow_checks E) h w tok r ->
  exists tok', reads E t h g w tok' r /\ same_token tok tok'.
Proof.
  intros (a & Hc & Ho & Hu) Bg Hl.
  destruct (next_lexeme E h t a _ Hc Ho Hu g w r tok eq_refl Bg Hl) as (tok' & rg & t' & R & S & St).
  exists tok'. split; [|exact S]. exists rg, t'. split; [exact R|].
  destruct St as (S1 & S2 & S3 & _ & _ & S4 & _). repeat split; auto.
  exists (a ++ g ++ w). split; [rewrite S1, Hc, <- !app_assoc; reflexivity|]. split.
  - rewrite S2, S4, S3, Ho, !app_length. lia.
  - eapply lexeme_utf8; [eassumption|]. eapply utf8_rest_ascii; [apply blanks_ascii; eassumption|exact Hu].
Qed.

Lemma reads_lexeme_eq E t h g w tok r : stands t (g ++ w ++ r) -> blanks g -> lexeme (overflow_checks E) h w tok r ->
  (forall n, tok <> TNumeric n) -> reads E t h g w tok r.
Proof.
  intros St Bg Hl Hn. destruct (reads_lexeme E t h g w tok r St Bg Hl) as (tok' & R & S).
  replace tok with tok'; [exact R|]. destruct tok; destruct tok'; cbn in S; try congruence; exfalso; eapply Hn; reflexivity.
Qed.

Lemma panics_error E t h g s : stands t (g ++ s) -> blanks g -> ~ head_is blank s ->
  lex_error (overflow_checks E) h s -> panics E t h.
Proof.
  intros (a & Hc & Ho & Hu) Bg Bs He. unfold panics.
  apply (next_token_panics E h t a _ Hc Ho Hu). exists g, s. auto.
Qed.

Lemma panics_iff E t h u : stands t u ->
  (panics E t h <-> exists g s, u = g ++ s /\ blanks g /\ ~ head_is blank s /\ lex_error (overflow_checks E) h s).
Proof. intros (a & Hc & Ho & Hu). apply (next_token_panics E h t a _ Hc Ho Hu). Qed.

Lemma blanks_unique g s g' s' : g ++ s = g' ++ s' -> blanks g -> blanks g' ->
  ~ head_is blank s -> ~ head_is blank s' -> g = g' /\ s = s'.
Proof.
  intros H Hg. revert g' H. induction Hg as [|b g Hb Hg IH]; intros g' H Hg' Hs Hs'.
  - destruct Hg' as [|b' g' Hb' Hg']; [auto|]. cbn [app] in H. subst s. exfalso. apply Hs. rewrite head_is_cons. exact Hb'.
  - destruct Hg' as [|b' g' Hb' Hg'].
    + cbn [app] in H. subst s'. exfalso. apply Hs'. rewrite head_is_cons. exact Hb.
    + injection H as <- H. destruct (IH g' H Hg' Hs Hs') as [<- <-]. auto.
Qed.

(** ** C02: spelling *)

Lemma decimal_head m x r : decimal_text m x r ->
  (head_is digit (m ++ x) \/ exists d v, m ++ x = 46 :: d :: v /\ digit d).
Proof.
  intros H; destruct H; cbn [app].
  - left. rewrite head_is_cons. unfold digit. lia.
  - left. rewrite head_is_cons. unfold digit. lia.
  - right. do 2 eexists. split; [reflexivity|]. inversion H; assumption.
  - left. rewrite head_is_cons. unfold digit. lia.
  - left. rewrite head_is_cons. unfold digit. lia.
Qed.

Lemma lexeme_spells checks h w t r : lexeme checks h w t r -> spells t w.
Proof.
  intros H; destruct H; cbn [spells]; auto.
  - left. exists q. auto.
  - split; [eapply decimal_head; eassumption|]. apply Forall_app. split; [eapply decimal_text_ascii; eassumption|].
    destruct H; try (eapply exponent_ascii; eassumption). constructor.
  - split; [left; rewrite head_is_cons; unfold digit; lia|].
    constructor; [lia|]. constructor; [eapply radix_letter_ascii; eassumption|].
    constructor; [apply H0|]. eapply radix_digit_ascii; eassumption.
Qed.

Lemma c02 E t h u tok rg t' : stands t u -> next_token E t h = TOk (tok, rg, t') ->
  exists w, slice (st_code t) (offset (r_start rg)) (offset (r_end rg)) = TOk w /\ spells tok w.
Proof.
  intros St H. destruct (next_ok E t h u tok rg t' St H) as (g & w & r & Eu & Bg & Hl & S & Uw & (b & B1 & B2 & B3)).
  destruct St as (a & Hc & Ho & Hu). exists w. split; [|eapply lexeme_spells; eassumption].
  destruct S as (S1 & S2 & S3 & _ & _ & S4 & _).
  apply (slice_at _ _ _ (a ++ g) w r).
  - rewrite Hc, Eu, <- app_assoc. reflexivity.
  - rewrite S3, Ho, app_length. reflexivity.
  - rewrite S4, S3, Ho, app_length. lia.
  - apply utf8_app; assumption.
  - exact B3.
Qed.

(** ** C01: tiling *)

Lemma skipn_at a (u : bytes) n : n = length a -> skipn n (a ++ u) = u.
Proof. intros ->. apply skipn_length_app. Qed.

Lemma run_tiles E t hs l t' : run E t hs l t' -> forall u, stands t u ->
  tiles (st_code t) (offset (st_pos t)) l (offset (st_pos t')) /\ st_code t' = st_code t /\ exists u', stands t' u'.
Proof.
  induction 1 as [t|t h hs tok rg t1 l t2 N R IH]; intros u St.
  - split; [|eauto]. constructor. destruct St as (a & -> & -> & _). rewrite app_length. lia.
  - destruct (next_ok E t h u tok rg t1 St N) as (g & w & r & Eu & Bg & Hl & S & Uw & St1).
    destruct (IH r St1) as (A & B & C). destruct S as (S1 & S2 & S3 & _ & _ & S4 & _).
    rewrite S1 in *. split; [|auto]. destruct rg as [s e]. cbn [r_start r_end] in *.
    apply (tiles_cons _ _ _ g w r); auto.
    + destruct St as (a & -> & Ho & _). rewrite (skipn_at a) by exact Ho. exact Eu.
    + eapply lexeme_spells; eassumption.
    + rewrite <- S2. exact A.
Qed.

Lemma stands_start code : utf8 code -> stands (into_tokenizer code) code.
Proof. intros H. exists []. repeat split. exact H. Qed.

Lemma c01 E code hs l t' : utf8 code -> run E (into_tokenizer code) hs l t' ->
  tiles code 0 l (offset (st_pos t')) /\ st_code t' = code /\ exists u, stands t' u.
Proof. intros Hu R. apply (run_tiles E _ hs l t' R code), stands_start, Hu. Qed.

(** ** C03: progress *)

Lemma lexeme_empty checks h w t r : lexeme checks h w t r -> w = [] ->
  (t = TEOF /\ r = []) \/ (t = TIdent [] /\ unsupported r) \/
  (t = TString [] /\ exists q v, (q = 34 \/ q = 39) /\ r = q :: v /\ string_open q v).
Proof.
  intros H; destruct H; intros E; try discriminate; auto.
  - cbn [In line_terminators] in H. subst t. intuition discriminate.
  - destruct p; discriminate.
  - right; right. split; auto. exists q, v. auto.
  - exfalso. apply app_eq_nil in E as [-> _]. inversion H.
Qed.

Lemma c03 E t h u tok rg t' : stands t u -> next_token E t h = TOk (tok, rg, t') ->
  (offset (r_end rg) = offset (r_start rg) <->
   (tok = TEOF /\ blanks u) \/
   (tok = TIdent [] /\ exists g s, u = g ++ s /\ blanks g /\ unsupported s) \/
   (tok = TString [] /\ exists g q s, u = g ++ q :: s /\ blanks g /\ (q = 34 \/ q = 39) /\ string_open q s)).
Proof.
  intros St H. destruct (next_ok E t h u tok rg t' St H) as (g & w & r & Eu & Bg & Hl & S & Uw & St1).
  destruct S as (S1 & S2 & S3 & _ & _ & S4 & _). split.
  - intros Eo. assert (Ew : w = []) by (destruct w; [reflexivity|cbn [length] in S4; lia]).
    subst w. destruct (lexeme_empty _ _ _ _ _ Hl eq_refl) as [(-> & ->)|[(-> & Us)|(-> & q & v & Hq & -> & Ho)]].
    + left. split; [reflexivity|]. cbn [app] in Eu. rewrite app_nil_r in Eu. congruence.
    + right; left. split; [reflexivity|]. exists g, r. auto.
    + right; right. split; [reflexivity|]. exists g, q, v. auto.
  - intros D. assert (Ew : w = []); [|rewrite Ew in S4; cbn [length] in S4; lia].
    assert (NB := lexeme_no_blank _ _ _ _ _ Hl).
    destruct D as [(-> & Bu)|[(-> & g' & s & Eu' & Bg' & Us)|(-> & g' & q & s & Eu' & Bg' & Hq & Ho)]].
    + inversion Hl. reflexivity.
    + rewrite Eu' in Eu. destruct (blanks_unique g' s g (w ++ r)) as [-> ->]; auto.
      { destruct Us as ((c & x & -> & _ & B & _) & _). rewrite head_is_cons. exact B. }
      inversion Hl. reflexivity.
    + rewrite Eu' in Eu. destruct (blanks_unique g' (q :: s) g (w ++ r)) as [-> Es]; auto.
      { rewrite head_is_cons. unfold blank. lia. }
      destruct (reads_lexeme_eq E t h g [] (TString []) (q :: s)) as (rg' & t1 & R & S5 & S6 & _).
      * cbn [app]. rewrite <- Eu'. exact St.
      * exact Bg.
      * apply lx_string_empty; assumption.
      * discriminate.
      * rewrite R in H. injection H as -> ->. cbn [length] in S6. destruct w; [reflexivity|].
        cbn [length] in S4. lia.
Qed.

(** ** C04: EOF *)

Lemma c04 E t h u tok rg t' : stands t u -> next_token E t h = TOk (tok, rg, t') ->
  (tok = TEOF <-> blanks u).
Proof.
  intros St H. destruct (next_ok E t h u tok rg t' St H) as (g & w & r & Eu & Bg & Hl & S & Uw & St1).
  split.
  - intros ->. inversion Hl; subst. rewrite app_nil_r. exact Bg.
  - intros Bu. assert (NB := lexeme_no_blank _ _ _ _ _ Hl).
    destruct (blanks_unique u [] g (w ++ r)) as [_ Ew]; auto.
    { rewrite app_nil_r. exact Eu. }
    { apply head_is_nil. }
    symmetry in Ew. apply app_eq_nil in Ew as [-> ->].
    inversion Hl; subst; auto.
    + exfalso. cbn [In line_terminators] in *. intuition discriminate.
    + destruct p; discriminate.
    + destruct H0 as ((c & x & X & _) & _). discriminate.
    + exfalso. apply app_eq_nil in H0 as [-> _]. inversion H1.
Qed.

Lemma advance_nil l c l' c' : advance [] l c l' c' -> l' = l /\ c' = c.
Proof. intros H; destruct H; [cbn [length]; lia|]. destruct a; discriminate. Qed.

Lemma c04_stays E t h u rg t' : stands t u -> next_token E t h = TOk (TEOF, rg, t') ->
  offset (r_end rg) = length (st_code t) /\ r_start rg = r_end rg /\
  forall h', next_token E t' h' = TOk (TEOF, Range (r_end rg) (r_end rg), t').
Proof.
  intros St H. destruct (next_ok E t h u _ rg t' St H) as (g & w & r & Eu & Bg & Hl & S & Uw & St1).
  destruct S as (S1 & S2 & S3 & SL & SC & S4 & S5).
  inversion Hl; subst w r. apply advance_nil in S5 as [L C]. cbn [length] in S4.
  assert (R : r_start rg = r_end rg).
  { destruct rg as [[a1 b1 c1] [a2 b2 c2]]. cbn [r_start r_end offset line column] in *. f_equal; lia. }
  split; [|split; [exact R|]].
  - destruct St as (a & Hc & Ho & _). rewrite S4, S3, Ho, Hc, Eu, !app_length. cbn [length]. lia.
  - intros h'. rewrite (next_eq E t' h' [] []); [|exact St1|constructor|apply head_is_nil|intros [x Hx]; discriminate|intros [x Hx]; discriminate].
    change (read_next E [] h') with (TOk (TEOF, 0%nat)). cbn [tbind length].
    unfold increment_position. change (slice [] 0 0) with (TOk (@nil N)). cbn [tbind chars increment_position_loop].
    cbn [line column offset]. rewrite !Nat.add_0_r. cbn [tbind].
    destruct t' as [code pos]. cbn [st_code st_pos] in *. subst pos. destruct (r_end rg); reflexivity.
Qed.

(** ** C05: panics *)

Definition not_unreachable {A} (r : tres A) : Prop := forall s, r <> TPanic (P_unreachable s).

Lemma nu_ok A (a : A) : not_unreachable (TOk a).
Proof. intros s; discriminate. Qed.
Lemma nu_bind A B (r : tres A) (k : A -> tres B) :
  not_unreachable r -> (forall a, not_unreachable (k a)) -> not_unreachable (tbind r k).
Proof. intros H K s. destruct r; cbn [tbind]; [apply K|]. intros E. injection E as ->. exact (H s eq_refl). Qed.
Lemma nu_slice s a b : not_unreachable (slice s a b).
Proof. unfold slice. destruct (_ && _); intros s'; discriminate. Qed.
Lemma nu_slice_from s a : not_unreachable (slice_from s a).
Proof. unfold slice_from. destruct (is_char_boundary s a); intros s'; discriminate. Qed.
Lemma nu_u8_sub E a b : not_unreachable (u8_sub E a b).
Proof. unfold u8_sub. destruct (b <=? a); [intros s; discriminate|]. destruct (overflow_checks E); intros s; discriminate. Qed.
Lemma nu_i32 E z : not_unreachable (i32 E z).
Proof. unfold i32. destruct (i32_ok z); [intros s; discriminate|]. destruct (overflow_checks E); intros s; discriminate. Qed.
Create HintDb nu.
#[local] Hint Resolve nu_ok nu_slice nu_slice_from nu_u8_sub nu_i32 : nu.

Ltac nu := repeat first
  [ apply nu_ok
  | apply nu_bind; [|intros ?]
  | match goal with
    | |- not_unreachable (TPanic _) => intros ?; discriminate
    | |- not_unreachable (if ?b then _ else _) => destruct b
    | |- not_unreachable (let '(_, _) := ?p in _) => destruct p
    | |- not_unreachable (match ?p with _ => _ end) => destruct p
    end
  | solve [auto with nu] ].

Lemma nu_exponent_loop E rest : forall v i, not_unreachable (parse_exponent_loop E rest v i).
Proof. induction rest as [|b rest IH]; intros v i; cbn [parse_exponent_loop]; nu. Qed.
#[local] Hint Resolve nu_exponent_loop : nu.
Lemma nu_exponent E bs : not_unreachable (parse_exponent E bs).
Proof. unfold parse_exponent. cbv zeta. nu. Qed.
#[local] Hint Resolve nu_exponent : nu.
Lemma nu_apply_exponent E c v o : not_unreachable (apply_exponent E c v o).
Proof. unfold apply_exponent. nu. Qed.
#[local] Hint Resolve nu_apply_exponent : nu.
Lemma nu_octal rest : forall v i, not_unreachable (octal_loop rest v i).
Proof. induction rest as [|b rest IH]; intros v i; cbn [octal_loop]; nu. Qed.
Lemma nu_binary rest : forall v i, not_unreachable (binary_loop rest v i).
Proof. induction rest as [|b rest IH]; intros v i; cbn [binary_loop]; nu. Qed.
#[local] Hint Resolve nu_octal nu_binary : nu.
Lemma nu_zero E c : not_unreachable (tok_zero_num E c).
Proof. unfold tok_zero_num. cbv zeta. nu. Qed.
Lemma nu_num E c : not_unreachable (tok_num E c).
Proof. unfold tok_num. nu. Qed.
Lemma nu_fractional E c : not_unreachable (tok_fractional E c).
Proof. unfold tok_fractional. cbv zeta. nu. Qed.
Lemma nu_slash c h : not_unreachable (tok_slash c h).
Proof. unfold tok_slash. cbv zeta. nu. Qed.
Lemma nu_template c : not_unreachable (tok_template_head c).
Proof. unfold tok_template_head. nu. Qed.
Lemma nu_curly c h : not_unreachable (tok_curly_close c h).
Proof. unfold tok_curly_close. nu. Qed.
Lemma nu_ident c : not_unreachable (tok_ident c).
Proof. unfold tok_ident. cbv zeta. nu. Qed.

Lemma str_plain_nu t b rest s x : str_plain t b rest s <> StrPanic (P_unreachable x).
Proof. unfold str_plain. repeat match goal with |- (if ?b then _ else _) <> _ => destruct b end; discriminate. Qed.
Lemma str_middle_nu t b rest s x : str_middle t b rest s <> StrPanic (P_unreachable x).
Proof.
  unfold str_middle. cbv zeta.
  match goal with |- (if ?b then _ else _) <> _ => destruct b end; [apply str_plain_nu|discriminate].
Qed.
Lemma str_step_nu t b rest s x : str_step t b rest s <> StrPanic (P_unreachable x).
Proof.
  unfold str_step. cbv zeta.
  repeat match goal with |- (if ?b then _ else _) <> _ => destruct b end; try discriminate; apply str_middle_nu.
Qed.
Lemma nu_str_loop t rest : forall i s, not_unreachable (str_loop t rest i s).
Proof.
  induction rest as [|b rest IH]; intros i s; cbn [str_loop]; [nu|].
  destruct (str_step t b (b :: rest) s) eqn:E; [apply IH|nu|].
  intros x H. injection H as ->. exact (str_step_nu _ _ _ _ _ E).
Qed.
#[local] Hint Resolve nu_str_loop : nu.
Lemma nu_str t c : not_unreachable (tok_str t c).
Proof. unfold tok_str. nu. Qed.
#[local] Hint Resolve nu_zero nu_num nu_fractional nu_slash nu_template nu_curly nu_ident nu_str : nu.

Lemma nu_read_next E s h : ~ head_is blank s -> ~ begins nbsp s -> ~ begins bom s ->
  not_unreachable (read_next E s h).
Proof.
  intros Bs N1 N2. unfold read_next, punc_tok. cbv zeta. destruct s as [|c s]; [cbn; nu|].
  cbn [length Nat.eqb]. change (at_ (c :: s) 0) with c.
  rewrite head_is_cons in Bs. apply blank_not in Bs. rewrite Bs.
  apply starts_with_not in N1, N2. unfold nbsp in N1. unfold bom in N2. unfold WS_NBSP, WS_ZWNBSP.
  rewrite N1, N2, !andb_false_r. nu.
Qed.

Lemma c05_unreachable E t h u : stands t u -> not_unreachable (next_token E t h).
Proof.
  intros St. destruct (span_exists blank blank_dec u) as (g & s & -> & Bg & Bs).
  destruct (begins_dec nbsp s) as [N1|N1]; [|destruct (begins_dec bom s) as [N2|N2]].
  3: { rewrite (next_eq E t h g s) by assumption. apply nu_bind; [apply nu_read_next; assumption|].
       intros [tok size]. apply nu_bind; [|intros; nu]. unfold increment_position. nu. }
  all: destruct St as (a & Hc & Ho & Hu);
    unfold next_token, eat_whitespace; rewrite Hc, Ho, slice_from_app by exact Hu; cbn [tbind];
    rewrite eat_whitespace_loop_spec by assumption;
    assert (Hb : starts_with bom s || starts_with nbsp s = true)
      by (apply orb_true_iff; first [left; apply starts_with_begins; assumption | right; apply starts_with_begins; assumption]);
    rewrite Hb; cbn [offset];
    assert (SB : slice_from (a ++ g ++ s) (length a + length g + 1) = TPanic P_slice).
  1, 3: unfold slice_from;
    apply orb_true_iff in Hb;
    assert (exists c1 c2 x, s = c1 :: c2 :: x /\ is_cont c2 = true) as (c1 & c2 & x & -> & B)
      by (destruct Hb as [Hb|Hb]; apply starts_with_begins in Hb as [y ->]; do 3 eexists; split; reflexivity);
    replace (is_char_boundary (a ++ g ++ c1 :: c2 :: x) (length a + length g + 1)) with false; [reflexivity|];
    symmetry; unfold is_char_boundary;
    replace (length a + length g + 1)%nat with (length ((a ++ g) ++ [c1])) by (rewrite !app_length; cbn; lia);
    replace (a ++ g ++ c1 :: c2 :: x) with (((a ++ g) ++ [c1]) ++ c2 :: x) by (rewrite <- !app_assoc; reflexivity);
    unfold at_; rewrite app_nth2, Nat.sub_diag by lia; cbn [nth]; rewrite B, andb_false_r, orb_false_r;
    apply orb_false_iff; split; apply Nat.eqb_neq; rewrite !app_length; cbn [length]; lia.
  all: rewrite SB; cbn [tbind]; intros ?; discriminate.
Qed.
