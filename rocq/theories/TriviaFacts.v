(** How trivia are read. *)
From Coq Require Import String List Arith NArith Bool Lia.
From Verif Require Import Base Tokens SpecTokens SpecStream Tokenizer ByteFacts LoopFacts NumberFacts LexFacts LexTotal NextFacts
  TokenProps ParserCore SpecTrivia.
Import ListNotations.
Local Open Scope N_scope.

(** ** Line breaks *)
Lemma contains_cons a s : contains_break (a :: s) <-> at_line_terminator (a :: s) \/ contains_break s.
Proof.
  split.
  - intros (x & y & E & H). destruct x as [|c x]; cbn in E; [left; rewrite E; exact H|].
    injection E as -> ->. right. exists x, y. auto.
  - intros [H|(x & y & -> & H)]; [exists [], (a :: s); auto|]. exists (a :: x), y. auto.
Qed.
Lemma contains_nil : ~ contains_break [].
Proof.
  intros (x & y & E & t & Ht & r & ->). destruct x; [|discriminate]. destruct t; [|discriminate].
  cbn in Ht. intuition discriminate.
Qed.
Lemma at_lt_iff s : at_line_terminator s <->
  (exists r, s = 10 :: r) \/ (exists r, s = 13 :: r) \/ (exists r, s = 226 :: 128 :: 168 :: r) \/ (exists r, s = 226 :: 128 :: 169 :: r).
Proof.
  unfold at_line_terminator, line_terminators, begins. split.
  - intros (t & Ht & r & ->). cbn [In] in Ht. destruct Ht as [<-|[<-|[<-|[<-|[]]]]]; cbn [app]; eauto 10.
  - intros [(r & ->)|[(r & ->)|[(r & ->)|(r & ->)]]].
    + exists [10]. split; [cbn; auto|exists r; reflexivity].
    + exists [13]. split; [cbn; auto|exists r; reflexivity].
    + exists [226; 128; 168]. split; [cbn; auto|exists r; reflexivity].
    + exists [226; 128; 169]. split; [cbn; auto|exists r; reflexivity].
Qed.

Lemma break_iff v : utf8 v -> (Exists is_break (chars v) <-> contains_break v).
Proof.
  induction 1 as [|a r Ha H IH|a b r Ha Hb H IH|a b c r Ha Hb Hc H1 H2 H IH|a b c d r Ha Hb Hc Hd H1 H2 H IH].
  - cbn. split; [intros X; inversion X|intros X; destruct (contains_nil X)].
  - cbn [chars]. destruct (N.ltb_spec a 128); [|lia]. rewrite Exists_cons, IH, contains_cons, at_lt_iff, is_break_iff.
    split; intros [X|X]; auto; left.
    + destruct X as [->|[->|[->| ->]]]; try lia; eauto.
    + destruct X as [(y & X)|[(y & X)|[(y & X)|(y & X)]]]; injection X as -> _; auto; lia.
  - apply is_cont_iff in Hb. cbn [chars]. destruct (N.ltb_spec a 128); [lia|]. destruct (N.ltb_spec a 224); [|lia].
    rewrite Exists_cons, IH, !contains_cons, !at_lt_iff, is_break_iff.
    split.
    + intros [X|X]; [lia|auto].
    + intros [X|[X|X]]; [| |auto]; destruct X as [(y & X)|[(y & X)|[(y & X)|(y & X)]]]; injection X; intros; subst; lia.
  - apply is_cont_iff in Hb, Hc. cbn [chars]. destruct (N.ltb_spec a 128); [lia|]. destruct (N.ltb_spec a 224); [lia|]. destruct (N.ltb_spec a 240); [|lia].
    rewrite Exists_cons, IH, !contains_cons, !at_lt_iff, is_break_iff.
    split.
    + intros [X|X]; [|auto]. left. assert (a = 226 /\ b = 128 /\ (c = 168 \/ c = 169)) as (-> & -> & [-> | ->]) by lia; eauto 10.
    + intros [X|[X|[X|X]]]; [| | |auto]; destruct X as [(y & X)|[(y & X)|[(y & X)|(y & X)]]]; injection X; intros; subst; try lia; left; lia.
  - apply is_cont_iff in Hb, Hc, Hd. cbn [chars]. destruct (N.ltb_spec a 128); [lia|]. destruct (N.ltb_spec a 224); [lia|]. destruct (N.ltb_spec a 240); [lia|].
    rewrite Exists_cons, IH, !contains_cons, !at_lt_iff, is_break_iff.
    split.
    + intros [X|X]; [lia|auto].
    + intros [X|[X|[X|[X|X]]]]; [| | | |auto]; destruct X as [(y & X)|[(y & X)|[(y & X)|(y & X)]]]; injection X; intros; subst; lia.
Qed.

Lemma line_breaks_pos n : forall cs, (length cs <= n)%nat -> Exists is_break cs -> (1 <= line_breaks cs)%nat.
Proof.
  induction n as [|n IH]; intros cs L X; destruct cs as [|c r]; [inversion X|cbn in L; lia|inversion X|].
  rewrite line_breaks_cons. destruct (N.eqb_spec c 13); [lia|].
  destruct ((c =? 10) || (c =? 8232) || (c =? 8233)) eqn:E; [lia|].
  apply IH; [cbn in L; lia|]. inversion X as [? ? B|]; subst; [|assumption].
  apply is_break_iff in B. destruct B as [->|[->|[->| ->]]]; try discriminate; congruence.
Qed.

Lemma advance_line w l c l' c' : utf8 w -> advance (chars w) l c l' c' -> (l = l' <-> ~ contains_break w).
Proof.
  intros U A. rewrite <- break_iff by exact U. destruct A as [H|a b d E B H].
  - split; [|reflexivity]. intros _ X. apply Exists_exists in X. destruct X as (x & X1 & X2).
    rewrite Forall_forall in H. exact (H x X1 X2).
  - assert (X : Exists is_break (chars w)) by (rewrite E; apply Exists_app; right; constructor; exact B).
    pose proof (line_breaks_pos _ _ (le_n _) X). split; [lia|contradiction].
Qed.

Lemma contains_dec v : contains_break v \/ ~ contains_break v.
Proof.
  induction v as [|a v IH]; [right; apply contains_nil|]. rewrite contains_cons, at_lt_iff.
  destruct IH as [IH|IH]; [left; auto|].
  destruct (N.eq_dec a 10) as [->|N1]; [left; eauto|]. destruct (N.eq_dec a 13) as [->|N2]; [left; eauto 10|].
  destruct v as [|b [|c v]].
  1, 2: right; intros [[(y & X)|[(y & X)|[(y & X)|(y & X)]]]|X]; try discriminate; try (injection X; intros; congruence); contradiction.
  destruct (N.eq_dec a 226) as [->|N3]; [|right; intros [[(y & X)|[(y & X)|[(y & X)|(y & X)]]]|X]; try (injection X; intros; congruence); contradiction].
  destruct (N.eq_dec b 128) as [->|N4]; [|right; intros [[(y & X)|[(y & X)|[(y & X)|(y & X)]]]|X]; try (injection X; intros; congruence); contradiction].
  destruct (N.eq_dec c 168) as [->|N5]; [left; eauto 10|]. destruct (N.eq_dec c 169) as [->|N6]; [left; eauto 10|].
  right; intros [[(y & X)|[(y & X)|[(y & X)|(y & X)]]]|X]; try (injection X; intros; congruence); contradiction.
Qed.

(** The delimiters of comments add no line break. *)
Lemma contains_app_ascii a v : Forall (fun b => b < 128 /\ b <> 10 /\ b <> 13) a -> (contains_break (a ++ v) <-> contains_break v).
Proof.
  induction 1 as [|b a (B1 & B2 & B3) H IH]; [tauto|]. cbn [app]. rewrite contains_cons, IH, at_lt_iff.
  split; [|auto]. intros [X|X]; [|exact X]. destruct X as [(y & X)|[(y & X)|[(y & X)|(y & X)]]]; injection X; intros; subst; lia.
Qed.
Lemma contains_app_end v : contains_break (v ++ s2b "*/") <-> contains_break v.
Proof.
  split.
  - intros (a & s & E & H). destruct (app_eq_app _ _ _ _ E) as (x & [(-> & E2)|(-> & E2)]).
    + exists a, x. split; [reflexivity|]. rewrite at_lt_iff in *.
      subst s. destruct x as [|x1 [|x2 [|x3 x]]]; cbn [app s2b] in H.
      * destruct H as [(y & X)|[(y & X)|[(y & X)|(y & X)]]]; discriminate.
      * destruct H as [(y & X)|[(y & X)|[(y & X)|(y & X)]]]; try discriminate; injection X; intros; subst; eauto.
      * destruct H as [(y & X)|[(y & X)|[(y & X)|(y & X)]]]; try discriminate; injection X; intros; subst; eauto.
      * destruct H as [(y & X)|[(y & X)|[(y & X)|(y & X)]]]; injection X; intros; subst; eauto 10.
    + exfalso. rewrite at_lt_iff in H. destruct x as [|x1 [|x2 [|x3 x]]]; cbn [app s2b] in E2.
      * subst s. destruct H as [(y & X)|[(y & X)|[(y & X)|(y & X)]]]; discriminate.
      * injection E2 as <- <-. destruct H as [(y & X)|[(y & X)|[(y & X)|(y & X)]]]; discriminate.
      * injection E2 as <- <- <-. destruct H as [(y & X)|[(y & X)|[(y & X)|(y & X)]]]; discriminate.
      * discriminate.
  - intros (a & s & -> & t & Ht & r & ->). exists a, ((t ++ r) ++ s2b "*/"). split; [rewrite <- app_assoc; reflexivity|].
    exists t. split; [exact Ht|]. exists (r ++ s2b "*/"). rewrite <- app_assoc. reflexivity.
Qed.

Lemma line_comment_no_break v r : line_comment_text v r -> ~ contains_break v.
Proof.
  intros (_ & H) (a & s & -> & L). destruct s as [|b s].
  - rewrite at_lt_iff in L. destruct L as [(y & X)|[(y & X)|[(y & X)|(y & X)]]]; discriminate.
  - apply (H a (b :: s) eq_refl); [discriminate|]. destruct L as (t & Ht & x & ->). exists t. split; [exact Ht|].
    exists (x ++ r). rewrite app_assoc. reflexivity.
Qed.

Lemma app_same_length (a b x y : bytes) : length a = length b -> a ++ x = b ++ y -> a = b /\ x = y.
Proof.
  revert b. induction a as [|c a IH]; intros [|d b] L H; try discriminate; [auto|].
  injection H as -> H. injection L as L. destruct (IH b L H) as [-> ->]. auto.
Qed.

(** ** Reading one token *)
Section Read.
Variable E : env.
Notation next := (next_token E).

Lemma next_word t h g w tok r : stands t (g ++ w ++ r) -> blanks g -> lexeme (overflow_checks E) h w tok r ->
  read_next E (w ++ r) h = TOk (tok, length w) ->
  exists rg t', next t h = TOk (tok, rg, t') /\ steps t g w rg t' /\ stands t' r /\ utf8 w.
Proof.
  intros St Bg Hl R. pose proof St as (a & Hc & Ho & Hu).
  destruct (lexeme_no_bom _ _ _ _ _ Hl) as [N1 N2].
  destruct (next_lexeme E h t a _ Hc Ho Hu g w r tok eq_refl Bg Hl) as (tok' & rg & t' & Q & _ & S).
  assert (tok' = tok) as ->.
  { pose proof (next_eq E t h g (w ++ r) St Bg (lexeme_no_blank _ _ _ _ _ Hl) N1 N2) as X.
    rewrite R in X. cbn [tbind] in X. rewrite Q in X. destruct (increment_position _ _ _); cbn in X; congruence. }
  exists rg, t'. split; [exact Q|]. split; [exact S|].
  destruct (next_ok E t h _ tok rg t' St Q) as (g' & w' & r' & Eu & Bg' & Hl' & S' & Uw & St').
  assert (L1 : length g' = length g) by (destruct S as (_ & _ & S3 & _); destruct S' as (_ & _ & S3' & _); lia).
  assert (L2 : length w' = length w) by (destruct S as (_ & _ & _ & _ & _ & S3 & _); destruct S' as (_ & _ & _ & _ & _ & S3' & _); lia).
  assert (g' = g /\ w' ++ r' = w ++ r) as (-> & Eq) by (apply app_same_length; [lia|congruence]).
  assert (w' = w /\ r' = r) as (-> & ->) by (apply app_same_length; [lia|congruence]).
  split; assumption.
Qed.

(** A token that is not a number is determined by its lexeme. *)
Lemma lexeme_read_eq h w tok r : lexeme (overflow_checks E) h w tok r -> utf8 (w ++ r) -> (forall n, tok <> TNumeric n) ->
  read_next E (w ++ r) h = TOk (tok, length w).
Proof.
  intros Hl U N. destruct (lexeme_read E h w tok r Hl U) as (t' & R & S).
  assert (t' = tok) as ->; [|exact R]. destruct tok; cbn in S; auto. exfalso. eapply N. reflexivity.
Qed.

Lemma stands_utf8 t u : stands t u -> utf8 u.
Proof. intros (a & _ & _ & H). exact H. Qed.
Lemma stands_blanks t g s : stands t (g ++ s) -> blanks g -> utf8 s.
Proof. intros H B. eapply utf8_rest_ascii; [apply blanks_ascii, B|]. eapply stands_utf8, H. Qed.

Lemma line_terminator_lexeme h t r : In t line_terminators -> lexeme (overflow_checks E) h t TLineTerminator r.
Proof. apply lx_line_terminator. Qed.

(** Trivia are skipped, and their line breaks noted. *)
Lemma read_trivia g nl r : trivia g nl r -> forall b0 t h ln n, blanks b0 -> stands t (b0 ++ g ++ r) ->
  (length (b0 ++ g ++ r) < n)%nat ->
  exists b1 t1 m, blanks b1 /\ stands t1 (b1 ++ r) /\ (length (b1 ++ r) < m)%nat /\
    read_token next n t h ln = read_token next m t1 h (ln || nl).
Proof.
  induction 1 as [r|b g nl r Hb H IH|w g nl r Hw H IH|v g nl r Hv H IH|v g nl r Hv Hk H IH|v g nl r Hv Hk H IH];
    intros b0 t h ln n B0 St L.
  - exists b0, t, n. rewrite orb_false_r. auto.
  - destruct (IH (b0 ++ [b]) t h ln n) as (b1 & t1 & m & A1 & A2 & A3 & A4).
    + apply Forall_app. split; [exact B0|]. apply Forall_cons; [exact Hb|constructor].
    + rewrite <- app_assoc. exact St.
    + rewrite <- app_assoc. exact L.
    + exists b1, t1, m. auto.
  - assert (Hl : lexeme (overflow_checks E) h w TLineTerminator (g ++ r)) by (apply lx_line_terminator, Hw).
    rewrite <- app_assoc in St, L. pose proof (stands_blanks _ _ _ St B0) as U.
    destruct (next_word t h b0 w _ (g ++ r) St B0 Hl (lexeme_read_eq _ _ _ _ Hl U ltac:(discriminate))) as (rg & t' & Q & _ & St' & _).
    destruct n as [|n]; [lia|].
    destruct (IH [] t' h true n) as (b1 & t1 & m & A1 & A2 & A3 & A4); [constructor|exact St'| |].
    { rewrite !app_length in L. rewrite !app_length. cbn. destruct w; cbn in *; [intuition discriminate|lia]. }
    exists b1, t1, m. repeat split; try assumption. cbn [read_token]. rewrite Q, A4. rewrite orb_true_r. reflexivity.
  - assert (Hl : lexeme (overflow_checks E) h (s2b "//" ++ v) (TComment CF_Line v) (g ++ r)) by (apply lx_line_comment, Hv).
    rewrite <- !app_assoc in St, L. rewrite (app_assoc (s2b "//")) in St, L. pose proof (stands_blanks _ _ _ St B0) as U.
    destruct (next_word t h b0 _ _ (g ++ r) St B0 Hl (lexeme_read_eq _ _ _ _ Hl U ltac:(discriminate))) as (rg & t' & Q & S & St' & Uw).
    destruct n as [|n]; [lia|].
    destruct (IH [] t' h ln n) as (b1 & t1 & m & A1 & A2 & A3 & A4); [constructor|exact St'| |].
    { rewrite !app_length in L. rewrite !app_length. cbn in *. lia. }
    exists b1, t1, m. repeat split; try assumption. cbn [read_token]. rewrite Q, <- A4.
    destruct S as (_ & _ & _ & _ & _ & _ & S). apply advance_line in S; [|exact Uw].
    assert (X : line (r_start rg) = line (r_end rg)).
    { apply S. rewrite contains_app_ascii by (repeat constructor; vm_compute; congruence). eapply line_comment_no_break, Hv. }
    rewrite X, Nat.eqb_refl. reflexivity.
  - assert (Hl : lexeme (overflow_checks E) h (s2b "/*" ++ v ++ s2b "*/") (TComment CF_Block v) (g ++ r)) by (apply lx_block_comment, Hv).
    rewrite <- !app_assoc in St, L. rewrite (app_assoc v), (app_assoc (s2b "/*")) in St, L. pose proof (stands_blanks _ _ _ St B0) as U.
    destruct (next_word t h b0 _ _ (g ++ r) St B0 Hl (lexeme_read_eq _ _ _ _ Hl U ltac:(discriminate))) as (rg & t' & Q & S & St' & Uw).
    destruct n as [|n]; [lia|].
    destruct (IH [] t' h ln n) as (b1 & t1 & m & A1 & A2 & A3 & A4); [constructor|exact St'| |].
    { rewrite !app_length in L. rewrite !app_length. cbn in *. lia. }
    exists b1, t1, m. repeat split; try assumption. cbn [read_token]. rewrite Q, <- A4.
    destruct S as (_ & _ & _ & _ & _ & _ & S). apply advance_line in S; [|exact Uw].
    assert (X : line (r_start rg) = line (r_end rg)).
    { apply S. rewrite contains_app_ascii by (repeat constructor; vm_compute; congruence). rewrite contains_app_end. exact Hk. }
    rewrite X, Nat.eqb_refl. reflexivity.
  - assert (Hl : lexeme (overflow_checks E) h (s2b "/*" ++ v ++ s2b "*/") (TComment CF_Block v) (g ++ r)) by (apply lx_block_comment, Hv).
    rewrite <- !app_assoc in St, L. rewrite (app_assoc v), (app_assoc (s2b "/*")) in St, L. pose proof (stands_blanks _ _ _ St B0) as U.
    destruct (next_word t h b0 _ _ (g ++ r) St B0 Hl (lexeme_read_eq _ _ _ _ Hl U ltac:(discriminate))) as (rg & t' & Q & S & St' & Uw).
    destruct n as [|n]; [lia|].
    destruct (IH [] t' h true n) as (b1 & t1 & m & A1 & A2 & A3 & A4); [constructor|exact St'| |].
    { rewrite !app_length in L. rewrite !app_length. cbn in *. lia. }
    exists b1, t1, m. repeat split; try assumption. cbn [read_token]. rewrite Q.
    destruct S as (_ & _ & _ & _ & _ & _ & S). apply advance_line in S; [|exact Uw].
    destruct (Nat.eqb_spec (line (r_start rg)) (line (r_end rg))) as [X|X].
    { exfalso. apply S in X. rewrite contains_app_ascii in X by (repeat constructor; vm_compute; congruence). rewrite contains_app_end in X. contradiction. }
    rewrite A4, orb_true_r. reflexivity.
Qed.

Definition is_trivia (t : token) : bool :=
  match t with TWhitespace | TLineTerminator | TComment _ _ => true | _ => false end.

Theorem read_piece g nl w r h tok t ln n : trivia g nl (w ++ r) -> stands t (g ++ w ++ r) ->
  lexeme (overflow_checks E) h w tok r -> read_next E (w ++ r) h = TOk (tok, length w) -> is_trivia tok = false ->
  (length (g ++ w ++ r) < n)%nat ->
  exists t', read_token next n t h ln = RdOk (ln || nl, tok) t' /\ stands t' r.
Proof.
  intros Tv St Hl R T L. destruct (read_trivia g nl (w ++ r) Tv [] t h ln n) as (b1 & t1 & m & A1 & A2 & A3 & A4); [constructor|exact St|exact L|].
  destruct (next_word t1 h b1 w tok r A2 A1 Hl R) as (rg & t' & Q & _ & St' & _).
  destruct m as [|m]; [lia|]. exists t'. split; [|exact St']. rewrite A4. cbn [read_token]. rewrite Q. destruct tok; try discriminate; reflexivity.
Qed.

Lemma trivia_blanks b g nl r : blanks b -> trivia g nl r -> trivia (b ++ g) nl r.
Proof. intros B H. induction B; [exact H|]. cbn. apply tv_blank; assumption. Qed.

Lemma lexeme_trivia h w tok r : lexeme (overflow_checks E) h w tok r -> is_trivia tok = true ->
  (tok = TLineTerminator /\ In w line_terminators) \/
  (exists v, tok = TComment CF_Line v /\ w = s2b "//" ++ v /\ line_comment_text v r) \/
  (exists v, tok = TComment CF_Block v /\ w = s2b "/*" ++ v ++ s2b "*/" /\ block_comment_text v).
Proof. intros H T. destruct H; try discriminate; eauto 10. Qed.

Theorem read_piece_inv n : forall t h ln l tok t' u, stands t u -> read_token next n t h ln = RdOk (l, tok) t' ->
  exists g nl w r, u = g ++ w ++ r /\ trivia g nl (w ++ r) /\ l = ln || nl /\
    lexeme (overflow_checks E) h w tok r /\ read_next E (w ++ r) h = TOk (tok, length w) /\ is_trivia tok = false /\ stands t' r.
Proof.
  induction n as [|n IH]; intros t h ln l tok t' u St H; [discriminate|]. cbn [read_token] in H.
  destruct (next t h) as [[[tk rg] t1]|p] eqn:Q; [|discriminate].
  destruct (next_ok E t h u tk rg t1 St Q) as (b & w & r & -> & Bb & Hl & S & Uw & St1).
  assert (KEEP : is_trivia tk = false -> RdOk (ln, tk) t1 = RdOk (l, tok) t' ->
    exists g nl w0 r0, b ++ w ++ r = g ++ w0 ++ r0 /\ trivia g nl (w0 ++ r0) /\ l = ln || nl /\
    lexeme (overflow_checks E) h w0 tok r0 /\ read_next E (w0 ++ r0) h = TOk (tok, length w0) /\ is_trivia tok = false /\ stands t' r0).
  { intros T X. injection X as -> -> ->. exists b, false, w, r. split; [reflexivity|]. split.
    { rewrite <- (app_nil_r b). apply trivia_blanks; [exact Bb|constructor]. }
    split; [symmetry; apply orb_false_r|]. split; [exact Hl|]. split; [|split; assumption].
    destruct (lexeme_no_bom _ _ _ _ _ Hl) as [N1 N2].
    pose proof (next_eq E t h b (w ++ r) St Bb (lexeme_no_blank _ _ _ _ _ Hl) N1 N2) as X.
    pose proof (stands_blanks _ _ _ St Bb) as U.
    destruct (lexeme_read E h w tok r Hl U) as (tk' & R & _). rewrite R in X |- *. cbn [tbind] in X. rewrite Q in X.
    destruct (increment_position _ _ _); cbn in X; congruence. }
  assert (SKIP : forall ln2 nl1, is_trivia tk = true -> ln2 = ln || nl1 -> (forall g nl r0, r = g ++ r0 -> trivia g nl r0 -> trivia (w ++ g) (nl1 || nl) r0) ->
    read_token next n t1 h ln2 = RdOk (l, tok) t' ->
    exists g nl w0 r0, b ++ w ++ r = g ++ w0 ++ r0 /\ trivia g nl (w0 ++ r0) /\ l = ln || nl /\
    lexeme (overflow_checks E) h w0 tok r0 /\ read_next E (w0 ++ r0) h = TOk (tok, length w0) /\ is_trivia tok = false /\ stands t' r0).
  { intros ln2 nl1 T -> Tr H'. destruct (IH _ _ _ _ _ _ _ St1 H') as (g & nl & w1 & r1 & -> & Tg & -> & X).
    exists (b ++ w ++ g), (nl1 || nl), w1, r1. split; [rewrite <- !app_assoc; reflexivity|].
    split; [apply trivia_blanks; [exact Bb|apply Tr; [reflexivity|exact Tg]]|]. split; [rewrite orb_assoc; reflexivity|exact X]. }
  destruct (is_trivia tk) eqn:T; [|apply KEEP; [reflexivity|]; destruct tk; try discriminate; exact H].
  assert (SL := S). destruct SL as (_ & _ & _ & _ & _ & _ & SL). apply advance_line in SL; [|exact Uw].
  destruct (lexeme_trivia h w tk r Hl T) as [(-> & Hw)|[(v & -> & -> & Hv)|(v & -> & -> & Hv)]].
  - apply (SKIP true true); [reflexivity|symmetry; apply orb_true_r| |exact H]. intros g nl r0 _ Tg. cbn [orb]. eapply tv_line; eassumption.
  - apply (SKIP ln false); [reflexivity|symmetry; apply orb_false_r| |].
    + intros g nl r0 -> Tg. cbn [orb]. rewrite <- app_assoc. apply tv_line_comment; assumption.
    + rewrite <- H. cbv iota beta. replace (Nat.eqb (line (r_start rg)) (line (r_end rg))) with true; [reflexivity|]. symmetry. apply Nat.eqb_eq, SL.
      rewrite contains_app_ascii by (repeat constructor; vm_compute; congruence). eapply line_comment_no_break, Hv.
  - rewrite contains_app_ascii, contains_app_end in SL by (repeat constructor; vm_compute; congruence).
    destruct (Nat.eqb_spec (line (r_start rg)) (line (r_end rg))) as [X|X].
    + apply (SKIP ln false); [reflexivity|symmetry; apply orb_false_r| |exact H].
      intros g nl r0 -> Tg. cbn [orb]. rewrite <- !app_assoc. apply tv_block_comment; [exact Hv|apply SL, X|exact Tg].
    + apply (SKIP true true); [reflexivity|symmetry; apply orb_true_r| |exact H].
      intros g nl r0 -> Tg. cbn [orb]. rewrite <- !app_assoc.
      destruct (contains_dec v) as [K|K]; [|exfalso; apply X, SL, K].
      eapply tv_block_break; eassumption.
Qed.
End Read.
