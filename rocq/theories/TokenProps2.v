(** The tokenizer properties, continued: one token kind at a time. *)
From Coq Require Import String List NArith ZArith Bool Arith Lia.
From Verif Require Import Base Tokens SpecTokens SpecStream Tokenizer ByteFacts LoopFacts StringFacts FloatFacts NumberFacts LexFacts LexTotal NextFacts TokenProps.
Import ListNotations.
Local Open Scope N_scope.

Lemma not_blank_head c s : c <> 9 -> c <> 11 -> c <> 12 -> c <> 32 -> ~ head_is blank (c :: s).
Proof. rewrite head_is_cons. unfold blank. lia. Qed.

(** ** C06: punctuators *)

Lemma slash_longest q r : begins (spelling q) (47 :: r) -> spelling q = [47] \/ (exists t, r = 61 :: t /\ spelling q = [47; 61]).
Proof.
  intros [x E]. destruct q; vm_compute in E; try discriminate E.
  - auto.
  - injection E as ->. right. eauto.
Qed.
Lemma curly_longest q r : begins (spelling q) (125 :: r) -> spelling q = [125].
Proof. intros [x E]. destruct q; vm_compute in E; try discriminate E. reflexivity. Qed.

Lemma c06_returned E t h u p rg t' : stands t u -> next_token E t h = TOk (TPunctuator p, rg, t') ->
  exists g r, u = g ++ spelling p ++ r /\ blanks g /\ longest_punctuator p (spelling p ++ r) /\ stands t' r.
Proof.
  intros St H. destruct (next_ok E t h u _ rg t' St H) as (g & w & r & Eu & Bg & Hl & _ & _ & St1).
  exists g, r. inversion Hl; subst.
  - auto.
  - split; [reflexivity|]. split; [exact Bg|]. split; [|exact St1].
    split; [discriminate|]. split; [eexists; reflexivity|]. intros q _ Hq.
    change (spelling Slash ++ r) with (47 :: r) in Hq. apply slash_longest in Hq as [->|(x & -> & _)]; [cbn; lia|].
    exfalso. match goal with X : ~ head_is _ (61 :: x) |- _ => apply X end. rewrite head_is_cons. auto.
  - split; [reflexivity|]. split; [exact Bg|]. split; [|exact St1].
    split; [discriminate|]. split; [eexists; reflexivity|]. intros q _ Hq.
    change (spelling SlashEq ++ r) with (47 :: 61 :: r) in Hq. apply slash_longest in Hq as [->|(x & _ & ->)]; cbn; lia.
  - split; [reflexivity|]. split; [exact Bg|]. split; [|exact St1].
    split; [discriminate|]. split; [eexists; reflexivity|]. intros q _ Hq.
    change (spelling CurlyClose ++ r) with (125 :: r) in Hq. apply curly_longest in Hq. rewrite Hq. cbn; lia.
Qed.

Lemma c06_read E t h g p r : stands t (g ++ spelling p ++ r) -> blanks g ->
  longest_punctuator p (spelling p ++ r) -> ~ hinted p -> (p = Period -> ~ head_is digit r) ->
  reads E t h g (spelling p) (TPunctuator p) r.
Proof.
  intros St Bg L Hh Hp. apply reads_lexeme_eq; [exact St|exact Bg| |discriminate]. apply lx_punctuator; assumption.
Qed.

(** ** C07 *)

Lemma c07_slash E t h g s : stands t (g ++ s2b "/" ++ s) -> blanks g -> ~ begins (s2b "/") s -> ~ begins (s2b "*") s ->
  h_expression h = false ->
  (begins (s2b "=") s -> exists r, s = s2b "=" ++ r /\ reads E t h g (s2b "/=") (TPunctuator SlashEq) r) /\
  (~ begins (s2b "=") s -> reads E t h g (s2b "/") (TPunctuator Slash) s).
Proof.
  intros St Bg N1 N2 Hh. split.
  - intros [r ->]. exists r. split; [reflexivity|]. apply reads_lexeme_eq; [exact St|exact Bg| |discriminate]. apply lx_slash_eq, Hh.
  - intros N3. apply reads_lexeme_eq; [exact St|exact Bg| |discriminate]. apply lx_slash; [exact Hh|].
    intros (b & r & -> & [->|[->| ->]]); [apply N1|apply N2|apply N3]; eexists; reflexivity.
Qed.

Lemma c07_curly E t h g s : stands t (g ++ s2b "}" ++ s) -> blanks g -> h_template h = false ->
  reads E t h g (s2b "}") (TPunctuator CurlyClose) s.
Proof. intros St Bg Hh. apply reads_lexeme_eq; [exact St|exact Bg| |discriminate]. apply lx_curly_close, Hh. Qed.

(** ** C08, C09 *)

Lemma c08 E t h g s : stands t (g ++ s2b "//" ++ s) -> blanks g ->
  exists v r, s = v ++ r /\ line_comment_text v r /\ reads E t h g (s2b "//" ++ v) (TComment CF_Line v) r.
Proof.
  intros St Bg. destruct (line_comment_exists s) as (v & r & -> & H). exists v, r.
  split; [reflexivity|]. split; [exact H|]. apply reads_lexeme_eq; [|exact Bg|apply lx_line_comment, H|discriminate].
  rewrite <- app_assoc. exact St.
Qed.

Lemma c09 E t h g s : stands t (g ++ s2b "/*" ++ s) -> blanks g ->
  (absent (s2b "*/") s /\ panics E t h) \/
  exists v r, s = v ++ s2b "*/" ++ r /\ block_comment_text v /\
    reads E t h g (s2b "/*" ++ v ++ s2b "*/") (TComment CF_Block v) r.
Proof.
  intros St Bg. destruct (first_occurrence (s2b "*/") s) as [H|(v & r & -> & H)]; [discriminate| |].
  - left. split; [exact H|]. eapply panics_error; [exact St|exact Bg|apply not_blank_head; discriminate|].
    apply le_block_comment, H.
  - right. exists v, r. split; [reflexivity|]. split; [exact H|].
    apply reads_lexeme_eq; [|exact Bg|apply lx_block_comment, H|discriminate]. rewrite <- !app_assoc. exact St.
Qed.

(** ** C10 *)

Lemma c10_open E t h g s : stands t (g ++ s2b "`" ++ s) -> blanks g ->
  (template_text s /\ panics E t h) \/
  (exists v r, s = v ++ s2b "`" ++ r /\ template_text v /\
     reads E t h g (s2b "`" ++ v ++ s2b "`") (TTemplate TF_NoSubstitution v v) r) \/
  (exists v r, s = v ++ s2b "${" ++ r /\ template_text v /\
     reads E t h g (s2b "`" ++ v ++ s2b "${") (TTemplate TF_Head v v) r).
Proof.
  intros St Bg. destruct (template_exists s) as [H|(v & r & Hv & [-> | ->])].
  - left. split; [exact H|]. eapply panics_error; [exact St|exact Bg|apply not_blank_head; discriminate|]. apply le_template, H.
  - right; left. exists v, r. split; [reflexivity|]. split; [exact Hv|].
    apply reads_lexeme_eq; [|exact Bg|apply lx_template_whole, Hv|discriminate]. rewrite <- !app_assoc. exact St.
  - right; right. exists v, r. split; [reflexivity|]. split; [exact Hv|].
    apply reads_lexeme_eq; [|exact Bg|apply lx_template_head, Hv|discriminate]. rewrite <- !app_assoc. exact St.
Qed.

Lemma c10_rest E t h g s : stands t (g ++ s2b "}" ++ s) -> blanks g -> h_template h = true ->
  (template_text s /\ panics E t h) \/
  (exists v r, s = v ++ s2b "`" ++ r /\ template_text v /\
     reads E t h g (s2b "}" ++ v ++ s2b "`") (TTemplate TF_Tail v v) r) \/
  (exists v r, s = v ++ s2b "${" ++ r /\ template_text v /\
     reads E t h g (s2b "}" ++ v ++ s2b "${") (TTemplate TF_Middle v v) r).
Proof.
  intros St Bg Hh. destruct (template_exists s) as [H|(v & r & Hv & [-> | ->])].
  - left. split; [exact H|]. eapply panics_error; [exact St|exact Bg|apply not_blank_head; discriminate|]. apply le_template_rest; assumption.
  - right; left. exists v, r. split; [reflexivity|]. split; [exact Hv|].
    apply reads_lexeme_eq; [|exact Bg|apply lx_template_tail; assumption|discriminate]. rewrite <- !app_assoc. exact St.
  - right; right. exists v, r. split; [reflexivity|]. split; [exact Hv|].
    apply reads_lexeme_eq; [|exact Bg|apply lx_template_middle; assumption|discriminate]. rewrite <- !app_assoc. exact St.
Qed.

(** ** C11 *)

Lemma c11 E t h g s : stands t (g ++ s2b "/" ++ s) -> blanks g -> h_expression h = true ->
  ~ begins (s2b "/") s -> ~ begins (s2b "*") s ->
  ((forall p r, s = p ++ s2b "/" ++ r -> ~ regex_body p) /\ panics E t h) \/
  exists p fl r, s = p ++ s2b "/" ++ fl ++ r /\ regex_body p /\ Forall lower fl /\ ~ head_is lower r /\
    reads E t h g (s2b "/" ++ p ++ s2b "/" ++ fl) (TRegExp p fl) r.
Proof.
  intros St Bg Hh N1 N2.
  assert (Hs : ~ head_is (fun b => b = 47 \/ b = 42) s).
  { intros (b & r & -> & [->| ->]); [apply N1|apply N2]; eexists; reflexivity. }
  destruct (regex_loop s 1 false false) as [j|] eqn:E1.
  - apply regex_loop_exists in E1 as (p & r & -> & Hp).
    destruct (span_exists lower lower_dec r) as (fl & r' & -> & Hfl & Hr').
    right. exists p, fl, r'. split; [reflexivity|]. repeat (split; [assumption|]).
    apply reads_lexeme_eq; [|exact Bg| |discriminate].
    + change (s2b "/") with [47] in *. rewrite <- !app_assoc. exact St.
    + apply lx_regex; auto.
      * intros ->. apply N1. eexists; reflexivity.
      * intros [x ->]. apply N2. eexists; reflexivity.
  - left.
    assert (NR : forall p r, s = p ++ s2b "/" ++ r -> ~ regex_body p).
    { intros p r -> Hp. change (s2b "/" ++ r) with (47 :: r) in E1. rewrite regex_loop_spec in E1 by exact Hp. discriminate. }
    split; [exact NR|]. eapply panics_error; [exact St|exact Bg|apply not_blank_head; discriminate|].
    apply le_regex; assumption.
Qed.

(** ** C12 *)

Lemma c12 E t h g c s : stands t (g ++ c :: s) -> blanks g -> ident_char c -> ~ digit c ->
  exists v r, s = v ++ r /\ Forall ident_char v /\ ~ head_is ident_char r /\
    reads E t h g (c :: v) (TIdent (c :: v)) r.
Proof.
  intros St Bg Hc Nc. destruct (span_exists ident_char ident_char_dec s) as (v & r & -> & Hv & Hr).
  exists v, r. repeat (split; [auto|]). apply reads_lexeme_eq; [exact St|exact Bg| |discriminate]. apply lx_ident; assumption.
Qed.

(** ** C13 *)

Lemma c13 E t h g q s : stands t (g ++ q :: s) -> blanks g -> q = 34 \/ q = 39 ->
  (exists v r nl, s = v ++ q :: r /\ string_text q false v nl /\ reads E t h g (q :: v ++ [q]) (TString v) r) \/
  (string_open q s /\ reads E t h g [] (TString []) (q :: s)) \/
  (string_error q s /\ panics E t h).
Proof.
  intros St Bg Hq. destruct (string_cases_start q Hq s) as [(v & r & nl & -> & Hv)|[H|H]].
  - left. exists v, r, nl. repeat (split; [auto|]).
    apply reads_lexeme_eq; [|exact Bg|eapply lx_string; eassumption|discriminate].
    cbn [app]. rewrite <- app_assoc. exact St.
  - right; left. split; [exact H|]. apply reads_lexeme_eq; [exact St|exact Bg| |discriminate]. apply lx_string_empty; assumption.
  - right; right. split; [exact H|]. eapply panics_error; [exact St|exact Bg| |].
    + apply not_blank_head; lia.
    + apply le_string; assumption.
Qed.

(** Contents without backslash, quote and line breaks are accepted. *)
Lemma plain_string_text q v : Forall (fun c => c <> 92 /\ c <> q /\ c <> 13 /\ c <> 10 /\ c <> 226) v ->
  string_text q false v false.
Proof.
  induction 1 as [|c v (A & B & C & D & F) H IH]; [constructor|].
  apply st_char; [exact A|exact B|exact C|congruence| |exact IH]. intros [[x X]|[x X]]; injection X as X _; congruence.
Qed.

(** ** C18, C22: locality *)

Lemma increment_tail s n p : increment_position s n p =
  tdo w <- slice s 0 n ;;
  TOk (Pos (offset p + n) (fst (increment_position_loop (chars w) false (line p) (column p)))
           (snd (increment_position_loop (chars w) false (line p) (column p)))).
Proof. unfold increment_position. destruct (slice s 0 n); cbn [tbind]; [|reflexivity]. destruct (increment_position_loop _ _ _ _). reflexivity. Qed.

Lemma skip_more_blanks g g' : blanks g -> blanks g' -> blanks (g ++ g').
Proof. intros A B. apply Forall_app. auto. Qed.

(** Two tokenizers in front of the same text, up to blanks, read the same token. *)
Lemma same_text E h t1 t2 g1 g2 s : stands t1 (g1 ++ s) -> stands t2 (g2 ++ s) -> blanks g1 -> blanks g2 ->
  ((exists p, next_token E t1 h = TPanic p) /\ (exists p, next_token E t2 h = TPanic p)) \/
  (exists g w tok r, s = g ++ w ++ r /\ blanks g /\
     reads E t1 h (g1 ++ g) w tok r /\ reads E t2 h (g2 ++ g) w tok r).
Proof.
  intros S1 S2 B1 B2. destruct (span_exists blank blank_dec s) as (g & s' & -> & Bg & Bs).
  rewrite app_assoc in S1, S2. assert (B1' := skip_more_blanks _ _ B1 Bg). assert (B2' := skip_more_blanks _ _ B2 Bg).
  destruct (lex_total (overflow_checks E) h s' Bs) as [(w & tok & r & -> & Hl)|He].
  - right. destruct (lexeme_no_bom _ _ _ _ _ Hl) as [N1 N2].
    destruct (reads_lexeme E t1 h (g1 ++ g) w tok r S1 B1' Hl) as (tok1 & (rg1 & t1' & R1 & R1') & _).
    destruct (reads_lexeme E t2 h (g2 ++ g) w tok r S2 B2' Hl) as (tok2 & (rg2 & t2' & R2 & R2') & _).
    assert (tok1 = tok2).
    { rewrite (next_eq E t1 h (g1 ++ g) (w ++ r)) in R1 by assumption.
      rewrite (next_eq E t2 h (g2 ++ g) (w ++ r)) in R2 by assumption.
      destruct (read_next E (w ++ r) h) as [[tk n]|]; [|discriminate]. cbn [tbind] in R1, R2.
      destruct (increment_position _ _ _); [|discriminate]. destruct (increment_position _ _ _); [|discriminate].
      cbn [tbind] in R1, R2. congruence. }
    subst tok2. exists g, w, tok1, r. split; [reflexivity|]. split; [exact Bg|].
    split; [exists rg1, t1'|exists rg2, t2']; split; assumption.
  - left. split; eapply panics_error; eassumption.
Qed.

(** ** C20: hints *)

Lemma read_next_hint E s h1 h2 : ~ head_is (fun b => b = 47 \/ b = 125) s -> read_next E s h1 = read_next E s h2.
Proof.
  intros H. destruct s as [|c s]; [reflexivity|]. rewrite head_is_cons in H.
  unfold read_next. cbn [length Nat.eqb]. change (at_ (c :: s) 0) with c.
  rewrite (proj2 (N.eqb_neq c 47)), (proj2 (N.eqb_neq c 125)) by tauto. reflexivity.
Qed.

Lemma read_next_slash E s h1 h2 : h_expression h1 = h_expression h2 -> read_next E (47 :: s) h1 = read_next E (47 :: s) h2.
Proof. intros H. rewrite !read_slash. unfold tok_slash. rewrite H. reflexivity. Qed.
Lemma read_next_curly E s h1 h2 : h_template h1 = h_template h2 -> read_next E (125 :: s) h1 = read_next E (125 :: s) h2.
Proof. intros H. rewrite !read_curly_close. unfold tok_curly_close. rewrite H. reflexivity. Qed.

Lemma next_bom E t h1 h2 g s : stands t (g ++ s) -> blanks g -> ~ head_is blank s -> begins nbsp s \/ begins bom s ->
  next_token E t h1 = next_token E t h2.
Proof.
  intros (a & Hc & Ho & Hu) Bg Bs Hb. unfold next_token, eat_whitespace.
  rewrite Hc, Ho, slice_from_app by exact Hu. cbn [tbind]. rewrite eat_whitespace_loop_spec by assumption.
  assert (Hb' : starts_with bom s || starts_with nbsp s = true).
  { apply orb_true_iff. destruct Hb as [Hb|Hb]; apply starts_with_begins in Hb; auto. }
  rewrite Hb'. cbn [offset].
  destruct (slice_from (a ++ g ++ s) (length a + length g + 1)) as [x|] eqn:Es; cbn [tbind]; [|reflexivity]. exfalso. clear -Es Hb.
  unfold slice_from in Es.
  assert (X : exists c1 c2 x, s = c1 :: c2 :: x /\ is_cont c2 = true)
      by (destruct Hb as [[y ->]|[y ->]]; do 3 eexists; split; reflexivity).
  destruct X as (c1 & c2 & y & -> & B).
  replace (is_char_boundary (a ++ g ++ c1 :: c2 :: y) (length a + length g + 1)) with false in Es; [discriminate|].
  symmetry. unfold is_char_boundary.
  replace (length a + length g + 1)%nat with (length ((a ++ g) ++ [c1])) by (rewrite !app_length; cbn; lia).
  replace (a ++ g ++ c1 :: c2 :: y) with (((a ++ g) ++ [c1]) ++ c2 :: y) by (rewrite <- !app_assoc; reflexivity).
  unfold at_. rewrite app_nth2, Nat.sub_diag by lia. cbn [nth]. rewrite B, andb_false_r, orb_false_r.
  apply orb_false_iff. split; apply Nat.eqb_neq; rewrite !app_length; cbn [length]; lia.
Qed.

Lemma hint_gen E t h1 h2 g s : stands t (g ++ s) -> blanks g -> ~ head_is blank s ->
  read_next E s h1 = read_next E s h2 -> next_token E t h1 = next_token E t h2.
Proof.
  intros St Bg Bs H.
  destruct (begins_dec nbsp s) as [N1|N1]; [eapply next_bom; eauto|].
  destruct (begins_dec bom s) as [N2|N2]; [eapply next_bom; eauto|].
  rewrite !(next_eq E t _ g s) by assumption. rewrite H. reflexivity.
Qed.

Lemma c20_other E t g s h1 h2 : stands t (g ++ s) -> blanks g -> ~ head_is blank s ->
  ~ begins (s2b "/") s -> ~ begins (s2b "}") s -> next_token E t h1 = next_token E t h2.
Proof.
  intros St Bg Bs N1 N2. apply (hint_gen E t h1 h2 g s St Bg Bs). apply read_next_hint.
  intros (b & r & -> & [->| ->]); [apply N1|apply N2]; eexists; reflexivity.
Qed.
Lemma c20_slash E t g s h1 h2 : stands t (g ++ s2b "/" ++ s) -> blanks g ->
  h_expression h1 = h_expression h2 -> next_token E t h1 = next_token E t h2.
Proof.
  intros St Bg H. apply (hint_gen E t h1 h2 g (47 :: s) St Bg); [apply not_blank_head; discriminate|].
  apply read_next_slash, H.
Qed.
Lemma c20_curly E t g s h1 h2 : stands t (g ++ s2b "}" ++ s) -> blanks g ->
  h_template h1 = h_template h2 -> next_token E t h1 = next_token E t h2.
Proof.
  intros St Bg H. apply (hint_gen E t h1 h2 g (125 :: s) St Bg); [apply not_blank_head; discriminate|].
  apply read_next_curly, H.
Qed.

(** ** C21 *)

Lemma c21 E t h u tok rg t' : stands t u -> next_token E t h = TOk (tok, rg, t') ->
  (tok = TLineTerminator <-> exists g s, u = g ++ s /\ blanks g /\ at_line_terminator s).
Proof.
  intros St H. destruct (next_ok E t h u tok rg t' St H) as (g & w & r & Eu & Bg & Hl & _ & _ & St1).
  split.
  - intros ->. exists g, (w ++ r). repeat split; auto. inversion Hl; subst. exists w. split; [assumption|]. eexists; reflexivity.
  - intros (g' & s & Eu' & Bg' & x & Hx & y & ->).
    assert (NB : ~ head_is blank (x ++ y)).
    { cbn [In line_terminators] in Hx. destruct Hx as [<-|[<-|[<-|[<-|[]]]]]; apply not_blank_head; discriminate. }
    rewrite Eu' in St.
    destruct (reads_lexeme_eq E t h g' x TLineTerminator y St Bg') as (rg2 & t2 & R & _); [apply lx_line_terminator, Hx|discriminate|].
    congruence.
Qed.

Lemma c21_covers E t h g x r : stands t (g ++ x ++ r) -> blanks g -> In x line_terminators ->
  reads E t h g x TLineTerminator r.
Proof. intros St Bg Hx. apply reads_lexeme_eq; [exact St|exact Bg| |discriminate]. apply lx_line_terminator, Hx. Qed.

(** ** C18: no whitespace tokens *)
Lemma no_whitespace E t h u rg t' : stands t u -> next_token E t h <> TOk (TWhitespace, rg, t').
Proof.
  intros St H. destruct (next_ok E t h u _ rg t' St H) as (g & w & r & _ & _ & Hl & _). inversion Hl.
Qed.
