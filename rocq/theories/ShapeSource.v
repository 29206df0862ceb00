(** Sources whose tokens have the same shapes have the same outcome. *)
From Coq Require Import String List Arith NArith Bool Lia.
From Verif Require Import Base Tokens SpecTokens SpecStream Tokenizer ByteFacts NumberFacts LexFacts LexTotal NextFacts TokenProps
  ParserCore ParserBody SpecParser AbstractParser ParserExec Replay ParserProps ParserProps2 HintParser SpecTrivia LexSuffix TriviaFacts
  SpecHints SpecShapes Respacing Shapes SourceLanguage GrammarFacts ParserGrammar Coverage.
Import ListNotations.

Lemma words_laid E rl ps rest code : words E rl ps rest code -> laid (overflow_checks E) (map fst rl) ps rest code.
Proof.
  induction 1 as [rest|h nl tok g w rl ps rest code Tv Hl R T H IH]; [constructor|]. cbn [map fst]. constructor; try assumption.
  destruct tok; cbn in T |- *; try exact I; discriminate.
Qed.

Lemma same_token_shape a b : same_token a b -> same_shape a b.
Proof. destruct a, b; cbn; try discriminate; auto; try congruence; try (intros H; injection H; auto). Qed.
Lemma chosen_dec name : chosen name \/ vocab name = true.
Proof.
  destruct (vocab name) eqn:V; [auto|left]. intros w I E. assert (vocab name = true); [|congruence].
  apply existsb_exists. exists w. split; [exact I|]. apply beqb_eq. exact E.
Qed.
Lemma same_shape_trans a b c : same_shape a b -> same_shape b c -> same_shape a c.
Proof.
  destruct a, b; cbn; try discriminate; destruct c; cbn; try discriminate; auto; try congruence.
  intros [->|(A & B)] [->|(C & D)]; auto.
Qed.

(** The reads of a text laid out with the hints of other reads. *)
Lemma laid_reads E rf hs qs rest code : laid (overflow_checks E) hs qs rest code -> utf8 code -> forall t, stands t code -> length code < rf ->
  exists rl t', HintParser.reads (next_token E) rf t rl t' /\ map fst rl = hs /\ Forall2 shaped (map word_token qs) (map snd rl).
Proof.
  induction 1 as [rest|h hs g nl t0 w ps rest code Tv T Hl H IH]; intros U t St L.
  - exists [], t. split; [constructor|]. split; [reflexivity|constructor].
  - pose proof (trivia_utf8 _ _ _ Tv U) as U1. destruct (lexeme_read E h w t0 code Hl U1) as (t1 & R & S).
    assert (Hl1 : lexeme (overflow_checks E) h w t1 code).
    { destruct t0, t1; cbn in S; try discriminate S; try (injection S; intros; subst; exact Hl); try exact Hl.
      inversion Hl; subst; [apply lx_decimal|eapply lx_radix]; eassumption. }
    assert (T1 : is_trivia t1 = false) by (destruct t0, t1; cbn in S, T |- *; try discriminate S; try contradiction; reflexivity).
    destruct (read_piece E g nl w code h t1 t false rf Tv St Hl1 R T1 L) as (t' & Q & St').
    destruct (lexeme_utf8 _ _ _ _ _ Hl U1) as [_ U2].
    destruct (IH U2 t' St') as (rl & t2 & X & Y & Z). { rewrite !app_length in L. lia. }
    exists ((h, (nl, t1)) :: rl), t2. split; [econstructor; [exact Q|exact X]|]. split; [cbn; congruence|].
    cbn [map snd word_token]. constructor; [|exact Z]. split; [reflexivity|]. apply same_token_shape, S.
Qed.

Lemma forall_alike rl : forall rl2 ps, map fst rl = map fst rl2 -> Forall2 shaped (map snd rl) ps -> Forall2 shaped ps (map snd rl2) -> Forall2 read_alike rl rl2.
Proof.
  induction rl as [|[h la] rl IH]; intros [|[h2 la2] rl2] ps E F G; cbn in *; try discriminate; [constructor|].
  inversion F as [|? p ? ps' A F']; subst. inversion G as [|? ? ? ? B G']; subst. injection E as -> E.
  constructor; [|eapply IH; eassumption]. split; [reflexivity|]. destruct A as (A1 & A2), B as (B1 & B2). split; [exact (eq_trans A1 B1)|].
  eapply same_shape_trans; eassumption.
Qed.

Lemma srel_init {T1 T2} (t1 : T1) (t2 : T2) : srel (pstate_init t1) (pstate_init t2).
Proof. constructor; try reflexivity; apply shaped_refl. Qed.

(** ** Renaming *)
Section Tails.
Local Open Scope N_scope.
Definition name_start (b : N) : Prop := ident_char b /\ ~ digit b.
Definition quote (b : N) : Prop := b = 34 \/ b = 39.
Definition tail_rel (past : token) (r r' : bytes) : Prop :=
  r = r' \/ exists c x x', r = c ++ x /\ r' = c ++ x' /\
    ((head_is name_start x /\ head_is name_start x' /\ (c = [] -> ~ runs_on past)) \/ (head_is quote x /\ head_is quote x')).

Lemma tail_head t r r' (P : N -> Prop) : tail_rel t r r' -> (forall b, quote b -> ~ P b) ->
  (runs_on t \/ forall b, name_start b -> ~ P b) -> ~ head_is P r -> ~ head_is P r'.
Proof.
  intros [->|(c & x & x' & -> & -> & K)] Q N H; [exact H|]. destruct c as [|b c].
  - cbn [app] in *. destruct K as [(_ & K & S)|(_ & K)]; destruct K as (b & y & -> & Kb); rewrite head_is_cons; [|apply Q, Kb].
    destruct N as [N|N]; [destruct (S eq_refl N)|apply N, Kb].
  - cbn [app] in *. rewrite head_is_cons in *. exact H.
Qed.
Lemma tail_app t r r' (P : N -> Prop) a : tail_rel t r r' -> (forall b, quote b -> ~ P b) ->
  (runs_on t \/ forall b, name_start b -> ~ P b) -> ~ head_is P (a ++ r) -> ~ head_is P (a ++ r').
Proof. intros T Q N H. destruct a; [eapply tail_head; eassumption|]. cbn [app] in *. rewrite head_is_cons in *. exact H. Qed.
Lemma tail_nonempty t r r' a : tail_rel t r r' -> a ++ r <> [] -> a ++ r' <> [].
Proof.
  intros [->|(c & x & x' & -> & -> & K)] H E; [exact (H E)|]. apply app_eq_nil in E. destruct E as (_ & E). apply app_eq_nil in E. destruct E as (_ & ->).
  destruct K as [(_ & K & _)|(_ & K)]; destruct K as (? & ? & K & _); discriminate.
Qed.
Lemma tail_short t r r' (P : N -> Prop) : tail_rel t r r' -> runs_on t -> (forall b, quote b -> ~ P b) -> (length r <= 1)%nat -> r' = r \/ ~ head_is P r'.
Proof.
  intros [->|(c & x & x' & -> & -> & K)] R Q L; [auto|]. right.
  assert (Hx : exists b y, x = b :: y) by (destruct K as [(K & _)|(K & _)]; destruct K as (b & y & -> & _); eauto).
  destruct Hx as (b & y & ->). rewrite app_length in L. cbn [length] in L. destruct c; [|cbn [length] in L; lia]. cbn [app].
  destruct K as [(_ & _ & K)|(_ & K)]; [destruct (K eq_refl R)|]. destruct K as (q & z & -> & Kq). rewrite head_is_cons. apply Q, Kq.
Qed.

Lemma begins_cut s : forall a x x', Forall (fun b => ~ (name_start b \/ quote b)) s -> head_is (fun b => name_start b \/ quote b) x' ->
  begins s (a ++ x') -> begins s (a ++ x).
Proof.
  induction s as [|b s IH]; intros a x x' F H (r & B); [exists (a ++ x); reflexivity|]. inversion F as [|? ? Fb Fs]; subst.
  destruct a as [|c a].
  - cbn [app] in B. destruct H as (d & y & -> & Hd). injection B as -> B. contradiction.
  - cbn [app] in B |- *. injection B as -> B. destruct (IH a x x' Fs H) as (z & Z); [exists r; exact B|]. exists z. rewrite Z. reflexivity.
Qed.
Lemma spelling_clear p : Forall (fun b => ~ (name_start b \/ quote b)) (spelling p).
Proof.
  apply Forall_forall. intros b I H.
  assert (X : forallb (fun b => negb ((97 <=? b) && (b <=? 122) || (65 <=? b) && (b <=? 90) || (b =? 36) || (b =? 95) || (b =? 34) || (b =? 39))) (spelling p) = true)
    by (destruct p; reflexivity).
  rewrite forallb_forall in X. specialize (X b I). apply negb_true_iff in X.
  unfold name_start, quote, ident_char, lower, upper, digit in H.
  rewrite !orb_false_iff, !andb_false_iff, !N.leb_gt, !N.eqb_neq in X. lia.
Qed.

Lemma exponent_tail t x r r' : runs_on t -> tail_rel t r r' -> exponent_part x r -> exponent_part x r'.
Proof.
  intros R T H. assert (QE : forall b, quote b -> ~ exp_letter b) by (unfold quote, exp_letter; lia).
  assert (QD : forall b, quote b -> ~ digit b) by (unfold quote, digit; lia).
  assert (QS : forall b, quote b -> ~ sign_char b) by (unfold quote, sign_char; lia).
  destruct H as [r [H|H]|c ds r Hc Hd Hr Hs Hn|c sg ds r Hc Hs Hd Hr].
  - apply ep_none. left. eapply tail_head; eauto.
  - apply ep_none. destruct (tail_short t r r' exp_letter T R QE) as [->|X]; [lia|right; exact H|left; exact X].
  - apply ep_unsigned; auto; [eapply tail_head; eauto|eapply tail_app; eauto|eapply tail_nonempty; eauto].
  - apply ep_signed; auto. eapply tail_head; eauto.
Qed.
Lemma decimal_tail t m x r r' : runs_on t -> tail_rel t r r' -> decimal_text m x r -> decimal_text m x r'.
Proof.
  intros R T H. assert (QD : forall b, quote b -> ~ digit b) by (unfold quote, digit; lia).
  assert (Q46 : forall b, quote b -> ~ 46 = b) by (unfold quote; lia).
  destruct H as [d ds x r Hd Hds Hn Hdot He|d ds fs x r Hd Hds Hfs Hn He|f fs x r Hf Hn He|fs x r Hf Hn Ho He|r Hz].
  - apply dt_integer; auto; try (eapply tail_app; eauto). eapply exponent_tail; eauto.
  - apply dt_fraction; auto; try (eapply tail_app; eauto). eapply exponent_tail; eauto.
  - apply dt_dot; auto; try (eapply tail_app; eauto). eapply exponent_tail; eauto.
  - apply dt_zero_dot; auto; try (eapply tail_app; eauto); [|eapply exponent_tail; eauto].
    rewrite app_assoc in *. eapply tail_nonempty; eauto.
  - apply dt_zero. assert (QZ : forall b, quote b -> ~ In b (s2b "xXoObB.")) by (unfold quote; cbn; lia).
    destruct Hz as [Hz|Hz]; [|right; eapply tail_head; eauto].
    destruct (tail_short t r r' _ T R QZ Hz) as [->|X]; auto.
Qed.

Lemma lexeme_tail checks h w t r r' : lexeme checks h w t r -> w <> [] -> is_trivia t = false -> tail_rel t r r' -> lexeme checks h w t r'.
Proof.
  intros H W Tr T.
  destruct H as [|lt r Hlt|p r Hl Hh Hp|r He Hn|r He|r He|v r Hv|v r Hv|p fl r He Hp Np Nb Hf Hr|v r Hv|v r Hv|v r He Hv|v r He Hv|c v r Hc Nc Hv Hr|r Hu|q v nl r Hq Hv|q v Hq Ho|m x r n Hd Hc|k l d ds r n Hk Hf Hd H1 H2];
    try congruence; try discriminate Tr.
  - apply lx_punctuator; [|exact Hh|].
    + destruct Hl as (L1 & L2 & L3). split; [exact L1|]. split; [eexists; reflexivity|]. intros q Nq B. apply (L3 q Nq).
      destruct T as [<-|(c & x & x' & -> & -> & K)]; [exact B|]. rewrite app_assoc in *. eapply begins_cut; [apply spelling_clear| |exact B].
      destruct K as [(_ & K & _)|(_ & K)]; destruct K as (b & y & -> & Kb); exists b, y; auto.
    + intros E. apply Hp in E. eapply tail_head; [exact T| | |exact E]; [unfold quote, digit; lia|right; intros b (_ & B); exact B].
  - apply lx_slash; [exact He|]. eapply tail_head; [exact T| | |exact Hn]; [unfold quote; lia|right; unfold name_start, ident_char, lower, upper, digit; lia].
  - apply lx_slash_eq; exact He.
  - apply lx_curly_close; exact He.
  - apply lx_regex; auto. eapply tail_head; [exact T| | |exact Hr]; [unfold quote, lower; lia|left; exact I].
  - apply lx_template_whole; exact Hv.
  - apply lx_template_head; exact Hv.
  - apply lx_template_middle; assumption.
  - apply lx_template_tail; assumption.
  - apply lx_ident; auto. destruct T as [<-|([|b c1] & x & x' & -> & -> & K)]; [exact Hr| |cbn [app] in *; rewrite head_is_cons in *; exact Hr].
    cbn [app] in *. destruct K as [((b & y & -> & Kb & _) & _)|(_ & K)]; [destruct Hr; exists b, y; auto|].
    destruct K as (b & y & -> & Kb). rewrite head_is_cons. unfold quote in Kb. unfold ident_char, lower, upper, digit. lia.
  - eapply lx_string; eassumption.
  - apply lx_decimal; [|exact Hc]. eapply decimal_tail; [|exact T|exact Hd]. exact I.
  - apply lx_radix with (k := k); auto; (eapply tail_head; [exact T| |left; exact I|eassumption]);
      unfold quote; destruct k; cbn; unfold hex_digit, octal_digit, binary_digit, digit; lia.
Qed.

Lemma tail_prefix past t g w r r' : g ++ w <> [] -> tail_rel t r r' -> tail_rel past (g ++ w ++ r) (g ++ w ++ r').
Proof.
  intros N [->|(c & x & x' & -> & -> & K)]; [left; reflexivity|right]. exists (g ++ w ++ c), x, x'. rewrite <- !app_assoc. split; [reflexivity|]. split; [reflexivity|].
  destruct K as [(A & B & _)|K]; [left|right; exact K]. split; [exact A|]. split; [exact B|]. intros E. rewrite app_assoc in E. apply app_eq_nil in E. destruct (N (proj1 E)).
Qed.
Lemma tail_ident m r r' : name_text m -> ~ head_is ident_char r -> tail_rel (TIdent m) r r' -> ~ head_is ident_char r'.
Proof.
  intros _ Hr [<-|([|b c] & x & x' & -> & -> & K)]; [exact Hr| |cbn [app] in *; rewrite head_is_cons in *; exact Hr].
  cbn [app] in *. destruct K as [((b & y & -> & Kb & _) & _)|(_ & K)]; [destruct Hr; exists b, y; auto|].
  destruct K as (b & y & -> & Kb). rewrite head_is_cons. unfold quote in Kb. unfold ident_char, lower, upper, digit. lia.
Qed.
End Tails.

Lemma ident_ascii b : ident_char b -> (b < 128)%N.
Proof. unfold ident_char, lower, upper, digit. lia. Qed.
Lemma renamed_empty ps : Forall (fun p => gap p = [] /\ word p = []) ps -> forall past qs, renamed past ps qs -> qs = ps.
Proof.
  induction 1 as [|p ps (G & W) F IH]; intros past qs R; inversion R as [|? ? ? ? R'|? ? ? ? ? ? ? (c & v & M & _)|? ? ? ? ? ? ? ? ? (q & nl' & _ & _ & Wq)]; subst; [reflexivity| | |].
  - f_equal. eapply IH. eassumption.
  - discriminate.
  - discriminate.
Qed.
Lemma spaced_empty ps rest code : Forall (fun p => gap p = [] /\ word p = []) ps -> spaced ps rest code -> code = rest.
Proof. intros F S. induction S as [|g nl tok w ps rest code Tv Sp S IH]; [reflexivity|]. inversion F as [|? ? (G & W) F']; subst. cbn in *. subst. cbn. auto. Qed.

Lemma shaped_list_refl l : Forall2 shaped l l.
Proof. induction l; constructor; [apply shaped_refl|assumption]. Qed.

Lemma words_renamed E rl ps rest code : words E rl ps rest code -> utf8 code -> forall past qs code', renamed past ps qs ->
  spaced qs rest code' -> utf8 code' ->
  laid (overflow_checks E) (map fst rl) qs rest code' /\ Forall2 shaped (map word_token ps) (map word_token qs) /\ tail_rel past code code'.
Proof.
  induction 1 as [rest|h nl tok g w rl ps rest code Tv Hl R T H IH]; intros U past qs code' F S U'.
  - inversion F; subst. inversion S; subst. split; [constructor|]. split; [constructor|left; reflexivity].
  - pose proof (trivia_utf8 _ _ _ Tv U) as U1. destruct (lexeme_utf8 _ _ _ _ _ Hl U1) as [Uw U2].
    assert (ST : significant_token tok) by (destruct tok; cbn in T |- *; try exact I; discriminate).
    inversion F as [|? ? ? qs' F'|? ? ? m m' ? qs' N1 N2 C1 C2 RO F'|? ? ? v ? v' w' ? qs' L1 L2 F']; subst;
      inversion S as [|g' nl' tok' w2 qs2 ? code2 Tv' Sp S']; subst; pose proof (trivia_utf8 _ _ _ Tv' U') as U1'.
    + cbn [snd word_token] in F'.
      assert (U2' : utf8 code2) by exact (utf8_app_inv _ _ Uw U1').
      destruct w as [|b w].
      * cbn [app] in *. destruct (stuck_words E tok code rl ps rest (empty_stuck E _ _ _ Hl) H U2) as (-> & Fe).
        assert (qs' = ps) as -> by (eapply renamed_empty; eassumption).
        assert (code2 = code) as -> by (eapply spaced_empty; eassumption).
        destruct (IH U2 _ _ _ F' S' U2') as (A & B & C). cbn [map fst word_token].
        split; [change (g ++ code) with (g ++ [] ++ code); constructor; assumption|]. split; [constructor; [apply shaped_refl|exact B]|left; reflexivity].
      * destruct (IH U2 _ _ _ F' S' U2') as (A & B & C). cbn [map fst word_token].
        split; [constructor; [exact Tv'|exact ST|eapply lexeme_tail; try eassumption; discriminate|exact A]|].
        split; [constructor; [apply shaped_refl|exact B]|]. eapply tail_prefix; [destruct g; discriminate|exact C].
    + assert (U2' : utf8 code2).
      { eapply utf8_rest_ascii; [|exact U1']. destruct N2 as (c & v & -> & Hc & _ & Hv).
        constructor; [apply ident_ascii, Hc|]. eapply Forall_impl; [|exact Hv]. exact ident_ascii. }
      destruct (IH U2 _ _ _ F' S' U2') as (A & B & C). cbn [map fst word_token].
      assert (NH : ~ head_is ident_char code).
      { destruct N1 as (c & v & -> & _). inversion Hl; subst; assumption. }
      pose proof (tail_ident _ _ _ N1 NH C) as NH'.
      split; [constructor; [exact Tv'|exact I| |exact A]|].
      * destruct N2 as (c & v & -> & Hc & Nc & Hv). apply lx_ident; assumption.
      * split; [constructor; [split; [reflexivity|right; auto]|exact B]|]. right. eexists g, _, _.
        split; [reflexivity|]. split; [reflexivity|]. left.
        destruct N1 as (c & v & -> & Hc & Nc & _), N2 as (c' & v' & -> & Hc' & Nc' & _). cbn [app].
        split; [eexists _, _; split; [reflexivity|split; assumption]|]. split; [eexists _, _; split; [reflexivity|split; assumption]|]. exact RO.
    + destruct L1 as (q & n1 & Hq & Hv & ->), L2 as (q' & n2 & Hq' & Hv' & ->).
      assert (Hs : forall h, lexeme (overflow_checks E) h (q' :: v' ++ [q']) (TString v') code2) by (intros h'; eapply lx_string; eassumption).
      destruct (lexeme_utf8 _ _ _ _ _ (Hs h) U1') as [_ U2'].
      destruct (IH U2 _ _ _ F' S' U2') as (A & B & C). cbn [map fst word_token].
      split; [constructor; [exact Tv'|exact I|apply Hs|exact A]|].
      split; [constructor; [split; [reflexivity|exact I]|exact B]|]. right. exists g, ((q :: v ++ [q]) ++ code), ((q' :: v' ++ [q']) ++ code2).
      split; [reflexivity|]. split; [reflexivity|]. right. cbn [app]. split; eexists _, _; (split; [reflexivity|assumption]).
Qed.

Theorem c44 E r n code : utf8 code -> length code < r ->
  parse_root E r n code = Accepted \/ (exists x, parse_root E r n code = Rejected x) ->
  exists hs ps rest,
    laid (overflow_checks E) hs ps rest code /\
    (parse_root E r n code = Accepted -> rest = []) /\
    (forall qs rest' code' r', Forall2 shaped (map word_token ps) (map word_token qs) ->
      laid (overflow_checks E) hs qs rest' code' -> utf8 code' -> length code' < r' ->
      parse_root E r' n code' = parse_root E r n code) /\
    (forall qs code' r', renamed TEOF ps qs -> spaced qs rest code' -> utf8 code' -> length code' < r' ->
      parse_root E r' n code' = parse_root E r n code).
Proof.
  intros U L H. pose proof (stands_new code U) as S0.
  assert (STEP : forall rl t', HintParser.reads (next_token E) r (into_tokenizer code) rl t' ->
    exists ps rest, words E rl ps rest code /\ stands t' rest /\
      forall qs rest' code' r', Forall2 shaped (map word_token ps) (map word_token qs) ->
        laid (overflow_checks E) (map fst rl) qs rest' code' -> utf8 code' -> length code' < r' ->
        exists rl2 t2, HintParser.reads (next_token E) r' (into_tokenizer code') rl2 t2 /\ Forall2 read_alike rl rl2).
  { intros rl t' R. destruct (reads_words E r _ rl t' R code S0) as (ps & rest & W & St).
    exists ps, rest. split; [exact W|]. split; [exact St|]. intros qs rest' code' r' F Ld U' L'.
    destruct (laid_reads E r' _ _ _ _ Ld U' _ (stands_new code' U') L') as (rl2 & t2 & R2 & E2 & F2).
    exists rl2, t2. split; [exact R2|]. rewrite <- (words_tokens _ _ _ _ _ W) in F. eapply forall_alike; [symmetry; exact E2|exact F|exact F2]. }
  assert (REST : forall a s, run_parser (next_token E) r n parse_module (into_tokenizer code) = ROk a s ->
    parse_root E r n code = Accepted -> forall rest, stands (ps_tok s) rest -> rest = []).
  { intros a s Run A rest St. unfold parse_root in A. apply accepted_all in A. destruct A as (a1 & s1 & log1 & Run1 & D & W & C1 & S & Dv).
    rewrite Run in Run1. injection Run1 as <- <-.
    apply calls_run in C1. destruct C1 as (hs & R). destruct (module_eof _ _ _ Dv) as (w & nl & Ew & Nw).
    destruct (ends_at_eof _ _ _ _ _ R code false w nl (stands_start code U)) as (log0 & rg & -> & NI & O & O2); [rewrite S; exact Ew|exact Nw|].
    destruct (c01 E code _ _ _ U R) as (_ & Ec & _). destruct St as (x & E1 & E2 & _). cbn [into_tokenizer st_code] in O2.
    rewrite Ec in E1. rewrite O2, E1, app_length in E2. destruct rest; [reflexivity|cbn [length] in E2; lia]. }
  assert (FIN : forall rl ps rest (o : outcome), words E rl ps rest code ->
    (forall qs rest' code' r', Forall2 shaped (map word_token ps) (map word_token qs) ->
      laid (overflow_checks E) (map fst rl) qs rest' code' -> utf8 code' -> length code' < r' -> parse_root E r' n code' = o) ->
    (forall qs rest' code' r', Forall2 shaped (map word_token ps) (map word_token qs) ->
      laid (overflow_checks E) (map fst rl) qs rest' code' -> utf8 code' -> length code' < r' -> parse_root E r' n code' = o) /\
    (forall qs code' r', renamed TEOF ps qs -> spaced qs rest code' -> utf8 code' -> length code' < r' -> parse_root E r' n code' = o)).
  { intros rl ps rest o W G. split; [exact G|]. intros qs code' r' F Sp U' L'.
    destruct (words_renamed E rl ps rest code W U TEOF qs code' F Sp U') as (A & B & _). exact (G qs rest code' r' B A U' L'). }
  assert (SIM : rsim (next_token E) r n parse_module).
  { unfold parse_module. apply r_bind; [apply r_call|]. intros _. apply r_bind; [apply r_eof|].
    intros [[]|]; [apply r_ret|apply r_throw]. }
  unfold parse_root, parse_root_with, run_parser in *.
  destruct (interp (next_token E) r (exec (next_token E) r body n) parse_module (pstate_init (into_tokenizer code))) as [a s'|x s'|q|s'] eqn:Q;
    cbn [outcome_of] in H; [| |destruct H as [H|(x & H)]; discriminate|destruct H as [H|(x & H)]; discriminate].
  - pose proof (SIM (pstate_init (into_tokenizer code))) as X. rewrite Q in X. destruct X as (rl & R & X).
    destruct (STEP rl _ R) as (ps & rest & A1 & A2 & A3).
    exists (map fst rl), ps, rest. split; [apply words_laid, A1|]. split; [intros _; apply (REST a s' eq_refl eq_refl rest A2)|]. apply (FIN rl ps rest _ A1).
    intros qs rest' code' r' F Ld U' L'. destruct (A3 qs rest' code' r' F Ld U' L') as (rl2 & t2 & R2 & AL).
    destruct (X _ _ _ _ rl2 t2 (srel_init _ _) AL R2) as (s2' & Q2 & _). rewrite Q2. reflexivity.
  - pose proof (SIM (pstate_init (into_tokenizer code))) as X. rewrite Q in X. destruct X as (rl & R & X).
    destruct (STEP rl _ R) as (ps & rest & A1 & A2 & A3).
    exists (map fst rl), ps, rest. split; [apply words_laid, A1|]. split; [discriminate|]. apply (FIN rl ps rest _ A1).
    intros qs rest' code' r' F Ld U' L'. destruct (A3 qs rest' code' r' F Ld U' L') as (rl2 & t2 & R2 & AL).
    destruct (X _ _ _ _ rl2 t2 (srel_init _ _) AL R2) as (s2' & Q2 & _). rewrite Q2. reflexivity.
Qed.
