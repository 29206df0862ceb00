(** Sources in front of and behind other text. *)
From Coq Require Import String List Arith NArith Bool Lia.
From Verif Require Import Base Tokens SpecTokens SpecStream Tokenizer ByteFacts NumberFacts LexFacts LexTotal NextFacts TokenProps
  ParserCore ParserBody SpecParser AbstractParser ParserExec Replay ParserProps SpecTrivia LexSuffix TriviaFacts
  SpecHints GrammarFacts SpecGrammar SpecLanguage ParserGrammar Coverage DepthSource SpecSequel SpecEnclose SpecContext SpecWrapping Enclose Context.
From Verif Require FormatterTokens.
Import ListNotations.
Local Open Scope N_scope.

(** ** Trivia without comments *)
Inductive bare : bytes -> bool -> Prop :=
| bare_nil : bare [] false
| bare_blank b g nl : blank b -> bare g nl -> bare (b :: g) nl
| bare_line t g nl : In t line_terminators -> bare g nl -> bare (t ++ g) true.
Lemma bare_trivia g nl r : bare g nl -> trivia g nl r.
Proof. induction 1; [constructor|apply tv_blank; assumption|eapply tv_line; eassumption]. Qed.
Lemma bare_app g nl g' nl' : bare g nl -> bare g' nl' -> bare (g ++ g') (nl || nl').
Proof.
  intros H K. induction H as [|b g nl B _ IH|t g nl T _ IH]; [exact K|apply bare_blank; assumption|].
  rewrite <- app_assoc. cbn [orb]. eapply bare_line; eassumption.
Qed.
Lemma bare_blanks b : blanks b -> bare b false.
Proof. induction 1; constructor; assumption. Qed.

(** ** Tokens in front of more text *)
Definition brace_ahead (z : bytes) : Prop := head_is (eq 125) z.
Lemma brace_head P z : brace_ahead z -> ~ P 125 -> ~ head_is P z.
Proof. intros (b & y & -> & <-) N. rewrite head_is_cons. exact N. Qed.
Lemma brace_cut s : forall a z, Forall (fun b => b <> 125) s -> brace_ahead z -> SpecTokens.begins s (a ++ z) -> SpecTokens.begins s a.
Proof.
  induction s as [|b s IH]; intros a z F H (r & B); [exists a; reflexivity|]. inversion F as [|? ? Fb Fs]; subst.
  destruct a as [|c a]; cbn [app] in B.
  - destruct H as (d & y & -> & <-). injection B as <- B. contradiction.
  - injection B as -> B. destruct (IH a z Fs H) as (y & Y); [exists r; exact B|]. exists y. rewrite Y. reflexivity.
Qed.
Lemma spelling_brace p : p = CurlyClose \/ Forall (fun b => b <> 125) (spelling p).
Proof. destruct p; auto; right; vm_compute; repeat constructor; discriminate. Qed.
Lemma exponent_brace x z : exponent_part x [] -> brace_ahead z -> exponent_part x z.
Proof.
  intros H Z. remember [] as r eqn:R. destruct H as [r H|c ds r Hc Hds Hr Hs Hne|c s ds r Hc Hs Hds Hr]; subst r.
  - apply ep_none. left. apply brace_head; [exact Z|unfold exp_letter; lia].
  - apply ep_unsigned; auto; [apply brace_head; [exact Z|unfold digit; lia]| |].
    + destruct ds as [|d ds]; [apply brace_head; [exact Z|unfold sign_char; lia]|cbn [app] in *; rewrite head_is_cons in *; exact Hs].
    + rewrite app_nil_r in Hne. destruct ds; [contradiction|discriminate].
  - apply ep_signed; auto. apply brace_head; [exact Z|unfold digit; lia].
Qed.
Lemma decimal_brace m x z : decimal_text m x [] -> brace_ahead z -> decimal_text m x z.
Proof.
  intros H Z. remember [] as r eqn:R.
  assert (A : forall P, ~ P 125 -> ~ head_is P (x ++ []) -> ~ head_is P (x ++ z)).
  { intros P N K. destruct x as [|b x]; [apply brace_head; assumption|cbn [app] in *; rewrite head_is_cons in *; exact K]. }
  destruct H as [d ds x r Hd Hds Hn Hdot Hx|d ds fs x r Hd Hds Hfs Hn Hx|f fs x r Hfs Hn Hx|fs x r Hfs Hn Hne Hx|r Hz]; subst r.
  - apply dt_integer; auto using exponent_brace; apply A; auto; unfold digit; lia.
  - apply dt_fraction; auto using exponent_brace; apply A; auto; unfold digit; lia.
  - apply dt_dot; auto using exponent_brace; apply A; auto; unfold digit; lia.
  - apply dt_zero_dot; auto using exponent_brace; [apply A; auto; unfold digit; lia|]. destruct fs, x; try discriminate. cbn in Hne. contradiction.
  - apply dt_zero. right. apply brace_head; [exact Z|]. cbn. intuition discriminate.
Qed.
Lemma lexeme_brace checks h w t z : lexeme checks h w t [] -> w <> [] -> is_trivia t = false -> brace_ahead z -> lexeme checks h w t z.
Proof.
  intros H W Tr Z. remember [] as r0 eqn:R0 in H.
  destruct H as [|lt r Hlt|p r Hl Hh Hp|r He Hn|r He|r He|v r Hv|v r Hv|p fl r He Hp Np Nb Hf Hr|v r Hv|v r Hv|v r He Hv|v r He Hv|c v r Hc Nc Hv Hr|r Hu|q v nl r Hq Hv|q v Hq Ho|m x r n Hd Hc|k l d ds r n Hk Hf Hd H1 H2];
    try congruence; try discriminate Tr; subst.
  - apply lx_punctuator; [|exact Hh|].
    + destruct Hl as (L1 & L2 & L3). split; [exact L1|]. split; [eexists; reflexivity|]. intros q Nq B.
      destruct (spelling_brace q) as [-> | F].
      * change (length (spelling CurlyClose)) with 1%nat. destruct (spelling p); [contradiction|cbn; lia].
      * apply (L3 q Nq). rewrite app_nil_r. exact (brace_cut _ _ _ F Z B).
    + intros _. apply brace_head; [exact Z|unfold digit; lia].
  - apply lx_slash; [exact He|]. apply brace_head; [exact Z|lia].
  - apply lx_slash_eq; exact He.
  - apply lx_curly_close; exact He.
  - apply lx_regex; auto. apply brace_head; [exact Z|unfold lower; lia].
  - apply lx_template_whole; exact Hv.
  - apply lx_template_head; exact Hv.
  - apply lx_template_middle; assumption.
  - apply lx_template_tail; assumption.
  - apply lx_ident; auto. apply brace_head; [exact Z|unfold ident_char, lower, upper, digit; lia].
  - eapply lx_string; eassumption.
  - apply lx_decimal; auto. apply decimal_brace; assumption.
  - eapply lx_radix; try eassumption; (apply brace_head; [exact Z|destruct k; cbn; unfold hex_digit, octal_digit, binary_digit, digit; lia]).
Qed.

(** A text that is empty or ends with a line feed. *)
Definition lines (u : bytes) : Prop := u = [] \/ exists v, u = v ++ [10].
Lemma lines_rest a u : lines (a ++ u) -> lines u.
Proof.
  intros [H|(v & H)]; [apply app_eq_nil in H; left; apply H|]. destruct u as [|x u] using rev_ind; [left; reflexivity|].
  rewrite app_assoc in H. apply app_inj_tail in H. destruct H as (_ & ->). right. eauto.
Qed.
Lemma lines_alike v z : alike (v ++ [10]) (v ++ [10] ++ z).
Proof. apply alike_app. apply alike_sep; right; exists [10]; (split; [left; reflexivity|]); [exists []|exists z]; reflexivity. Qed.
Lemma lexeme_more checks h w t r z : lexeme checks h w t r -> w <> [] -> is_trivia t = false -> lines r -> brace_ahead z -> lexeme checks h w t (r ++ z).
Proof.
  intros H W Tr [-> | (v & ->)] Z; [exact (lexeme_brace _ _ _ _ _ H W Tr Z)|]. rewrite <- app_assoc.
  eapply lexeme_alike; [exact H|apply lines_alike|exact W|]. intros x ->. discriminate.
Qed.

(** Sources without slashes and backquotes, and tokens other than those these begin. *)
Definition clean (u : bytes) : Prop := ~ In 47 u /\ ~ In 96 u.
Lemma clean_app a b : clean (a ++ b) -> clean a /\ clean b.
Proof. unfold clean. rewrite !in_app_iff. tauto. Qed.
Notation no_template := FormatterTokens.no_template.
Lemma clean_lexeme checks h w t r : lexeme checks h w t r -> clean w -> no_template t ->
  forall h', (t = TPunctuator CurlyClose -> h_template h' = false) -> lexeme checks h' w t r.
Proof.
  intros H (N & _) T h' B.
  assert (S : forall x y, ~ ~ In 47 (s2b "/" ++ x) /\ ~ ~ In 47 (s2b "/" ++ y)) by (intros x y; split; intros K; apply K; left; reflexivity).
  destruct H; try contradiction T; try (exfalso; apply N; left; reflexivity); try (constructor; assumption).
  - apply lx_curly_close. apply B. reflexivity.
  - eapply lx_string; eassumption.
  - eapply lx_radix; eassumption.
Qed.

(** ** The tokens of a source, in other text *)
Section Source.
Variable E : env.
Notation checks := (overflow_checks E).

Lemma stuck_run e : forall t hs log t', run E t hs log t' -> forall u, stuck E e u -> stands t u -> Forall (fun p => fst p = e) log.
Proof.
  induction 1 as [t|t h hs tok rg t1 l t2 Q _ IH]; intros u S St; [constructor|].
  destruct (stuck_next E e t u h S St) as (rg' & t1' & Q' & St'). rewrite Q in Q'. injection Q' as -> -> ->.
  constructor; [reflexivity|]. exact (IH u S St').
Qed.
Lemma in_significant nl x : forall log nl0, In (nl, x) (significant nl0 log) -> exists rg, In (x, rg) log.
Proof.
  induction log as [|[tok rg] log IH]; intros nl0 I; [destruct I|]. cbn [significant] in I.
  destruct tok; try (destruct I as [I|I]; [injection I as <- <-; exists rg; left; reflexivity|]); destruct (IH _ I) as (rg' & K); exists rg'; right; exact K.
Qed.

Lemma embedded z : brace_ahead z -> forall t hs log t', run E t hs log t' -> forall u g0 nl0 a nl past,
  stands t u -> significant nl0 log = a ++ [(nl, TEOF)] -> (forall b, ~ In (b, TEOF) a) -> clean u -> lines u ->
  Forall (fun p => no_template (fst p)) log -> Forall no_template past -> bare g0 nl0 ->
  exists ps gl, bare gl nl /\ map word_token ps = a /\
    forall pz, printed checks (past ++ map snd a) pz (gl ++ z) -> printed checks past (ps ++ pz) (g0 ++ u ++ z).
Proof.
  intros Z. induction 1 as [t|t h hs tok rg t1 l t2 Q R IH]; intros u g0 nl0 a nl past St S NE C L NT NP B.
  { destruct a; discriminate S. }
  destruct (next_ok E t h u tok rg t1 St Q) as (b & w & r & -> & Bb & Hl & _ & _ & St1).
  inversion NT as [|? ? Nt NT']; subst. cbn [fst] in Nt.
  destruct (clean_app _ _ C) as (_ & Cwr). destruct (clean_app _ _ Cwr) as (Cw & Cr).
  pose proof (lines_rest _ _ (lines_rest _ _ L)) as Lr.
  assert (B' : bare (g0 ++ b) nl0) by (rewrite <- (orb_false_r nl0); apply bare_app; [exact B|apply bare_blanks, Bb]).
  destruct (is_trivia tok) eqn:Tr.
  { destruct (lexeme_trivia E h w tok r Hl Tr) as [(-> & Iw)|[(v & -> & -> & _)|(v & -> & -> & _)]].
    - cbn [significant] in S. destruct (IH r ((g0 ++ b) ++ w) true a nl past St1 S NE Cr Lr NT' NP) as (ps & gl & A1 & A2 & A3).
      + rewrite <- (orb_true_r nl0). apply bare_app; [exact B'|]. rewrite <- (app_nil_r w). eapply bare_line; [exact Iw|constructor].
      + exists ps, gl. split; [exact A1|]. split; [exact A2|]. intros pz Pz. specialize (A3 pz Pz). rewrite <- !app_assoc in *. exact A3.
    - exfalso. apply (proj1 Cw). left. reflexivity.
    - exfalso. apply (proj1 Cw). left. reflexivity. }
  assert (S' : (nl0, tok) :: significant false l = a ++ [(nl, TEOF)]) by (destruct tok; try discriminate Tr; exact S).
  destruct a as [|x a]; cbn [app] in S'.
  { injection S' as <- -> _. assert (w = [] /\ r = []) as (-> & ->) by (inversion Hl; auto).
    exists [], (g0 ++ b). split; [exact B'|]. split; [reflexivity|]. intros pz Pz. cbn [map app] in *. rewrite app_nil_r in Pz |- *. rewrite <- app_assoc in Pz. exact Pz. }
  injection S' as <- S'.
  assert (W : w <> []).
  { intros ->. pose proof (empty_stuck E h tok r Hl) as K. pose proof (stuck_run tok _ _ _ _ R r K St1) as F.
    assert (I : In (nl, TEOF) (significant false l)) by (rewrite S'; apply in_or_app; right; left; reflexivity).
    destruct (in_significant _ _ _ _ I) as (rg' & J). rewrite Forall_forall in F. specialize (F _ J). cbn [fst] in F. subst tok. apply (NE nl0). left. reflexivity. }
  destruct (IH r [] false a nl (past ++ [tok]) St1 S') as (ps & gl & A1 & A2 & A3); auto.
  { intros d K. apply (NE d). right. exact K. }
  { apply Forall_app. split; [exact NP|]. constructor; [exact Nt|constructor]. }
  { constructor. }
  exists (Piece (g0 ++ b) (nl0, tok) w :: ps), gl. split; [exact A1|]. split; [cbn [map word_token]; rewrite A2; reflexivity|].
  intros pz Pz. cbn [map snd] in Pz. specialize (A3 pz). rewrite <- app_assoc in A3. cbn [app] in A3. specialize (A3 Pz).
  cbn [app]. replace (g0 ++ (b ++ w ++ r) ++ z) with ((g0 ++ b) ++ w ++ r ++ z) by (rewrite <- !app_assoc; reflexivity).
  apply pr_cons; [apply bare_trivia, B'|exact W|destruct tok; try discriminate Tr; exact I| |exact A3].
  intros h' (Sb & _). apply (clean_lexeme _ h); auto; [apply lexeme_more; assumption|].
  intros ->. rewrite (Sb (or_introl eq_refl)). apply FormatterTokens.no_substitution, NP.
Qed.

(** ** Accepted sources without slashes and backquotes *)
Lemma tiles_word code x : forall o l e, tiles code o l e -> forall rg, In (x, rg) l -> exists a w b, code = a ++ w ++ b /\ spells x w.
Proof.
  induction 1 as [|o t g w rest s e l z Sk _ Sp _ _ _ IH]; intros rg I; [destruct I|]. destruct I as [I|I]; [|exact (IH rg I)].
  injection I as -> _. exists (firstn o code ++ g), w, rest. split; [|exact Sp]. rewrite <- app_assoc, <- Sk. symmetry. apply firstn_skipn.
Qed.
Lemma clean_word u a w b : clean u -> u = a ++ w ++ b -> clean w.
Proof. intros C ->. apply clean_app in C. destruct C as (_ & C). apply clean_app in C. apply C. Qed.
Lemma clean_templates code hs log : clean code -> tiles code 0 log (length code) ->
  (forall before tok rg after, log = before ++ (tok, rg) :: after -> exists hs1 h hs2, hs = hs1 ++ h :: hs2 /\ length hs1 = length before /\
        (closes_brace tok -> in_substitution (map fst before) = false /\ h_template h = false) /\
        (closes_substitution tok -> in_substitution (map fst before) = true /\ h_template h = true)) ->
  Forall (fun p => no_template (fst p)) log.
Proof.
  intros C Ti H.
  assert (M : forall f c v rg, In (TTemplate f c v, rg) log -> f = TF_Middle).
  { intros f c v rg I. destruct (tiles_word _ _ _ _ _ Ti _ I) as (a & w & b & Ec & _ & Sp). pose proof (clean_word _ _ _ _ C Ec) as (_ & K).
    destruct f; try reflexivity; exfalso; apply K; rewrite Sp; [left; reflexivity|left; reflexivity|].
    apply in_or_app. right. apply in_or_app. right. left. reflexivity. }
  assert (G : forall s l, (forall f c v, In (TTemplate f c v) l -> f = TF_Middle) -> Forall (eq false) s -> Forall (eq false) (fold_left brace_step l s)).
  { intros s l. revert s. induction l as [|t l IH]; intros s Hl Hs; [exact Hs|]. cbn [fold_left]. apply IH; [intros f c v I; apply (Hl f c v); right; exact I|].
    destruct t as [p| | | | | | | |f c v|]; try exact Hs.
    - destruct p; try exact Hs; cbn [brace_step]; [constructor; auto|destruct Hs; cbn [tl]; auto].
    - pose proof (Hl f c v (or_introl eq_refl)) as ->. exact Hs. }
  apply Forall_forall. intros [tok rg] I. cbn [fst]. destruct tok as [p| | | | | | | |f c v|]; try exact Logic.I.
  pose proof (M _ _ _ _ I) as ->. destruct (in_split _ _ I) as (l1 & l2 & El). destruct (H _ _ _ _ El) as (? & ? & ? & _ & _ & _ & K).
  destruct K as (K & _); [exists c, v; left; reflexivity|]. unfold in_substitution, open_braces in K.
  assert (F : Forall (eq false) (fold_left brace_step (map fst l1) [])); [apply G; [|constructor]|destruct (fold_left brace_step (map fst l1) []) as [|y s]; [discriminate K|inversion F; subst; discriminate K]].
  intros f c' v' J. apply in_map_iff in J. destruct J as ([t' rg'] & Et & J). cbn [fst] in Et. subst t'. eapply M. rewrite El. apply in_or_app. left. exact J.
Qed.

Theorem source_embedded rf n code : utf8 code -> clean code -> lines code -> parse_root E rf n code = Accepted ->
  exists a nl, program (a ++ [(nl, TEOF)]) /\ Forall no_template (map snd a) /\
    (forall x, In x (map snd a) -> exists p w q, code = p ++ w ++ q /\ spells x w) /\
    forall z past, brace_ahead z -> Forall no_template past ->
      exists ps gl, bare gl nl /\ map word_token ps = a /\
        forall pz, printed checks (past ++ map snd a) pz (gl ++ z) -> printed checks past (ps ++ pz) (code ++ z).
Proof.
  intros U C L A. destruct (c37 E rf n code U A) as (hs & log & t & R & Ti & Pr & H).
  pose proof (clean_templates code hs log C Ti H) as NT. destruct (module_eof _ _ _ Pr) as (a & nl & Q & NE).
  rewrite Q in Pr. exists a, nl. split; [exact Pr|].
  assert (LG : forall x, In x (map snd a) -> exists rg, In (x, rg) log).
  { intros x I. apply in_map_iff in I. destruct I as ([b x'] & Ex & I). cbn [snd] in Ex. subst x'.
    assert (J : In (b, x) (significant false log)) by (rewrite Q; apply in_or_app; left; exact I).
    exact (in_significant _ _ _ _ J). }
  split; [|split].
  - apply Forall_forall. intros x I. destruct (LG x I) as (rg & K). rewrite Forall_forall in NT. exact (NT _ K).
  - intros x I. destruct (LG x I) as (rg & K). exact (tiles_word _ _ _ _ _ Ti _ K).
  - intros z past Z NP. destruct (embedded z Z _ _ _ _ R code [] false a nl past (stands_start code U) Q) as (ps & gl & X); auto; [|constructor|exists ps, gl; exact X].
    intros b I. apply NE. apply in_map_iff. exists (b, TEOF). auto.
Qed.
End Source.

(** ** Braces around a source *)
Lemma brace_lexeme checks h r : lexeme checks h (s2b "{") (TPunctuator CurlyOpen) r.
Proof.
  apply (lx_punctuator checks h CurlyOpen r).
  - split; [discriminate|]. split; [eexists; reflexivity|]. intros q _ (y & B). destruct q; cbn in B; try discriminate B; cbn; lia.
  - intros [H|[H|H]]; discriminate H.
  - discriminate.
Qed.
Lemma arrow_lexeme checks h r : lexeme checks h (s2b "=>") (TPunctuator Arrow) r.
Proof.
  apply (lx_punctuator checks h Arrow r).
  - split; [discriminate|]. split; [eexists; reflexivity|]. intros q _ (y & B). destruct q; cbn in B; try discriminate B; cbn; lia.
  - intros [H|[H|H]]; discriminate H.
  - discriminate.
Qed.
Lemma open_lexeme checks h r : lexeme checks h (s2b "(") (TPunctuator ParenOpen) r.
Proof. apply (single ParenOpen). left. reflexivity. Qed.
Lemma close_lexeme checks h r : lexeme checks h (s2b ")") (TPunctuator ParenClose) r.
Proof. apply (single ParenClose). right. left. reflexivity. Qed.
Lemma function_lexeme checks h r : lexeme checks h (s2b "function") (TIdent (s2b "function")) (s2b "(" ++ r).
Proof.
  apply lx_ident; [left; vm_compute; split; discriminate|unfold digit; vm_compute; intros (_ & H); apply H; reflexivity| |].
  - repeat (apply Forall_cons; [left; vm_compute; split; discriminate|]). constructor.
  - change (s2b "(" ++ r) with (40 :: r). rewrite head_is_cons. unfold ident_char, lower, upper, digit. lia.
Qed.

Lemma absent_byte b code : absent [b] code -> ~ In b code.
Proof. intros A I. destruct (in_split _ _ I) as (x & y & Q). exact (A x y Q). Qed.
Lemma byte_absent b code : ~ In b code -> absent [b] code.
Proof. intros N x y ->. apply N. apply in_or_app. right. left. reflexivity. Qed.
Lemma simple_clean code : simple_source code -> clean code /\ lines code.
Proof. intros (_ & L & A & B). split; [split; apply absent_byte; assumption|right; exact L]. Qed.
Lemma absent_without code a w : (forall x, In x (map snd a) -> exists p v q, code = p ++ v ++ q /\ spells x v) -> absent (s2b w) code -> without w a.
Proof.
  intros H A nl I. destruct (H (TIdent (s2b w))) as (p & v & q & Q & Sp); [apply in_map_iff; exists (nl, TIdent (s2b w)); auto|].
  cbn [spells] in Sp. subst v. exact (A p q Q).
Qed.
Lemma ascii_utf8 s : forallb (fun b => b <? 128) s = true -> utf8 s.
Proof. intros H. apply utf8_ascii. rewrite forallb_forall in H. apply Forall_forall. intros b I. apply N.ltb_lt, H, I. Qed.
Lemma closing_printed checks past gl nl z pz : bare gl nl -> Forall no_template past ->
  printed checks (past ++ [TPunctuator CurlyClose]) pz z ->
  printed checks past (Piece gl (nl, TPunctuator CurlyClose) (s2b "}") :: pz) (gl ++ s2b "}" ++ z).
Proof.
  intros B NP P. apply pr_cons; [apply bare_trivia, B|discriminate|exact I| |exact P].
  intros h (Sb & _). apply lx_curly_close. rewrite (Sb (or_introl eq_refl)). apply FormatterTokens.no_substitution, NP.
Qed.
Lemma line_printed checks past : printed checks past [Piece [10] (true, TEOF) []] [10].
Proof. apply pr_end. apply bare_trivia. apply (bare_line [10] [] false); [left; reflexivity|constructor]. Qed.

Section Around.
Variables (E : env) (r n : nat) (code : bytes).
Hypothesis simple : simple_source code.
Hypothesis no_import : absent (s2b "import") code.
Hypothesis no_export : absent (s2b "export") code.
Hypothesis accepted : parse_root E r n code = Accepted.

Lemma around : exists a nl, script a nl /\
    (forall w, absent (s2b w) code -> without w a) /\
    forall z past, brace_ahead z -> Forall no_template past ->
      exists ps gl, bare gl nl /\ map word_token ps = a /\ Forall no_template (past ++ map snd a) /\
        forall pz, printed (overflow_checks E) (past ++ map snd a) pz (gl ++ z) -> printed (overflow_checks E) past (ps ++ pz) (code ++ z).
Proof.
  destruct simple as (U & _). destruct (simple_clean _ simple) as (C & L).
  destruct (source_embedded E r n code U C L accepted) as (a & nl & P & NT & Sp & H). exists a, nl.
  split; [apply program_script; [eapply absent_without; eassumption|eapply absent_without; eassumption|exact P]|].
  split; [intros w; apply absent_without, Sp|]. intros z past Z NP. destruct (H z past Z NP) as (ps & gl & A & B & X). exists ps, gl.
  split; [exact A|]. split; [exact B|]. split; [|exact X]. apply Forall_app. split; assumption.
Qed.

Theorem braces_accepted r' n' : (length (braces code) < r')%nat -> (20 * length (braces code) + 80 <= n')%nat ->
  parse_root E r' n' (braces code) = Accepted.
Proof.
  intros R N. destruct around as (a & nl & S & _ & H).
  destruct (H (s2b "}" ++ [10]) [TPunctuator CurlyOpen]) as (ps & gl & B & M & NP & P); [eexists _, _; split; reflexivity|repeat constructor|].
  apply (c30_accepted E r' n' (Piece [] (false, TPunctuator CurlyOpen) (s2b "{") :: ps ++ [Piece gl (nl, TPunctuator CurlyClose) (s2b "}"); Piece [10] (true, TEOF) []])); auto.
  - apply utf8_app; [apply ascii_utf8; reflexivity|]. apply utf8_app; [apply simple|apply ascii_utf8; reflexivity].
  - apply (pr_cons _ [] [] false); [constructor|discriminate|exact I|intros; apply brace_lexeme|]. apply P. apply closing_printed; [exact B|exact NP|apply line_printed].
  - cbn [map word_token]. rewrite map_app, M. cbn [map word_token].
    assert (Q := script_program _ _ (block_script a nl true S)). unfold in_block in Q. cbn [app] in Q. rewrite <- !app_assoc in Q. exact Q.
Qed.
Theorem called_accepted r' n' : absent (s2b "in") code -> absent (s2b "await") code ->
  (length (called code) < r')%nat -> (20 * length (called code) + 80 <= n')%nat -> parse_root E r' n' (called code) = Accepted.
Proof.
  intros NI NA R N. destruct around as (a & nl & S & W & H).
  destruct (H (s2b "}" ++ s2b ")()" ++ [10]) [TPunctuator ParenOpen; TIdent (s2b "function"); TPunctuator ParenOpen; TPunctuator ParenClose; TPunctuator CurlyOpen])
    as (ps & gl & B & M & NP & P); [eexists _, _; split; reflexivity|repeat constructor|].
  apply (c30_accepted E r' n' (Piece [] (false, TPunctuator ParenOpen) (s2b "(") :: Piece [] (false, TIdent (s2b "function")) (s2b "function") ::
    Piece [] (false, TPunctuator ParenOpen) (s2b "(") :: Piece [] (false, TPunctuator ParenClose) (s2b ")") :: Piece [] (false, TPunctuator CurlyOpen) (s2b "{") ::
    ps ++ [Piece gl (nl, TPunctuator CurlyClose) (s2b "}"); Piece [] (false, TPunctuator ParenClose) (s2b ")"); Piece [] (false, TPunctuator ParenOpen) (s2b "(");
           Piece [] (false, TPunctuator ParenClose) (s2b ")"); Piece [10] (true, TEOF) []])); auto.
  - apply utf8_app; [apply ascii_utf8; reflexivity|]. apply utf8_app; [apply simple|apply ascii_utf8; reflexivity].
  - apply (pr_cons _ [] [] false _ (s2b "(") _ (s2b "function" ++ s2b "(" ++ s2b ")" ++ s2b "{" ++ code ++ s2b "}" ++ s2b ")()" ++ [10])); [constructor|discriminate|exact I|intros; apply open_lexeme|].
    apply (pr_cons _ _ [] false _ (s2b "function") _ (s2b "(" ++ s2b ")" ++ s2b "{" ++ code ++ s2b "}" ++ s2b ")()" ++ [10])); [constructor|discriminate|exact I|intros; apply function_lexeme|].
    apply (pr_cons _ _ [] false _ (s2b "(") _ (s2b ")" ++ s2b "{" ++ code ++ s2b "}" ++ s2b ")()" ++ [10])); [constructor|discriminate|exact I|intros; apply open_lexeme|].
    apply (pr_cons _ _ [] false _ (s2b ")") _ (s2b "{" ++ code ++ s2b "}" ++ s2b ")()" ++ [10])); [constructor|discriminate|exact I|intros; apply close_lexeme|].
    apply (pr_cons _ _ [] false _ (s2b "{") _ (code ++ s2b "}" ++ s2b ")()" ++ [10])); [constructor|discriminate|exact I|intros; apply brace_lexeme|].
    cbn [app]. apply P. apply closing_printed; [exact B|exact NP|].
    apply (pr_cons _ _ [] false _ (s2b ")") _ (s2b "(" ++ s2b ")" ++ [10])); [constructor|discriminate|exact I|intros; apply close_lexeme|].
    apply (pr_cons _ _ [] false _ (s2b "(") _ (s2b ")" ++ [10])); [constructor|discriminate|exact I|intros; apply open_lexeme|].
    apply (pr_cons _ _ [] false _ (s2b ")") _ [10]); [constructor|discriminate|exact I|intros; apply close_lexeme|]. apply line_printed.
  - cbn [map word_token]. rewrite map_app, M. cbn [map word_token].
    assert (Q := script_program _ _ (call_script a nl true (conj (W _ NI) (W _ NA)) S)). unfold in_call, in_block in Q. cbn [app] in Q. rewrite <- !app_assoc in Q. exact Q.
Qed.
Theorem arrow_accepted r' n' : absent (s2b "in") code -> absent (s2b "await") code ->
  (length (arrow code) < r')%nat -> (20 * length (arrow code) + 80 <= n')%nat -> parse_root E r' n' (arrow code) = Accepted.
Proof.
  intros NI NA R N. destruct around as (a & nl & S & W & H).
  destruct (H (s2b "}" ++ [10]) [TPunctuator ParenOpen; TPunctuator ParenClose; TPunctuator Arrow; TPunctuator CurlyOpen])
    as (ps & gl & B & M & NP & P); [eexists _, _; split; reflexivity|repeat constructor|].
  apply (c30_accepted E r' n' (Piece [] (false, TPunctuator ParenOpen) (s2b "(") :: Piece [] (false, TPunctuator ParenClose) (s2b ")") ::
    Piece [] (false, TPunctuator Arrow) (s2b "=>") :: Piece [] (false, TPunctuator CurlyOpen) (s2b "{") ::
    ps ++ [Piece gl (nl, TPunctuator CurlyClose) (s2b "}"); Piece [10] (true, TEOF) []])); auto.
  - apply utf8_app; [apply ascii_utf8; reflexivity|]. apply utf8_app; [apply simple|apply ascii_utf8; reflexivity].
  - apply (pr_cons _ [] [] false _ (s2b "(") _ (s2b ")" ++ s2b "=>" ++ s2b "{" ++ code ++ s2b "}" ++ [10])); [constructor|discriminate|exact I|intros; apply open_lexeme|].
    apply (pr_cons _ _ [] false _ (s2b ")") _ (s2b "=>" ++ s2b "{" ++ code ++ s2b "}" ++ [10])); [constructor|discriminate|exact I|intros; apply close_lexeme|].
    apply (pr_cons _ _ [] false _ (s2b "=>") _ (s2b "{" ++ code ++ s2b "}" ++ [10])); [constructor|discriminate|exact I|intros; apply arrow_lexeme|].
    apply (pr_cons _ _ [] false _ (s2b "{") _ (code ++ s2b "}" ++ [10])); [constructor|discriminate|exact I|intros; apply brace_lexeme|].
    cbn [app]. apply P. apply closing_printed; [exact B|exact NP|]. apply line_printed.
  - cbn [map word_token]. rewrite map_app, M. cbn [map word_token].
    assert (Q := script_program _ _ (arrow_script a nl true (conj (W _ NI) (W _ NA)) S)). unfold in_arrow, in_block in Q. cbn [app] in Q. rewrite <- !app_assoc in Q. exact Q.
Qed.
End Around.

(** ** Braces can be put again and again *)
Lemma absent_braces p code : p <> [] -> Forall (fun b => b <> 123 /\ b <> 125 /\ b <> 10) p -> absent p code -> absent p (braces code).
Proof.
  intros NE F A x y Q. unfold braces in Q. change (s2b "{" ++ code ++ s2b "}" ++ [10]) with (123 :: code ++ [125; 10]) in Q.
  rewrite Forall_forall in F.
  destruct x as [|c x]; [destruct p as [|b p]; [contradiction|]; injection Q as <- _; destruct (F 123) as (K & _); [left; reflexivity|congruence]|].
  injection Q as <- Q.
  assert (L : forall s b y', In b [125; 10] -> s ++ [b] = x ++ p ++ y' -> exists y'', y' = y'' ++ [b] /\ s = x ++ p ++ y'').
  { intros s b y' Ib Es. destruct y' as [|c y'' _] using rev_ind.
    - rewrite app_nil_r in Es. destruct p as [|d p' _] using rev_ind; [contradiction|]. rewrite app_assoc in Es. apply app_inj_tail in Es. destruct Es as (_ & <-).
      destruct (F b) as (_ & K1 & K2); [apply in_or_app; right; left; reflexivity|]. exfalso. cbn in Ib. intuition congruence.
    - rewrite !app_assoc in Es. apply app_inj_tail in Es. destruct Es as (Es & <-). rewrite <- app_assoc in Es. eauto. }
  change [125; 10] with ([125] ++ [10]) in Q. rewrite app_assoc in Q.
  destruct (L (code ++ [125]) 10 y) as (y1 & -> & Q1); [right; left; reflexivity|exact Q|].
  destruct (L code 125 y1) as (y2 & -> & Q2); [left; reflexivity|exact Q1|]. exact (A _ _ Q2).
Qed.
Lemma simple_braces code : simple_source code -> simple_source (braces code).
Proof.
  intros (U & (v & L) & A & B). split; [|split; [|split]].
  - apply utf8_app; [apply ascii_utf8; reflexivity|]. apply utf8_app; [exact U|apply ascii_utf8; reflexivity].
  - exists (s2b "{" ++ code ++ s2b "}"). unfold braces. rewrite <- !app_assoc. reflexivity.
  - apply absent_braces; [discriminate|repeat constructor; discriminate|exact A].
  - apply absent_braces; [discriminate|repeat constructor; discriminate|exact B].
Qed.
Theorem many_braces_accepted E r n code : simple_source code -> absent (s2b "import") code -> absent (s2b "export") code -> parse_root E r n code = Accepted ->
  forall k r' n', (length (many_braces k code) < r')%nat -> (20 * length (many_braces k code) + 80 <= n')%nat -> (k <> 0)%nat -> parse_root E r' n' (many_braces k code) = Accepted.
Proof.
  intros S I X A.
  assert (G : forall k, simple_source (many_braces k code) /\ absent (s2b "import") (many_braces k code) /\ absent (s2b "export") (many_braces k code) /\
    exists r0 n0, parse_root E r0 n0 (many_braces k code) = Accepted).
  { induction k as [|k (S' & I' & X' & r0 & n0 & A')]; cbn [many_braces]; [eauto 8|]. split; [apply simple_braces, S'|].
    split; [apply absent_braces; [discriminate|repeat constructor; discriminate|exact I']|].
    split; [apply absent_braces; [discriminate|repeat constructor; discriminate|exact X']|].
    exists (Datatypes.S (length (braces (many_braces k code)))), (20 * length (braces (many_braces k code)) + 80)%nat. eapply braces_accepted; eauto; lia. }
  intros [|k] r' n' R N K; [contradiction|]. destruct (G k) as (S' & I' & X' & r0 & n0 & A'). cbn [many_braces] in *. eapply braces_accepted; eauto.
Qed.
