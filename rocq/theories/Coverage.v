(** An accepted source was read to its end. *)
From Coq Require Import String List Arith NArith Bool Lia.
From Verif Require Import Base Tokens ByteFacts Tokenizer SpecTokens SpecStream ParserCore ParserBody SpecParser AbstractParser TokenProps
  Replay ParserProps ParserProps2 SpecGrammar SpecBrackets SpecLanguage GrammarFacts ParserGrammar NextFacts SpecTrivia Respacing SpecHints HintParser BraceHints RightHints SourceLanguage.
Import ListNotations.

Lemma ends_at_eof E t hs log t' : run E t hs log t' -> forall u b w nl, stands t u ->
  significant b log = w ++ [(nl, TEOF)] -> ~ In TEOF (map snd w) ->
  exists log0 rg, log = log0 ++ [(TEOF, rg)] /\ ~ In TEOF (map fst log0) /\ offset (r_end rg) = length (st_code t) /\
    offset (st_pos t') = length (st_code t).
Proof.
  induction 1 as [t|t h hs tok rg t1 l t2 N R IH]; intros u b w nl St Hs Nw.
  - destruct w; discriminate.
  - destruct (next_ok E t h u tok rg t1 St N) as (g & w0 & r & Eu & Bg & Hl & S & Uw & St1).
    assert (Sc : st_code t1 = st_code t) by (apply S).
    assert (Next : forall b' w' nl', tok <> TEOF -> significant b' l = w' ++ [(nl', TEOF)] -> ~ In TEOF (map snd w') ->
      exists log0 rg0, (tok, rg) :: l = log0 ++ [(TEOF, rg0)] /\ ~ In TEOF (map fst log0) /\ offset (r_end rg0) = length (st_code t) /\
       offset (st_pos t2) = length (st_code t)).
    { intros b' w' nl' Nt H1 H2. destruct (IH r b' w' nl' St1 H1 H2) as (log0 & rg0 & -> & NI & O & O2).
      exists ((tok, rg) :: log0), rg0. rewrite <- Sc. split; [reflexivity|]. split; [|auto]. cbn. intros [K|K]; auto. }
    assert (Real : tok <> TEOF -> (b, tok) :: significant false l = w ++ [(nl, TEOF)] ->
      exists log0 rg0, (tok, rg) :: l = log0 ++ [(TEOF, rg0)] /\ ~ In TEOF (map fst log0) /\ offset (r_end rg0) = length (st_code t) /\
       offset (st_pos t2) = length (st_code t)).
    { intros Nt H1. symmetry in H1. apply tail_of in H1. destruct H1 as [(_ & K & _)|(w' & -> & K)]; [congruence|].
      apply (Next false w' nl Nt); [congruence|]. intros I. apply Nw. right. exact I. }
    destruct tok; cbn [significant] in Hs; try (apply Real; [discriminate|exact Hs]); try (eapply Next; [discriminate|exact Hs|exact Nw]).
    clear Next Real IH. symmetry in Hs. apply tail_of in Hs. destruct Hs as [(-> & _ & Hs)|(w' & -> & _)].
    2: { exfalso. apply Nw. left. reflexivity. }
    destruct (c04_stays _ _ _ _ _ _ St N) as (O & _ & Stay). exists [], rg.
    inversion R as [|? h' ? tok' rg' t3 l' ? N' R']; subst.
    + split; [reflexivity|]. split; [intros []|]. split; [exact O|]. 
      destruct S as (_ & S2 & _). rewrite S2. exact O.
    + rewrite Stay in N'. injection N' as <- <- <-. discriminate Hs.
Qed.

Theorem c27 E rf n code : utf8 code -> parse_root E rf n code = Accepted ->
  exists s hs log rg,
    during (next_token E) rf (into_tokenizer code) s /\ waiting s = [] /\
    run E (into_tokenizer code) hs (log ++ [(TEOF, rg)]) (ps_tok s) /\
    tiles code 0 (log ++ [(TEOF, rg)]) (length code) /\
    ~ In TEOF (map fst log) /\ offset (r_end rg) = length code /\
    ps_popped s = significant false (log ++ [(TEOF, rg)]).
Proof.
  intros U H. unfold parse_root in H. apply accepted_all in H. destruct H as (a & s & log & _ & D & W & C & S & Dv).
  apply calls_run in C. destruct C as (hs & R). destruct (module_eof _ _ _ Dv) as (w & nl & Ew & Nw).
  destruct (ends_at_eof _ _ _ _ _ R code false w nl (stands_start code U)) as (log0 & rg & -> & NI & O & O2); [rewrite S; exact Ew|exact Nw|].
  exists s, hs, log0, rg. cbn [into_tokenizer st_code] in O, O2. split; [exact D|]. split; [exact W|]. split; [exact R|].
  destruct (c01 E code _ _ _ U R) as (T & _). rewrite O2 in T. auto.
Qed.

Theorem c28_source E rf n code : utf8 code -> parse_root E rf n code = Accepted ->
  exists hs log t, run E (into_tokenizer code) hs log t /\ tiles code 0 log (length code) /\
    program (significant false log) /\ balanced (map snd (significant false log)).
Proof.
  intros U H. pose proof H as H'. unfold parse_root in H. apply accepted_all in H. destruct H as (a & s & log & _ & D & W & C & S & Dv).
  apply calls_run in C. destruct C as (hs & R). destruct (module_eof _ _ _ Dv) as (w & nl & Ew & Nw).
  destruct (ends_at_eof _ _ _ _ _ R code false w nl (stands_start code U)) as (log0 & rg & -> & NI & O & O2); [rewrite S; exact Ew|exact Nw|].
  exists hs, (log0 ++ [(TEOF, rg)]), (ps_tok s). cbn [into_tokenizer st_code] in O, O2. split; [exact R|].
  destruct (c01 E code _ _ _ U R) as (T & _). rewrite O2 in T. rewrite S. split; [exact T|]. split; [exact Dv|exact (module_balanced _ _ Dv)].
Qed.
Theorem c28 {T} (next : T -> hint -> tres (token * token_range * T)) rf n t : parse_root_with next rf n t = Accepted ->
  exists log t', calls next t log t' /\ program (significant false log).
Proof. exact (accepted_derives next rf n t). Qed.
Theorem c29 {T} (next : T -> hint -> tres (token * token_range * T)) rf n t : parse_root_with next rf n t = Accepted ->
  exists log t', calls next t log t' /\ balanced (map snd (significant false log)).
Proof.
  intros H. apply c28 in H. destruct H as (log & t' & C & D). exists log, t'. split; [exact C|]. exact (module_balanced _ _ D).
Qed.
Theorem c41 {T} (next : T -> hint -> tres (token * token_range * T)) rf n t x : parse_root_with next rf n t = Rejected x ->
  exists log t', calls next t log t' /\ ~ begins (significant false log).
Proof.
  intros H. apply rejected_derives in H. destruct H as (log & t' & C & D). exists log, t'. split; [exact C|].
  intros (more & rest & B). exact (D more rest B).
Qed.

Lemma rejected_reads {T} (next : T -> hint -> tres (token * token_range * T)) rf n t x s :
  run_parser next rf n parse_module t = RErr x s -> ~ begins (ps_read s).
Proof.
  intros H. pose proof (run_replayed next rf TEOF n parse_module t np_module) as R. rewrite H in R. cbn [replayed] in R.
  destruct R as (_ & l & (V & _ & _) & _). rewrite (inv_read _ V), <- waiting_buffered by exact V.
  apply rejected_run in H. intros (more & rest & B). exact (proj2 H more rest B).
Qed.

Theorem c35 E r n code : utf8 code -> length code < r -> parse_root E r n code <> OutOfFuel ->
  exists ps rest log t,
    spaced ps rest code /\
    calls (next_token E) (into_tokenizer code) log t /\ significant false log = map word_token ps /\
    (parse_root E r n code = Accepted -> rest = []) /\
    (forall x, parse_root E r n code = Rejected x -> ~ begins (map word_token ps)) /\
    forall qs code' r', respaced ps qs -> spaced qs rest code' -> utf8 code' -> length code' < r' ->
      parse_root E r' n code' = parse_root E r n code.
Proof.
  intros U L NF. destruct (respacing E r n code U L NF) as (ps & rest & log & t & Sp & C & Sg & St & Fin & Rej & All).
  exists ps, rest, log, t. repeat (split; [assumption|]). split; [|split; [|exact All]].
  2:{ intros x H. unfold parse_root, parse_root_with in H. destruct (run_parser _ r n parse_module _) as [a s|y s|q|s] eqn:Q; try discriminate H.
      rewrite (Rej y s eq_refl). exact (rejected_reads _ _ _ _ _ _ Q). }
  intros H. unfold parse_root in H. apply accepted_all in H. destruct H as (a & s & log1 & Run & D & W & C1 & S & Dv).
  rewrite (Fin _ _ Run) in St. apply calls_run in C1. destruct C1 as (hs & R). destruct (module_eof _ _ _ Dv) as (w & nl & Ew & Nw).
  destruct (ends_at_eof _ _ _ _ _ R code false w nl (stands_start code U)) as (log0 & rg & -> & NI & O & O2); [rewrite S; exact Ew|exact Nw|].
  destruct (c01 E code _ _ _ U R) as (_ & Ec & _). destruct St as (x & E1 & E2 & _). cbn [into_tokenizer st_code] in O2.
  rewrite Ec in E1. rewrite O2, E1, app_length in E2. destruct rest; [reflexivity|cbn [length] in E2; lia].
Qed.

(** The hints of the parser. *)
Theorem c30_accepted E r n ps code : utf8 code -> printed (overflow_checks E) [] ps code -> program (map word_token ps) ->
  length code < r -> 20 * length code + 80 <= n ->
  parse_root E r n code = Accepted /\
  exists hs log t, run E (into_tokenizer code) hs log t /\
    Forall2 (fun a b => fst a = fst b /\ same_token (snd a) (snd b)) (map word_token ps) (significant false log).
Proof.
  intros U H P Lr Ln. destruct (printed_accepted E wrong_hint wrong_hint_suits no_wrong_hint r n ps code U H P Lr Ln) as (A & hs & log & t & R & _ & S).
  split; [exact A|]. eauto.
Qed.
Theorem c30_printed E r n ps code : utf8 code -> printed (overflow_checks E) [] ps code -> Forall (fun p => slash_free (snd (word_token p))) ps ->
  length code < r -> 20 * length code + 80 <= n ->
  (parse_root E r n code = Accepted <-> program (map word_token ps)).
Proof. exact (printed_exact E wrong_hint wrong_hint_suits no_wrong_hint r n ps code). Qed.
Theorem c30_written E r n ps code : utf8 code -> written (overflow_checks E) [] ps code ->
  length code < r -> 20 * length code + 80 <= n ->
  (program (map word_token ps) -> parse_root E r n code = Accepted) /\
  (Forall (fun p => slash_free (snd (word_token p))) ps -> parse_root E r n code = Accepted -> program (map word_token ps)).
Proof.
  intros U W Lr Ln. apply written_printed in W. split.
  - intros P. apply (c30_accepted E r n ps code U W P Lr Ln).
  - intros F. apply (c30_printed E r n ps code U W F Lr Ln).
Qed.

Definition meaningful (t : token) : bool := match t with TWhitespace | TLineTerminator | TComment _ _ => false | _ => true end.
Lemma substitution_filter l : in_substitution (filter meaningful l) = in_substitution l.
Proof.
  unfold in_substitution, open_braces. f_equal. generalize (@nil bool). induction l as [|t l IH]; intros s; [reflexivity|]. cbn [filter fold_left].
  destruct t; cbn [meaningful fold_left brace_step]; apply IH.
Qed.
Lemma right_hints_at past hs log : right_hints past hs log -> forall a t rg b, log = a ++ (t, rg) :: b ->
  exists ha h hb, hs = ha ++ h :: hb /\ length ha = length a /\ suits (past ++ filter meaningful (map fst a)) t h.
Proof.
  revert past log. induction hs as [|h hs IH]; intros past [|[t0 rg0] log] R a t rg b Ea; try (destruct R); try (destruct a; discriminate).
  destruct a as [|x a]; cbn in Ea.
  - injection Ea as <- <- <-. exists [], h, hs. cbn. rewrite app_nil_r. auto.
  - injection Ea as <- ->. destruct (IH _ _ H0 a t rg b eq_refl) as (ha & h' & hb & -> & L & S). exists (h :: ha), h', hb. cbn [fst map].
    split; [reflexivity|]. split; [cbn; congruence|].
    destruct t0; cbn [filter meaningful]; try exact S; rewrite <- app_assoc in S; exact S.
Qed.

Lemma run_lexeme E ha : forall u t0 t log h hb a tok rg b, stands t0 u -> run E t0 (ha ++ h :: hb) log t -> log = a ++ (tok, rg) :: b ->
  length ha = length a -> exists w r, lexeme (overflow_checks E) h w tok r.
Proof.
  induction ha as [|h0 ha IH]; intros u t0 t log h hb a tok rg b St R Ea L.
  - destruct a; [|discriminate]. subst log. inversion R as [|? ? ? ? ? t1 ? ? N R']; subst.
    destruct (next_ok E t0 h u tok rg t1 St N) as (g & w0 & r & _ & _ & Hl & _). eauto.
  - destruct a as [|x a]; [discriminate|]. subst log. inversion R as [|? ? ? ? ? t1 ? ? N R']; subst.
    destruct (next_ok E t0 h0 u _ _ t1 St N) as (g & w0 & r & _ & _ & _ & _ & _ & St1).
    eapply (IH r t1 _ _ h hb a tok rg b St1 R' eq_refl). injection L as L. exact L.
Qed.

Theorem c37 E rf n code : utf8 code -> parse_root E rf n code = Accepted ->
  exists hs log t, run E (into_tokenizer code) hs log t /\ tiles code 0 log (length code) /\ program (significant false log) /\
    forall a tok rg b, log = a ++ (tok, rg) :: b ->
      exists ha h hb, hs = ha ++ h :: hb /\ length ha = length a /\
        (closes_brace tok -> in_substitution (map fst a) = false /\ h_template h = false) /\
        (closes_substitution tok -> in_substitution (map fst a) = true /\ h_template h = true).
Proof.
  intros U H. destruct (accepted_right E wrong_hint wrong_hint_suits no_wrong_hint rf n code U H) as (rl & ps & hs & log & t & RD & M & Wd & R & Sg & RH & P & St).
  exists hs, log, t. split; [exact R|]. destruct (c01 E code _ _ _ U R) as (Ti & Ec & _).
  split.
  { destruct St as (x & E1 & E2 & _). rewrite app_nil_r in E1. rewrite E2, <- E1, Ec in Ti. exact Ti. }
  split; [rewrite Sg; exact P|].
  intros a tok rg b Ea. destruct (right_hints_at _ _ _ RH a tok rg b Ea) as (ha & h & hb & -> & L & [S _]). cbn [app] in S. unfold suits_brace in S. rewrite substitution_filter in S.
  exists ha, h, hb. split; [reflexivity|]. split; [exact L|].
  assert (Lx : exists w r, lexeme (overflow_checks E) h w tok r).
  { eapply (run_lexeme E ha code); [apply stands_new, U|exact R|exact Ea|exact L]. }
  destruct Lx as (w & r & Lx). split; intros C.
  - specialize (S (or_introl C)). hnf in C. subst tok. inversion Lx; subst; [exfalso; match goal with H : ~ hinted _ |- _ => apply H; right; right; reflexivity end|].
    split; congruence.
  - specialize (S (or_intror C)). destruct C as (v & r0 & [-> | ->]); inversion Lx; subst; split; congruence.
Qed.

Lemma module_end g w b rest : derives g NModule (w ++ [(b, TEOF)]) rest -> ~ In TEOF (map snd w) -> rest = [].
Proof.
  intros D N. destruct (module_eof _ _ _ D) as (v & nl & Ev & _). apply (eof_once w v rest b nl); [|exact N]. etransitivity; [exact Ev|]. rewrite <- app_assoc. reflexivity.
Qed.
