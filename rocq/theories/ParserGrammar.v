(** What the grammar says about whole parses, with any tokenizer. *)
From Coq Require Import String List Arith NArith Bool Lia.
From Verif Require Import Base Tokens Tokenizer ParserCore ParserBody SpecParser AbstractParser ParserExec ParserTerminates
  Replay ParserProps ParserProps2 SpecGrammar GrammarFirst GrammarRules GrammarSound Precedence CompleteBase GrammarComplete GrammarFacts.
Import ListNotations.

Lemma d_module_inv g i r : derives_seq g [!NModuleItems; T [Eof]] i r -> exists nl, derives g NModuleItems i ((nl, TEOF) :: r).
Proof.
  intros H. inversion H; subst. match goal with D : derives_seq _ [_] _ _ |- _ => inversion D; subst end.
  match goal with D : derives_seq _ [] _ _ |- _ => inversion D; subst end.
  match goal with O : one_of _ [Eof] ?t = true |- _ => destruct t; try discriminate O end. eauto.
Qed.

Section Whole.
Context {T : Type}.
Variable next : T -> hint -> tres (token * token_range * T).
Variable rf : nat.

(** The [eof] that ends a module leaves nothing in the buffer. *)
Lemma eof_empties call (s s' : pstate T) : inv s -> interp next rf call eof s = ROk (Some tt) s' ->
  exists l nl, goes next rf s s' l /\ buffered s ++ l = [(nl, TEOF)] /\ buffered s' = [].
Proof.
  intros V H. unfold eof, take_if, token_, pop_ in H. cbn [interp do_act] in H.
  assert (G := token_line_goes next rf TEOF s V).
  destruct (do_token_line next rf s) as [a s1|x s1|p|s1]; cbn [interp] in H; try discriminate.
  destruct G as (_ & P & l & G & B & A & _ & _).
  destruct (is_eof (snd a)) eqn:Ea; cbn [interp do_act] in H; [|discriminate].
  assert (C : ps_count s1 = 1).
  { destruct G as (V1 & _ & _). destruct V1 as [_ V2 _ V4]. destruct (Nat.eq_dec (ps_count s1) 2) as [C|C]; [|lia].
    destruct (V4 C) as [x X]. rewrite <- A in X. rewrite X in Ea. discriminate. }
  unfold do_pop in H. rewrite C in H. cbn [interp] in H.
  assert (E1 : snd a = TEOF) by (destruct (snd a); try discriminate; reflexivity).
  rewrite <- A, E1 in H. cbn [interp] in H. injection H as <-.
  exists l, (fst a). split; [|split].
  - destruct G as (V1 & G1 & G2). split; [|split; cbn; assumption].
    destruct V1 as [W1 W2 W3 W4]. split; cbn; auto.
    + destruct W1 as [-> | ->]; auto.
    + rewrite W3. unfold buffered. rewrite C. cbn. rewrite <- A, app_nil_r. destruct a as [? ?]. reflexivity.
    + discriminate.
  - rewrite <- B. unfold buffered. rewrite C, <- A. destruct a as [x y]. cbn in E1 |- *. rewrite E1. reflexivity.
  - reflexivity.
Qed.

Lemma module_items n g i r : aexec TEOF n L_module g i = AOk (Some tt) r -> derives g NModuleItems i r.
Proof. intros H. pose proof (sound_holds n L_module g i) as S. rewrite H in S. exact S. Qed.

(** An accepted parse: everything received was consumed, and it derives. *)
Theorem accepted_run n t a s : run_parser next rf n parse_module t = ROk a s ->
  waiting s = [] /\ (forall L, derives flags_default NModule (ps_popped s ++ L) L) /\ fetches next rf t (ps_popped s) (ps_tok s).
Proof.
  intros H. unfold run_parser, parse_module in H. cbn [interp] in H.
  pose proof (exec_replayed next rf TEOF n L_module (pstate_init t) (init_inv t)) as R.
  destruct (exec next rf body n L_module (pstate_init t)) as [v s1|? ?|?|?]; cbn [interp] in H; try discriminate.
  cbn [replayed] in R. destruct R as (_ & _ & l1 & G1 & R).
  destruct (interp next rf (exec next rf body n) eof s1) as [[[]|] s2|? ?|?|?] eqn:Ee; cbn [interp] in H; try discriminate.
  injection H as <- <-.
  destruct (eof_empties _ _ _ (proj1 G1) Ee) as (l2 & nl & G2 & B & B2).
  assert (G := goes_trans _ _ _ _ _ _ _ G1 G2). destruct G as (V & G & F). cbn [pstate_init ps_read ps_tok app] in G, F.
  assert (P : ps_popped s2 = l1 ++ l2).
  { destruct V as [_ _ V _]. rewrite B2, app_nil_r in V. congruence. }
  assert (v = Some tt).
  { specialize (R []). cbn [buffered pstate_init ps_count app] in R. 
    pose proof (consumption_holds TEOF n L_module flags_default (l1 ++ [])) as C. cbn [ps_flags pstate_init] in R. rewrite R in C.
    destruct v as [[]|]; [reflexivity|]. cbn in C. destruct C as [_ C]. discriminate. }
  subst v. rewrite P. split; [rewrite waiting_buffered by exact V; exact B2|]. split; [|exact F].
  intros L. specialize (R (l2 ++ L)). cbn [buffered pstate_init ps_count app] in R. rewrite !app_assoc, B in R.
  eapply by_production; [left; reflexivity|]. eapply d_nonterminal; [exact (module_items _ _ _ _ R)|].
    apply d_token; [reflexivity|apply d_end].
Qed.

(** A rejected parse: nothing that begins with the tokens received derives. *)
Theorem rejected_run n t x s : run_parser next rf n parse_module t = RErr x s ->
  fetches next rf t (ps_popped s ++ waiting s) (ps_tok s) /\
  forall more r, ~ derives flags_default NModule ((ps_popped s ++ waiting s) ++ more) r.
Proof.
  intros H. pose proof (run_replayed next rf TEOF n parse_module t np_module) as R. rewrite H in R. cbn [replayed] in R.
  destruct R as (_ & l & (V & G & F) & R). cbn [pstate_init ps_read ps_tok app] in G, F.
  rewrite waiting_buffered by exact V. rewrite <- (inv_read _ V), G. split; [exact F|]. clear F G V.
  intros more r D. specialize (R more). cbn [buffered pstate_init ps_count app] in R.
  apply derives_inv in D. destruct D as (alpha & Z & D). cbn in Z. destruct Z as [<-|[]].
  apply d_module_inv in D. destruct D as (nl & D).
  apply (complete_holds NModuleItems _ _ _ _ 0 eq_refl) in D.
  unfold parse_module in R. cbn [ainterp] in R.
  assert (N : aexec TEOF n L_module flags_default (l ++ more) = AOk (Some tt) ((nl, TEOF) :: r)).
  { rewrite <- D. apply not_fuel_parse; [exact teof_end|].
    destruct (aexec TEOF n L_module flags_default (l ++ more)) as [? ?|? ?|?|?]; cbn in R |- *; try discriminate; exact Logic.I. }
  rewrite N in R. cbn [abind ainterp] in R. rewrite eof_eq in R. discriminate R.
Qed.
End Whole.

(** ** Accepted and rejected, in terms of calls of the tokenizer *)
Theorem accepted_derives {T} (next : T -> hint -> tres (token * token_range * T)) rf n t :
  parse_root_with next rf n t = Accepted ->
  exists log t', calls next t log t' /\ derives flags_default NModule (significant false log) [].
Proof.
  unfold parse_root_with. destruct (run_parser next rf n parse_module t) as [a s|? ?|?|?] eqn:H; try discriminate. intros _.
  apply accepted_run in H. destruct H as (_ & D & F). apply fetches_calls in F. destruct F as (log & C & S).
  specialize (S []). cbn [significant] in S. rewrite !app_nil_r in S. exists log, (ps_tok s). rewrite S.
  specialize (D []). rewrite app_nil_r in D. auto.
Qed.
Theorem rejected_derives {T} (next : T -> hint -> tres (token * token_range * T)) rf n t x :
  parse_root_with next rf n t = Rejected x ->
  exists log t', calls next t log t' /\ forall more r, ~ derives flags_default NModule (significant false log ++ more) r.
Proof.
  unfold parse_root_with. destruct (run_parser next rf n parse_module t) as [a s|? s|?|?] eqn:H; try discriminate. intros _.
  apply rejected_run in H. destruct H as (F & D). apply fetches_calls in F. destruct F as (log & C & S).
  specialize (S []). cbn [significant] in S. rewrite !app_nil_r in S. exists log, (ps_tok s). rewrite S. auto.
Qed.

(** Acceptance consumes everything. *)
Theorem accepted_all {T} (next : T -> hint -> tres (token * token_range * T)) rf n t :
  parse_root_with next rf n t = Accepted ->
  exists a s log, run_parser next rf n parse_module t = ROk a s /\ during next rf t s /\ waiting s = [] /\ calls next t log (ps_tok s) /\ significant false log = ps_popped s /\
    derives flags_default NModule (ps_popped s) [].
Proof.
  unfold parse_root_with. destruct (run_parser next rf n parse_module t) as [a s|? s|?|?] eqn:H; try discriminate. intros _.
  assert (D : during next rf t s) by (exists n; eapply v_end; exact H).
  pose proof H as H0. apply accepted_run in H. destruct H as (W & Dv & F). apply fetches_calls in F. destruct F as (log & C & S).
  specialize (S []). cbn [significant] in S. rewrite !app_nil_r in S. exists a, s, log.
  specialize (Dv []). rewrite app_nil_r in Dv. auto 10.
Qed.

(** ** The tokenizer that delivers given tokens *)
Definition delivered (l : list (token * token_range)) : list lookahead := significant false (l ++ [end_of_input]).

Lemma feed_read n : forall t h ln, length t < n -> exists la t', read_token feed n t h ln = RdOk la t' /\ length t' <= length t /\
  (significant ln (t ++ [end_of_input]) = la :: delivered t' \/
   (t' = [] /\ significant ln (t ++ [end_of_input]) = [la] /\ snd la = TEOF)).
Proof.
  induction n as [|n IH]; intros t h ln L; [lia|]. cbn [read_token]. destruct t as [|[tok rg] t]; cbn [feed].
  - exists (ln, TEOF), []. split; [reflexivity|]. split; [lia|]. right. auto.
  - cbn [length] in *. 
    destruct tok; cbn [app significant]; 
      try (eexists; exists t; split; [reflexivity|]; split; [lia|]; left; reflexivity).
    1: match goal with |- context [read_token feed n t h ?x] => destruct (IH t h x) as (la & t' & R & L' & H); [lia|]; exists la, t'; split; [exact R|]; split; [lia|] end.
    2: match goal with |- context [read_token feed n t h ?x] => destruct (IH t h x) as (la & t' & R & L' & H); [lia|]; exists la, t'; split; [exact R|]; split; [lia|] end.
    3: match goal with |- context [read_token feed n t h ?x] => destruct (IH t h x) as (la & t' & R & L' & H); [lia|]; exists la, t'; split; [exact R|]; split; [lia|] end.
    + destruct (line (r_start rg) =? line (r_end rg)); cbn [negb]; rewrite ?orb_false_r, ?orb_true_r; exact H.
    + exact H.
    + exact H.
Qed.
Lemma repeat_snoc {A} (x : A) k : repeat x (S k) = repeat x k ++ [x].
Proof. induction k; [reflexivity|]. cbn in *. f_equal. exact IHk. Qed.
Lemma feed_fetches n t l t' : fetches feed n t l t' -> length t < n ->
  length t' <= length t /\ exists k, l ++ delivered t' = delivered t ++ repeat (false, TEOF) k.
Proof.
  intros F L. induction F as [t|t l t1 h la t2 F IH R].
  - split; [lia|]. exists 0. rewrite app_nil_r. reflexivity.
  - destruct (IH L) as (L1 & k & E). destruct (feed_read n t1 h false ltac:(lia)) as (la' & t' & R' & L2 & H).
    rewrite R in R'. injection R' as <- <-. split; [lia|].
    destruct H as [H|(-> & H & Z)].
    + exists k. etransitivity; [|exact E]. unfold delivered at 2. rewrite H, <- app_assoc. reflexivity.
    + exists (S k). rewrite repeat_snoc, app_assoc. transitivity ((l ++ delivered t1) ++ [(false, TEOF)]); [|f_equal; exact E].
      unfold delivered at 2. rewrite H. reflexivity.
Qed.
Lemma feed_no_panic n : forall t h ln p, read_token feed n t h ln <> RdPanic p.
Proof.
  induction n as [|n IH]; intros t h ln p; [discriminate|]. cbn [read_token]. destruct t as [|[tok rg] t]; cbn [feed]; [discriminate|].
  destruct tok; try discriminate; apply IH.
Qed.

Lemma delivered_length l : length (delivered l) <= S (length l).
Proof.
  unfold delivered. generalize false. induction l as [|[tok rg] l IH]; intros b; cbn [app significant length].
  - cbn. lia.
  - destruct tok; cbn [length]; specialize (IH false) as IHf; try lia;
     match goal with |- context [significant ?x (l ++ _)] => specialize (IH x); lia end.
Qed.
Lemma delivered_eof l : exists w nl, delivered l = w ++ [(nl, TEOF)].
Proof.
  unfold delivered. generalize false. induction l as [|[tok rg] l IH]; intros b.
  - exists [], b. reflexivity.
  - cbn [app significant]. destruct tok; try apply IH;
    match goal with |- context [?x :: significant ?y _] => destruct (IH y) as (w & nl & ->); exists (x :: w), nl; reflexivity end.
Qed.

Lemma feed_terminates log r n : length log < r -> 20 * length log + 80 <= n -> parse_root_with feed r n log <> OutOfFuel.
Proof.
  intros Lr Ln Ho. unfold parse_root_with in Ho.
  destruct (run_parser feed r n parse_module log) as [a s|x s|p|s] eqn:R; try discriminate. clear Ho.
  pose proof (run_replayed feed r TEOF n parse_module log np_module) as H. rewrite R in H. cbn [replayed] in H.
  destruct H as (l & (V & G & F) & H). cbn [pstate_init ps_tok] in F.
  destruct (feed_fetches _ _ _ _ F Lr) as (L1 & k & E).
  destruct H as [(h & H)|H].
  - destruct (feed_read r (ps_tok s) h false) as (la & t' & K & _); [lia|]. rewrite H in K. discriminate.
  - specialize (H (delivered (ps_tok s))). cbn [buffered pstate_init ps_count app] in H. rewrite E in H.
    assert (SA := ainterp_same TEOF _ _ (aexec_same TEOF n) _ parse_module flags_default _ _ (same_pad TEOF (delivered log) k)).
    cbn [ps_flags pstate_init] in H. unfold input, lookahead in *. rewrite H in SA.
    assert (NF := terminates TEOF teof_end n L_module flags_default (delivered log)).
    destruct (ainterp TEOF (aexec TEOF n) parse_module flags_default (delivered log)) as [a' i'|x' i'|w'|i'] eqn:Q; cbn in SA; try contradiction.
    change (ainterp TEOF (aexec TEOF n) parse_module flags_default (delivered log)) with
      (abind (aexec TEOF n L_module flags_default (delivered log)) (fun _ i =>
         ainterp TEOF (aexec TEOF n) (eat_ eof ;; done_) flags_default i)) in Q.
    destruct (aexec TEOF n L_module flags_default (delivered log)) as [a' j|x' j|w'|j]; cbn [abind] in Q; try discriminate.
    + revert Q. cbn [ainterp]. rewrite eof_eq. unfold eats. destruct (is_eof (tok TEOF j)); cbn; discriminate.
    + apply NF. unfold depth. cbn [rank]. pose proof (delivered_length log). unfold lookahead in *. lia.
Qed.

(** Padding with EOFs does not matter. *)
Lemma in_last {A} (x : A) w : In x (w ++ [x]).
Proof. apply in_or_app. right. left. reflexivity. Qed.
Lemma derives_pad g i r k : derives g NModule i r -> exists r', derives g NModule (i ++ repeat (false, TEOF) k) r'.
Proof.
  intros D. destruct (module_eof _ _ _ D) as (w & nl & Ei & _).
  apply derives_inv in D. destruct D as (alpha & Z & D). cbn in Z. destruct Z as [<-|[]].
  apply d_module_inv in D. destruct D as (nl' & D). apply (complete_holds NModuleItems _ _ _ _ 0 eq_refl) in D.
  set (j := i ++ repeat (false, TEOF) k).
  set (n := depth L_module i + depth L_module j).
  rewrite <- (exec_parse TEOF teof_end n L_module g i) in D by (unfold n; lia).
  pose proof (aexec_same TEOF n L_module g j i (same_pad TEOF i k)) as SA. rewrite D in SA.
  destruct (aexec TEOF n L_module g j) as [a j'|? ?|?|?] eqn:Q; cbn in SA; try contradiction. destruct SA as (-> & SA).
  apply module_items in Q. apply same_cur in SA. cbn in SA.
  destruct (proj1 no_eof_inside _ _ _ _ Q ltac:(discriminate)) as (w' & Ej & Nw).
  destruct j' as [|[b tk] j'].
  - exfalso. apply Nw. rewrite app_nil_r in Ej. rewrite <- Ej. unfold j. rewrite Ei, !map_app. apply in_or_app. left.
    apply in_or_app. right. left. reflexivity.
  - injection SA as -> ->. exists j'. eapply by_production; [left; reflexivity|]. eapply d_nonterminal; [exact Q|].
    apply d_token; [reflexivity|apply d_end].
Qed.

(** ** The parser accepts exactly the language of the grammar *)
Lemma prefix_eof (w d x k : list lookahead) nl :
  ~ In TEOF (map snd w) -> In TEOF (map snd d) -> (w ++ [(nl, TEOF)]) ++ x = d ++ k -> exists y, d = (w ++ [(nl, TEOF)]) ++ y.
Proof.
  revert d. induction w as [|a w IH]; intros d Nw Id H; (destruct d as [|b d]; [destruct Id|]); cbn in H; injection H as <- H.
  - exists d. reflexivity.
  - cbn in Nw, Id. destruct (IH d) as (y & ->); [tauto|tauto|exact H|]. exists y. reflexivity.
Qed.

Theorem feed_exact log r n : length log < r -> 20 * length log + 80 <= n ->
  (parse_root_with feed r n log = Accepted <-> exists rest, derives flags_default NModule (delivered log) rest) /\
  (parse_root_with feed r n log = Accepted \/ exists e, parse_root_with feed r n log = Rejected e).
Proof.
  intros Lr Ln. pose proof (feed_terminates log r n Lr Ln) as NF. revert NF. unfold parse_root_with.
  destruct (run_parser feed r n parse_module log) as [a s|x s|p|s] eqn:R; intros NF; try (exfalso; apply NF; reflexivity).
  - split; [|auto]. split; [intros _|auto]. apply accepted_run in R. destruct R as (_ & D & F).
    destruct (feed_fetches _ _ _ _ F Lr) as (_ & k & E).
    destruct (module_eof _ _ _ (D [])) as (w & nl & Ew & Nw). rewrite app_nil_r in Ew.
    destruct (prefix_eof w (delivered log) (delivered (ps_tok s)) (repeat (false, TEOF) k) nl Nw) as (y & Y).
    + destruct (delivered_eof log) as (u & b & ->). rewrite map_app. apply in_or_app. right. left. reflexivity.
    + etransitivity; [|exact E]. f_equal. symmetry. exact Ew.
    + exists y. rewrite Y. specialize (D y). rewrite Ew in D. exact D.
  - split; [|right; exists x; reflexivity]. split; [discriminate|]. intros (rest & D). exfalso. apply rejected_run in R. destruct R as (F & N).
    destruct (feed_fetches _ _ _ _ F Lr) as (_ & k & E). destruct (derives_pad _ _ _ k D) as (r' & D').
    apply (N (delivered (ps_tok s)) r').
    rewrite E. exact D'.
  - exfalso. pose proof (run_replayed feed r TEOF n parse_module log np_module) as H. rewrite R in H. cbn [replayed] in H.
    destruct H as (l & [(t & h & _ & H)|(w & _ & H)]).
    + exact (feed_no_panic _ _ _ _ _ H).
    + exact (module_no_panic _ _ _ _ (H [])).
Qed.
