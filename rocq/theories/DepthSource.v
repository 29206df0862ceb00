(** The depth of nested parentheses in a source. *)
From Coq Require Import String List Arith NArith Bool Lia.
From Verif Require Import Base Tokens SpecTokens SpecStream Tokenizer ByteFacts NumberFacts LexFacts LexTotal NextFacts TokenProps
  ParserCore ParserBody SpecParser AbstractParser ParserExec Replay ParserProps ParserProps2 HintParser SpecTrivia LexSuffix TriviaFacts
  SpecHints Respacing GrammarFacts SpecGrammar SpecLanguage SpecWindows ParserGrammar Coverage Deviations SpecDepth Depth.
Import ListNotations.
Local Open Scope N_scope.

(** Texts of parentheses and names [x]. *)
Inductive tame : bytes -> Prop :=
| tm_nil : tame []
| tm_open u : tame u -> tame (40 :: u)
| tm_close u : tame u -> tame (41 :: u)
| tm_name u : ~ head_is ident_char u -> tame u -> tame (120 :: u).

Lemma tame_utf8 u : tame u -> utf8 u.
Proof. intros H. apply utf8_ascii. induction H; constructor; auto; lia. Qed.

Lemma single p h checks r : In p [ParenOpen; ParenClose] -> lexeme checks h (spelling p) (TPunctuator p) r.
Proof.
  intros I. apply lx_punctuator.
  - split; [intros ->; cbn in I; intuition discriminate|]. split; [eexists; reflexivity|]. intros q _ (y & B).
    destruct I as [<-|[<-|[]]]; destruct q; cbn in B; try discriminate B; cbn; lia.
  - intros H. destruct I as [<-|[<-|[]]]; destruct H as [H|[H|H]]; discriminate.
  - intros ->. cbn in I. intuition discriminate.
Qed.

Lemma tame_read E rf t h u : tame u -> stands t u -> (length u < rf)%nat ->
  exists la t' u', read_token (next_token E) rf t h false = RdOk la t' /\ stands t' u' /\ tame u' /\
    (length u' <= length u)%nat /\
    (head_is (eq 40) u -> la = opening /\ u = 40 :: u').
Proof.
  intros T St L.
  assert (G : forall w tok r, u = w ++ r -> lexeme (overflow_checks E) h w tok r -> is_trivia tok = false -> (forall z, tok <> TNumeric z) ->
    exists t', read_token (next_token E) rf t h false = RdOk (false, tok) t' /\ stands t' r).
  { intros w tok r -> Hl Tr NN. destruct (lexeme_read E h w tok r Hl (tame_utf8 _ T)) as (t1 & R & S).
    assert (t1 = tok) as -> by (destruct tok, t1; cbn in S; try discriminate; try congruence; destruct (NN _ eq_refl)).
    destruct (read_piece E [] false w r h tok t false rf (tv_nil _) St Hl R Tr L) as (t' & Q & St'). exists t'. split; [exact Q|exact St']. }
  inversion T as [|u' T'|u' T'|u' Hn T']; subst.
  - destruct (G [] TEOF [] eq_refl (lx_eof _ _) eq_refl ltac:(discriminate)) as (t' & Q & St'). exists (false, TEOF), t', [].
    repeat (split; [assumption || (cbn; lia)|]). intros (b & y & X & _). discriminate.
  - destruct (G [40] (TPunctuator ParenOpen) u' eq_refl (single ParenOpen _ _ _ (or_introl eq_refl)) eq_refl ltac:(discriminate)) as (t' & Q & St').
    exists opening, t', u'. repeat (split; [assumption || (cbn; lia)|]). auto.
  - destruct (G [41] (TPunctuator ParenClose) u' eq_refl (single ParenClose _ _ _ (or_intror (or_introl eq_refl))) eq_refl ltac:(discriminate)) as (t' & Q & St').
    eexists _, t', u'. split; [exact Q|]. repeat (split; [assumption || (cbn; lia)|]). intros (b & y & X & Y). injection X as <- <-. lia.
  - assert (Hl : lexeme (overflow_checks E) h [120] (TIdent [120]) u').
    { apply lx_ident; auto; [left; unfold lower; lia|unfold digit; lia]. }
    destruct (G [120] (TIdent [120]) u' eq_refl Hl eq_refl ltac:(discriminate)) as (t' & Q & St').
    eexists _, t', u'. split; [exact Q|]. repeat (split; [assumption || (cbn; lia)|]). intros (b & y & X & Y). injection X as <- <-. lia.
Qed.

Lemma tame_fetches E rf t l t' : fetches (next_token E) rf t l t' -> forall d v, stands t (repeat 40%N d ++ v) -> tame (repeat 40%N d ++ v) ->
  (length (repeat 40%N d ++ v) < rf)%nat ->
  exists m u, (m <= d)%nat /\ stands t' (repeat 40%N (d - m) ++ u) /\ tame (repeat 40%N (d - m) ++ u) /\
    (length (repeat 40%N (d - m) ++ u) < rf)%nat /\ exists l', l = repeat opening m ++ l' /\ (m < d -> l' = [])%nat.
Proof.
  induction 1 as [t|t l t1 h la t2 F IH R]; intros d v St T L.
  - exists 0%nat, v. rewrite Nat.sub_0_r. split; [lia|]. repeat (split; [assumption|]). exists []. auto.
  - destruct (IH d v St T L) as (m & u & M & St1 & T1 & L1 & l' & -> & Z). clear IH.
    destruct (tame_read E rf t1 h _ T1 St1 L1) as (la' & t1' & u' & R' & St' & T' & L' & H). rewrite R in R'. injection R' as <- <-.
    destruct (Nat.eq_dec m d) as [->|NE].
    + exists d, u'. rewrite Nat.sub_diag. cbn [repeat app]. split; [lia|]. split; [exact St'|]. split; [exact T'|]. split; [lia|].
      exists (l' ++ [la]). rewrite app_assoc. split; [reflexivity|lia].
    + rewrite (Z ltac:(lia)). destruct (d - m)%nat as [|k] eqn:D; [lia|]. cbn [repeat app] in *.
      destruct H as (-> & X); [exists 40, (repeat 40%N k ++ u); auto|]. injection X as <-.
      exists (S m), u. replace (d - S m)%nat with k by lia. split; [lia|]. split; [exact St'|]. split; [exact T'|]. split; [lia|].
      exists []. split; [|auto]. rewrite !app_nil_r. change (S m) with (1 + m)%nat. rewrite Nat.add_comm, repeat_app. reflexivity.
Qed.

Theorem nested E r n d v : tame v -> (length (repeat 40%N d ++ v) < r)%nat -> (n <= 9 * d)%nat ->
  parse_root E r n (repeat 40%N d ++ v) = OutOfFuel.
Proof.
  intros T L N. assert (Td : tame (repeat 40%N d ++ v)) by (clear - T; induction d; cbn; [exact T|constructor; exact IHd]).
  destruct d as [|d]. { assert (n = 0%nat) as -> by lia. reflexivity. }
  pose proof (run_replayed (next_token E) r TEOF n parse_module (into_tokenizer (repeat 40%N (S d) ++ v)) np_module) as R.
  unfold parse_root, parse_root_with.
  pose proof (stands_new _ (tame_utf8 _ Td)) as S0.
  assert (K : forall l t', fetches (next_token E) r (into_tokenizer (repeat 40%N (S d) ++ v)) l t' ->
    exists L, out (ainterp TEOF (aexec TEOF n) parse_module flags_default (l ++ L))).
  { intros l t' F. destruct (tame_fetches E r _ l t' F (S d) v S0 Td L) as (m & u & M & _ & _ & _ & l' & -> & Z).
    destruct (Nat.eq_dec m (S d)) as [->|NE].
    - exists []. rewrite <- app_assoc. apply deep_module. exact N.
    - exists (repeat opening (S d - m)). rewrite (Z ltac:(lia)), app_nil_r, <- repeat_app. replace (m + (S d - m))%nat with (S d) by lia.
      rewrite <- (app_nil_r (repeat opening (S d))). apply deep_module. exact N. }
  pose proof (fun p => c25_source E r n _ p (tame_utf8 _ Td)) as C25. unfold parse_root, parse_root_with in C25.
  destruct (run_parser (next_token E) r n parse_module _) as [a s|x s|q|s]; cbn [replayed pstate_init buffered ps_count app ps_tok ps_read] in R; [| | |reflexivity].
  - destruct R as (_ & _ & l & (_ & _ & F) & R). destruct (K l _ F) as (M & Q). rewrite R in Q. destruct Q.
  - destruct R as (_ & l & (_ & _ & F) & R). destruct (K l _ F) as (M & Q). rewrite R in Q. destruct Q.
  - destruct R as (l & [(t' & h & F & R)|(w & -> & R)]).
    + destruct (tame_fetches E r _ l t' F (S d) v S0 Td L) as (m & u & _ & St & Tu & Lu & _).
      destruct (tame_read E r t' h _ Tu St Lu) as (la & t2 & u' & R' & _). rewrite R in R'. discriminate.
    + destruct (C25 _ eq_refl) as (? & ? & ? & ? & _ & _ & X). destruct (X w eq_refl).
Qed.

(** ** Nested parentheses are a program *)
Definition closing : lookahead := (false, TPunctuator ParenClose).
Definition eof : lookahead := (false, TEOF).
Definition name : lookahead := (false, TIdent [120]).
Ltac derive2 := lazymatch goal with
  | |- derives _ NAssignment (repeat _ _ ++ _) _ => eassumption
  | H : derives _ NAssignment ?i _ |- derives _ NAssignment ?i _ => eassumption
  | |- derives _ _ _ _ => eapply by_production; [cbn [prods flat_map map app]; in_list | cbn [star]; derive2]
  | |- derives_seq _ [] _ _ => apply d_end
  | |- derives_seq _ (T _ :: _) (_ :: _) _ => apply d_token; [reflexivity | derive2]
  | |- derives_seq _ (N _ _ :: _) _ _ => eapply d_nonterminal; [derive2 | derive2]
  | |- derives_seq _ (Semi _ :: _) _ _ => (apply d_semicolon; derive2) + (apply d_inserted; [discriminate|reflexivity|derive2])
  | |- derives_seq _ (When _ :: _) _ _ => apply d_condition; [reflexivity | derive2]
  end.
Definition g0 : grammar_flags := ltac:(let x := eval vm_compute in (changed no_parameters [(FIn,true)]) in exact x).
Lemma one X r : In X [closing; eof] -> derives g0 NAssignment (name :: X :: r) (X :: r).
Proof. intros [<-|[<-|[]]]; derive2. Qed.

Lemma wrap d X r : In X [closing; eof] ->
  (forall Y r', In Y [closing; eof] -> derives g0 NAssignment (repeat opening d ++ name :: repeat closing d ++ Y :: r') (Y :: r')) ->
  derives g0 NAssignment (repeat opening (S d) ++ name :: repeat closing (S d) ++ X :: r) (X :: r).
Proof.
  intros I IH. pose proof (IH closing (X :: r) (or_introl eq_refl)) as A. clear IH.
  replace (repeat closing (S d) ++ X :: r) with (repeat closing d ++ closing :: X :: r).
  2: { clear. change (closing :: X :: r) with ([closing] ++ X :: r). rewrite app_assoc. f_equal. induction d; cbn in *; congruence. }
  cbn [repeat app]. destruct I as [<-|[<-|[]]]; derive2.
Qed.
Lemma wraps d X r : In X [closing; eof] -> derives g0 NAssignment (repeat opening d ++ name :: repeat closing d ++ X :: r) (X :: r).
Proof. revert X r. induction d as [|d IH]; intros X r I; [apply one, I|]. apply wrap; auto. Qed.
Theorem nest_program d : program (repeat opening d ++ name :: repeat closing d ++ [eof]).
Proof.
  pose proof (wraps d eof [] (or_intror (or_introl eq_refl))) as A. destruct d as [|d]; cbn [repeat app] in *; [clear A; unfold program; derive|]. unfold program.
  set (i := _ ++ _ :: _) in *. clearbody i. derive2.
Qed.

(** ** Their text *)
Local Open Scope nat_scope.
Notation opens := (repeat 40%N).
Notation closes := (repeat 41%N).
Definition nest (d : nat) : bytes := opens d ++ 120%N :: closes d.
Definition piece_of (t : token) (w : bytes) : piece := Piece [] (false, t) w.
Definition nest_pieces (d : nat) : list piece :=
  repeat (piece_of (TPunctuator ParenOpen) [40%N]) d ++ piece_of (TIdent [120%N]) [120%N] ::
  repeat (piece_of (TPunctuator ParenClose) [41%N]) d ++ [Piece [] eof []].

Lemma tame_closes d : tame (closes d).
Proof. induction d; cbn; constructor; auto. Qed.
Lemma tame_name d : tame (120%N :: closes d).
Proof. constructor; [|apply tame_closes]. destruct d; cbn [repeat]; [apply head_is_nil|rewrite head_is_cons; unfold ident_char, lower, upper, digit; lia]. Qed.
Lemma tame_nest d : tame (nest d).
Proof. enough (G : forall e, tame (opens e ++ 120%N :: closes d)) by apply G. induction e as [|e IH]; [apply tame_name|constructor; exact IH]. Qed.
Lemma printed_one checks past t w ps code : w <> [] -> significant_token t -> (forall h, lexeme checks h w t code) ->
  printed checks (past ++ [t]) ps code -> printed checks past (piece_of t w :: ps) (w ++ code).
Proof. intros W S X P. apply (pr_cons checks past [] false t w ps code); auto. constructor. Qed.
Lemma nest_printed checks d : printed checks [] (nest_pieces d) (nest d).
Proof.
  assert (C : forall past, printed checks past (repeat (piece_of (TPunctuator ParenClose) [41%N]) d ++ [Piece [] eof []]) (closes d)).
  { induction d as [|e IH]; intros past; cbn [repeat app]; [apply (pr_end checks past [] false); constructor|].
    apply (printed_one checks past (TPunctuator ParenClose) [41%N]); [discriminate|exact I| |auto].
    intros h. apply (single ParenClose). right. left. reflexivity. }
  enough (G : forall e past, printed checks past (repeat (piece_of (TPunctuator ParenOpen) [40%N]) e ++ piece_of (TIdent [120%N]) [120%N] ::
    repeat (piece_of (TPunctuator ParenClose) [41%N]) d ++ [Piece [] eof []]) (opens e ++ 120%N :: closes d)) by apply G.
  induction e as [|e IH]; intros past; cbn [repeat app].
  - apply (printed_one checks past (TIdent [120%N]) [120%N]); [discriminate|exact I| |auto].
    intros h. pose proof (tame_name d) as T. inversion T; subst.
    apply lx_ident; auto; [left; unfold lower; lia|unfold digit; lia].
  - apply (printed_one checks past (TPunctuator ParenOpen) [40%N]); [discriminate|exact I| |auto].
    intros h. apply (single ParenOpen). left. reflexivity.
Qed.
Lemma map_repeated {A B} (f : A -> B) x d : map f (repeat x d) = repeat (f x) d.
Proof. induction d; cbn; congruence. Qed.
Lemma nest_words d : map word_token (nest_pieces d) = repeat opening d ++ name :: repeat closing d ++ [eof].
Proof. unfold nest_pieces. rewrite map_app. cbn [map]. rewrite map_app, !map_repeated. reflexivity. Qed.
Lemma nest_length d : length (nest d) = 2 * d + 1.
Proof. unfold nest. rewrite app_length. cbn [length]. rewrite !repeat_length. lia. Qed.
Lemma nest_S d : [40%N] ++ nest d ++ [41%N] = nest (S d).
Proof.
  unfold nest. cbn [repeat app]. f_equal. rewrite <- app_assoc. cbn [app]. f_equal. f_equal.
  clear. induction d; cbn in *; congruence.
Qed.
Theorem nest_accepted E r n d : length (nest d) < r -> 20 * length (nest d) + 80 <= n -> parse_root E r n (nest d) = Accepted.
Proof.
  intros R N. apply (c30_accepted E r n (nest_pieces d)); auto; [apply tame_utf8, tame_nest|apply nest_printed|].
  rewrite nest_words. apply nest_program.
Qed.
Theorem nest_exhausts E r n d : length (nest d) < r -> n <= 9 * d -> parse_root E r n (nest d) = OutOfFuel.
Proof. intros R N. apply nested; auto. apply tame_name. Qed.

Theorem opens_exhaust E r n d : d < r -> n <= 9 * d -> parse_root E r n (opens d) = OutOfFuel.
Proof.
  intros R N. rewrite <- (app_nil_r (opens d)). apply nested; [constructor|rewrite app_nil_r, repeat_length; exact R|exact N].
Qed.

Lemma parenthesized_nest d : parenthesized d = nest d.
Proof. induction d as [|d IH]; [reflexivity|]. cbn [parenthesized]. rewrite IH. apply nest_S. Qed.
Theorem nest_depth E r n d : 2 * d + 1 < r ->
  (n <= 9 * d -> parse_root E r n (parenthesized d) = OutOfFuel) /\
  (40 * d + 100 <= n -> parse_root E r n (parenthesized d) = Accepted).
Proof.
  intros R. rewrite parenthesized_nest. pose proof (nest_length d). split; intros N; [apply nest_exhausts|apply nest_accepted]; lia.
Qed.
