(** The expression hint of the parser: along every parse that does not fail, a division
    sign in a place where the previous tokens tell that it is one is asked for without the
    expression hint, and a regular expression in a place where it must be one with it. *)
From Coq Require Import String List Arith NArith Bool Lia.
From Verif Require Import Base Tokens ParserCore ParserBody AbstractParser ParserExec HintParser SpecHints BraceHints Brackets.
Import ListNotations.

Definition slash (t : token) : bool :=
  match t with TPunctuator Slash | TPunctuator SlashEq => true | _ => false end.

Definition misslash (past : list token) (expression _ : bool) (la : lookahead) : bool :=
  negb (mentions_yield past) &&
  ((slash (snd la) && after_operand past && expression) ||
   (is_regex (snd la) && before_operand past && negb expression)).

Notation tk := (tok TEOF).
Notation hrun n := (hinterp misslash TEOF (hexec misslash TEOF n)).

Definition is_semi (past : list token) : bool := match past with TPunctuator Semicolon :: _ => true | _ => false end.

(** ** Facts about a state *)
Inductive fact : Set := KZ | KP | K2 | NI | HF | HT | OC | RC | OW | W | R | R1 | D0 | D1 | CL | SQ | RO | UC | PD | MI | SM | SZ.
Definition facts : list fact := [KZ; KP; K2; NI; HF; HT; OC; RC; OW; W; R; R1; D0; D1; CL; SQ; RO; UC; PD; MI; SM; SZ].
Definition fact_eqb (a b : fact) : bool :=
  match a, b with
  | KZ, KZ | KP, KP | K2, K2 | NI, NI | HF, HF | HT, HT | OC, OC | RC, RC | OW, OW | W, W | R, R | R1, R1
  | D0, D0 | D1, D1 | CL, CL | SQ, SQ | RO, RO | UC, UC | PD, PD | MI, MI | SM, SM | SZ, SZ => true
  | _, _ => false
  end.
Definition mem (f : fact) (l : list fact) : bool := existsb (fact_eqb f) l.
Definition select (P : fact -> bool) : list fact := filter P facts.

Definition holds (f : fact) (p : list token) (st : hstate) : Prop :=
  match f with
  | KZ => hk st = 0
  | KP => 1 <= hk st
  | K2 => hk st = 2
  | NI => is_ident (tk (hi st)) = false
  | HF => he st = false
  | HT => he st = true
  | OC => wants_operand p = false
  | RC => before_operand p = false
  | OW => 1 <= hk st -> wants_operand p = false
  | W => 1 <= hk st -> he st = true -> wants_operand p = false
  | R => hk st = 0 -> before_operand p = true -> he st = true
  | R1 => 1 <= hk st -> is_regex (tk (hi st)) = true -> hbad st = false
  | D0 => hk st = 0 -> he st = true -> after_operand p = false
  | D1 => 1 <= hk st -> slash (tk (hi st)) = true -> hbad st = false
  | CL => 1 <= hk st -> he st = true -> after_operand (TPunctuator ParenClose :: p) = false
  | SQ => exists s, open_brackets p = Square :: s
  | RO => exists d s, open_brackets p = Round d :: s
  | UC => comma_settles p = false
  | PD => after_period p = true
  | MI => mentions_if p = true
  | SM => is_semi p = true \/ before_operand p = false
  | SZ => is_semi p = true -> before_operand p = true -> hk st = 0
  end.

(** A slash that was read under the wrong hint is still the next token. *)
Definition base (p : list token) (st : hstate) : Prop :=
  consumed st p /\
  (hbad st = true -> hk st = 1 /\ mentions_yield p = false /\ ((slash (tk (hi st)) = true /\ after_operand p = true) \/
                                   (is_regex (tk (hi st)) = true /\ before_operand p = true))).
Definition sat (l : list fact) (st : hstate) : Prop :=
  exists p, base p st /\ forall f, mem f l = true -> holds f p st.

(** After a [yield] nothing is claimed. *)
Definition Fr (st : hstate) : Prop := hbad st = false /\ mentions_yield (hpast st) = true.

Lemma existsb_filter {A} (g P : A -> bool) l : existsb g (filter P l) = existsb (fun x => P x && g x) l.
Proof. induction l as [|x l IH]; [reflexivity|]. cbn. destruct (P x); cbn; rewrite IH; reflexivity. Qed.
Lemma mem_select f P : mem f (select P) = P f.
Proof.
  unfold select, mem. rewrite existsb_filter. destruct f; cbn [existsb facts fact_eqb]; rewrite ?andb_false_r, ?andb_true_r, ?orb_false_r; reflexivity.
Qed.

Lemma mem_cons f x l : mem f (x :: l) = fact_eqb f x || mem f l.
Proof. reflexivity. Qed.

(** What follows from the facts of a list. *)
Definition close (l : list fact) : list fact :=
  let m f := mem f l in
  let kp := m KP || m K2 in
  let oc := m OC || (kp && m OW) in
  let rc := m RC || (m SM && m MI) in
  select (fun f => m f ||
    match f with
    | KP => m K2
    | OC => oc
    | OW => oc || m KZ
    | W => oc || m OW || m KZ || m HF
    | RC => rc
    | R => kp || m HT || rc
    | R1 => m KZ || rc || m K2 || (m SM && m SZ)
    | D0 => kp || m HF
    | D1 => m KZ || m K2
    | CL => m KZ || m HF
    | UC => m SQ
    | SM => rc
    | SZ => rc || m KZ
    | _ => false
    end).

Lemma slash_not_ident t : slash t = true -> is_ident t = false.
Proof. destruct t; try discriminate; reflexivity. Qed.
Lemma regex_not_ident t : is_regex t = true -> is_ident t = false.
Proof. destruct t; try discriminate; reflexivity. Qed.
Lemma regex_not_slash t : is_regex t = true -> slash t = false.
Proof. destruct t; try discriminate; reflexivity. Qed.

Lemma base_k2 p st : base p st -> hk st = 2 -> is_ident (tk (hi st)) = true.
Proof. intros (C & _) K. unfold consumed in C. rewrite K in C. apply C. Qed.
Lemma base_fine p st : base p st -> (is_regex (tk (hi st)) = true -> before_operand p = false) ->
  (slash (tk (hi st)) = true -> after_operand p = false) -> hbad st = false.
Proof.
  intros (_ & B) H1 H2. destruct (hbad st); [|reflexivity]. destruct (B eq_refl) as (_ & _ & [(X & Y)|(X & Y)]).
  - rewrite (H2 X) in Y. discriminate.
  - rewrite (H1 X) in Y. discriminate.
Qed.
Lemma base_k p st : base p st -> hk st <= 2.
Proof. intros (C & _). unfold consumed in C. destruct (hk st) as [|[|[|?]]]; [lia|lia|lia|destruct C]. Qed.
Lemma base_good p st : base p st -> hk st <> 1 -> hbad st = false.
Proof. intros (_ & B) H. destruct (hbad st); [|reflexivity]. destruct (B eq_refl). contradiction. Qed.

Lemma close_holds l st p : base p st -> (forall f, mem f l = true -> holds f p st) ->
  forall f, mem f (close l) = true -> holds f p st.
Proof.
  intros B H f. unfold close. rewrite mem_select. intros M. apply orb_true_iff in M. destruct M as [M|M]; [apply H; exact M|].
  assert (HK2 : mem K2 l = true -> hk st = 2) by (intros X; exact (H _ X)).
  assert (HKP : mem KP l || mem K2 l = true -> 1 <= hk st).
  { intros X. apply orb_true_iff in X. destruct X as [X|X]; [exact (H _ X)|rewrite (HK2 X); lia]. }
  assert (HOC : mem OC l || ((mem KP l || mem K2 l) && mem OW l) = true -> wants_operand p = false).
  { intros X. apply orb_true_iff in X. destruct X as [X|X]; [exact (H _ X)|]. apply andb_true_iff in X. destruct X as (X & Y).
    exact (H _ Y (HKP X)). }
  assert (HRC : mem RC l || (mem SM l && mem MI l) = true -> before_operand p = false).
  { intros X. apply orb_true_iff in X. destruct X as [X|X]; [exact (H _ X)|]. apply andb_true_iff in X. destruct X as (X & Y).
    destruct (H _ X) as [S|S]; [|exact S]. specialize (H _ Y). cbn [holds] in H. destruct p as [|[[]| | | | | | | | |] p]; try discriminate S.
    cbn [before_operand]. change (mentions_if p = true) in H. rewrite H. reflexivity. }
  destruct f; try discriminate M; cbn [holds].
  - rewrite (HK2 M); lia.
  - apply HOC, M.
  - apply HRC, M.
  - intros L. apply orb_true_iff in M. destruct M as [M|M]; [apply HOC, M|]. specialize (H _ M). cbn in H. lia.
  - intros L E. repeat (apply orb_true_iff in M; destruct M as [M|M]); [apply HOC; apply orb_true_iff; left; exact M
     |apply HOC; apply orb_true_iff; right; exact M| exact (H _ M L) | |];
     specialize (H _ M); cbn in H; [lia|congruence].
  - intros Z P. apply orb_true_iff in M. destruct M as [M|M]; [|rewrite (HRC M) in P; discriminate P].
    repeat (apply orb_true_iff in M; destruct M as [M|M]).
    + specialize (H _ M). cbn in H. lia.
    + specialize (HK2 M). lia.
    + exact (H _ M).
  - intros L X.
    assert (NS : slash (tk (hi st)) = true -> after_operand p = false) by (intros Y; rewrite (regex_not_slash _ X) in Y; discriminate).
    apply orb_true_iff in M. destruct M as [M|M]; [apply orb_true_iff in M; destruct M as [M|M]; [apply orb_true_iff in M; destruct M as [M|M]|]|].
    + specialize (H _ M). cbn in H. lia.
    + apply (base_fine p st B); [intros _; exact (HRC M)|exact NS].
    + apply (base_good p st B). rewrite (HK2 M). lia.
    + apply andb_true_iff in M. destruct M as (M1 & M2). apply (base_fine p st B); [intros _|exact NS].
      destruct (before_operand p) eqn:BO; [|reflexivity]. destruct (H _ M1) as [S|S]; [|congruence]. specialize (H _ M2 S BO). lia.
  - intros Z E. apply orb_true_iff in M. destruct M as [M|M]; [specialize (HKP M); lia|]. specialize (H _ M). cbn in H. congruence.
  - intros L X. apply orb_true_iff in M. destruct M as [M|M].
    + specialize (H _ M). cbn in H. lia.
    + apply (base_good p st B). rewrite (HK2 M). lia.
  - intros L E. apply orb_true_iff in M. destruct M as [M|M]; specialize (H _ M); cbn in H; [lia|congruence].
  - destruct (H _ M) as (s & E). unfold comma_settles. rewrite E. reflexivity.
  - right. apply HRC, M.
  - intros S BO. apply orb_true_iff in M. destruct M as [M|M]; [rewrite (HRC M) in BO; discriminate BO|exact (H _ M)].
Qed.

Lemma close_sat l st : sat l st -> sat (close l) st.
Proof. intros (p & B & H). exists p. split; [exact B|]. apply close_holds; assumption. Qed.

Definition subset (a b : list fact) : bool := forallb (fun f => mem f b) a.
Lemma subset_mem a b f : subset a b = true -> mem f a = true -> mem f b = true.
Proof.
  unfold subset, mem. rewrite forallb_forall, !existsb_exists. intros H (x & I & E).
  assert (f = x) by (destruct f, x; try discriminate; reflexivity). subst x. apply H in I. apply existsb_exists in I. exact I.
Qed.
Lemma sat_weak a b st : subset b (close a) = true -> sat a st -> sat b st.
Proof.
  intros S H. apply close_sat in H. destruct H as (p & B & H). exists p. split; [exact B|]. intros f M. apply H.
  eapply subset_mem; eassumption.
Qed.

Local Strategy 10 [mem select close].

(** ** The effect of each primitive on the facts *)
Definition tr_peek (l : list fact) : list fact :=
  let m f := mem f (close l) in
  select (fun f => match f with
    | KZ => false
    | KP | R | D0 => true
    | HF => m KZ || m HF
    | HT => m KP && m HT
    | OW => m OC
    | R1 => m R && m R1
    | D1 => m D0 && m D1
    | SZ => m RC
    | _ => m f
    end).
Definition tr_expect (l : list fact) : list fact :=
  let m f := mem f (close l) in
  select (fun f => match f with
    | HF => false
    | HT | R => true
    | W => m OW
    | D0 => m KP
    | CL => m KZ
    | _ => m f
    end).
(** Reading ahead without taking a token. *)
Definition tr_quiet (l : list fact) : list fact :=
  let m f := mem f (close l) in
  select (fun f => match f with
    | KZ | HT => false
    | OW => m OC
    | R1 => m R && m R1
    | D1 => m D0 && m D1
    | SZ => m RC
    | _ => m f
    end).

(** What a token does to the open brackets. *)
Inductive effect : Set := Plain | OpensSquare | OpensRound | IsComma | IsDots | IsPeriod | IsSemi | IsIf | Unknown.
Definition effect_of (t : token) : effect :=
  match t with
  | TPunctuator SquareOpen => OpensSquare
  | TPunctuator ParenOpen => OpensRound
  | TPunctuator Comma => IsComma
  | TPunctuator Ellipsis => IsDots
  | TPunctuator Period => IsPeriod
  | TPunctuator Semicolon => IsSemi
  | TIdent name => if SpecGrammar.word_in ["if"; "export"]%string name then IsIf else Plain
  | TPunctuator ParenClose | TPunctuator SquareClose | TPunctuator CurlyClose | TPunctuator CurlyOpen
  | TTemplate TF_Head _ _ | TTemplate TF_Tail _ _ => Unknown
  | _ => Plain
  end.

(** Taking a token; [d0]: whether a slash after it is read as it should be, [ident]:
    whether it may be an identifier. *)
Definition tr_pop (d0 ident oc rc : bool) (e : effect) (l : list fact) : list fact :=
  let m f := mem f (close l) in
  let rc := rc || (match e with IsComma => m UC | IsSemi => m MI | _ => false end) in
  select (fun f => match f with
    | KZ => negb ident
    | KP | K2 | NI => false
    | HF => m HF
    | HT => m HT
    | OC => oc
    | RC => rc
    | OW => oc || negb ident
    | W => oc || negb ident || m HF
    | R => rc || m HT
    | R1 | D1 => true
    | D0 => d0 || m HF || (ident && m K2)
    | CL => negb ident || m HF || m W
    | SQ => match e with OpensSquare => true | Plain | IsComma | IsDots | IsPeriod | IsSemi | IsIf => m SQ | _ => false end
    | RO => match e with OpensRound => true | Plain | IsComma | IsDots | IsPeriod | IsSemi | IsIf => m RO | _ => false end
    | UC => match e with OpensSquare => true | Plain | IsPeriod | IsSemi | IsIf => m UC | IsDots => m RO || m SQ | IsComma => m SQ | _ => false end
    | PD => match e with IsPeriod => true | _ => false end
    | MI => m MI || (match e with IsIf => true | _ => false end)
    | SM => rc || (match e with IsSemi => true | _ => false end)
    | SZ => true
    end).

Lemma close_all l st p : base p st -> (forall f, mem f l = true -> holds f p st) -> forall f, mem f (close l) = true -> holds f p st.
Proof. exact (close_holds l st p). Qed.

Lemma misslash_regex p e t la : is_regex (snd la) = true -> (before_operand p = true -> e = true) -> misslash p e t la = false.
Proof.
  intros X H. unfold misslash. rewrite (regex_not_slash _ X), X. cbn. destruct (before_operand p); [rewrite H by reflexivity|]; cbn; apply andb_false_r.
Qed.
Lemma slash_not_regex t : slash t = true -> is_regex t = false.
Proof. destruct t; try discriminate; reflexivity. Qed.
Lemma misslash_slash p e t la : slash (snd la) = true -> (e = true -> after_operand p = false) -> misslash p e t la = false.
Proof.
  intros X H. unfold misslash. rewrite (slash_not_regex _ X), X. cbn. destruct e; [rewrite H by reflexivity|]; cbn; rewrite ?andb_false_r; reflexivity.
Qed.
Lemma misslash_bad p e t la : misslash p e t la = true -> mentions_yield p = false /\
  ((slash (snd la) = true /\ after_operand p = true) \/ (is_regex (snd la) = true /\ before_operand p = true)).
Proof.
  unfold misslash. intros H. apply andb_true_iff in H. destruct H as [Y H]. apply negb_true_iff in Y. split; [exact Y|]. apply orb_true_iff in H.
  destruct H as [H|H]; apply andb_true_iff in H; destruct H as [H _]; apply andb_true_iff in H; auto.
Qed.

Lemma peek_base g p st : base p st -> base p (hpeek misslash TEOF g st) /\ hi (hpeek misslash TEOF g st) = hi st.
Proof.
  intros B. assert (B' := B). destruct B' as (C & HB). unfold hpeek. destruct (Nat.eqb_spec (hk st) 0) as [Z|Z]; [|split; [exact B|reflexivity]].
  cbn [hi]. split; [|reflexivity]. assert (G := base_good p st B ltac:(lia)). rewrite G. cbn [orb].
  unfold consumed in C. rewrite Z in C. split.
  - unfold consumed. cbn [hk hpast hi]. rewrite C. reflexivity.
  - cbn [hbad hk hi]. intros M. split; [reflexivity|]. rewrite C in M. exact (misslash_bad _ _ _ _ M).
Qed.
Lemma peek_bad g p st : base p st -> hk st = 0 ->
  hbad (hpeek misslash TEOF g st) = misslash p (he st) (expect_template g) (cur TEOF (hi st)).
Proof.
  intros B Z. unfold hpeek. rewrite Z. cbn [Nat.eqb hbad]. rewrite (base_good p st B) by lia. destruct B as (C & _).
  unfold consumed in C. rewrite Z in C. rewrite C. reflexivity.
Qed.

Lemma peek_sat l g st : sat l st -> sat (tr_peek l) (hpeek misslash TEOF g st).
Proof.
  intros HS0. apply close_sat in HS0. destruct HS0 as (p & B & H). exists p. destruct (peek_base g p st B) as (B' & E). split; [exact B'|].
  intros f M. unfold tr_peek in M. rewrite mem_select in M.
  assert (KC : hk (hpeek misslash TEOF g st) = if hk st =? 0 then 1 else hk st) by (unfold hpeek; destruct (hk st =? 0); reflexivity).
  assert (EC : he (hpeek misslash TEOF g st) = if hk st =? 0 then false else he st) by (unfold hpeek; destruct (hk st =? 0); reflexivity).
  assert (BC : hk st <> 0 -> hbad (hpeek misslash TEOF g st) = hbad st)
    by (intros Z; unfold hpeek; apply Nat.eqb_neq in Z; rewrite Z; reflexivity).
  assert (BZ := peek_bad g p st B). set (st' := hpeek misslash TEOF g st) in *. clearbody st'.
  destruct f; cbn [holds] in *; rewrite ?KC, ?EC, ?E in *; try discriminate M.
  - destruct (Nat.eqb_spec (hk st) 0); lia.
  - specialize (H _ M). cbn in H. rewrite H. reflexivity.
  - exact (H _ M).
  - destruct (Nat.eqb_spec (hk st) 0); [reflexivity|]. apply orb_true_iff in M. destruct M as [M|M]; specialize (H _ M); cbn in H; [lia|exact H].
  - apply andb_true_iff in M. destruct M as (M1 & M2). assert (X := H _ M1). assert (Y := H _ M2). cbn in X, Y.
    destruct (Nat.eqb_spec (hk st) 0); [lia|exact Y].
  - exact (H _ M).
  - exact (H _ M).
  - intros _. exact (H _ M).
  - destruct (Nat.eqb_spec (hk st) 0); [discriminate|]. exact (H _ M).
  - destruct (Nat.eqb_spec (hk st) 0); [discriminate|]. intros Z. lia.
  - apply andb_true_iff in M. destruct M as (M1 & M2). assert (X := H _ M1). assert (Y := H _ M2). cbn in X, Y.
    destruct (Nat.eqb_spec (hk st) 0) as [Z|Z].
    + intros _ T. rewrite (BZ Z). apply misslash_regex; [exact T|]. exact (X Z).
    + rewrite (BC Z). exact Y.
  - destruct (Nat.eqb_spec (hk st) 0); [discriminate|]. intros Z. lia.
  - apply andb_true_iff in M. destruct M as (M1 & M2). assert (X := H _ M1). assert (Y := H _ M2). cbn in X, Y.
    destruct (Nat.eqb_spec (hk st) 0) as [Z|Z].
    + intros _ T. rewrite (BZ Z). apply misslash_slash; [exact T|]. exact (X Z).
    + rewrite (BC Z). exact Y.
  - destruct (Nat.eqb_spec (hk st) 0); [discriminate|]. exact (H _ M).
  - exact (H _ M).
  - exact (H _ M).
  - exact (H _ M).
  - exact (H _ M).
  - exact (H _ M).
  - exact (H _ M).
  - intros S BO. specialize (H _ M). cbn [holds] in H. congruence.
Qed.

Definition words : list string :=
  SpecGrammar.reserved_words ++ SpecGrammar.strict_reserved_words ++ ["yield"; "await"]%string.
Lemma plain_kw name k : plain name = true -> existsb (String.eqb k) words = true -> kw k name = false.
Proof.
  intros P H. apply existsb_exists in H. destruct H as (x & Hx & E). apply String.eqb_eq in E. subst x.
  unfold plain in P. apply negb_true_iff in P. destruct (kw k name) eqn:K; [|reflexivity].
  rewrite <- P. symmetry. apply existsb_exists. exists k. split; [exact Hx|exact K].
Qed.
Lemma plain_kws name ks : plain name = true -> forallb (fun k => existsb (String.eqb k) words) ks = true ->
  existsb (fun k => kw k name) ks = false.
Proof.
  intros P H. induction ks as [|k ks IH]; [reflexivity|]. cbn in H. apply andb_true_iff in H. cbn.
  rewrite (plain_kw name k P (proj1 H)), (IH (proj2 H)). reflexivity.
Qed.
Lemma plain_binds g name : plain name = true -> is_binding_identifier g name = true.
Proof.
  intros P. unfold is_binding_identifier.
  rewrite (plain_kws name reserved_keywords P), (plain_kws name future_strict_keywords P) by (vm_compute; reflexivity).
  rewrite (plain_kw name "yield"%string P), (plain_kw name "await"%string P), (plain_kw name "let"%string P), (plain_kw name "static"%string P),
    (plain_kw name "enum"%string P), (plain_kw name "null"%string P), (plain_kw name "true"%string P), (plain_kw name "false"%string P)
    by (vm_compute; reflexivity). reflexivity.
Qed.

Lemma operand_word_reserved name : operand_word name = true -> existsb (fun k => kw k name) reserved_keywords = true.
Proof.
  intros H. unfold operand_word, SpecGrammar.word_in in H. apply existsb_exists in H. destruct H as (x & Hx & E).
  apply existsb_exists. exists x. split; [|exact E]. cbn [In] in Hx. repeat (destruct Hx as [<-|Hx]; [cbv [reserved_keywords In]; tauto|]). destruct Hx.
Qed.
Lemma operand_word_binds g name : operand_word name = true -> is_binding_identifier g name = false.
Proof.
  intros H. unfold is_binding_identifier. rewrite (operand_word_reserved name H).
  repeat match goal with |- (if ?b then _ else _) = false => destruct b; try reflexivity end.
Qed.
Lemma binding_not_operand g name : is_binding_identifier g name = true -> operand_word name = false.
Proof. intros H. destruct (operand_word name) eqn:E; [|reflexivity]. rewrite (operand_word_binds g name E) in H. discriminate. Qed.

(** The state after reading one token further. *)
Definition ahead (g : grammar_flags) (name : bytes) (st : hstate) : hstate :=
  let la := cur TEOF (tl (hi st)) in
  HS 2 (he st) (snd la :: hpast st)
     (hbad st || misslash (hpast st) (negb (is_binding_identifier g name)) (expect_template g) la) (hi st).

Lemma ahead_base g name p st : base p st -> hk st = 1 -> tk (hi st) = TIdent name -> base p (ahead g name st) /\ hbad (ahead g name st) = false.
Proof.
  intros B K T. assert (G : hbad st = false) by (apply (base_fine p st B); rewrite T; discriminate).
  assert (X : hbad (ahead g name st) = false).
  { cbn. rewrite G. cbn. destruct B as (C & _). unfold consumed in C. rewrite K, T in C. rewrite C.
    destruct (slash (snd (cur TEOF (tl (hi st))))) eqn:S1.
    - apply misslash_slash; [exact S1|]. cbn [after_operand]. rewrite negb_true_iff. intros NB. destruct (plain name) eqn:P; [|reflexivity].
      rewrite (plain_binds g name P) in NB. discriminate.
    - destruct (is_regex (snd (cur TEOF (tl (hi st))))) eqn:S2.
      + apply misslash_regex; [exact S2|]. cbn [before_operand]. intros BO. apply andb_true_iff in BO.
        rewrite (operand_word_binds g name (proj1 BO)). reflexivity.
      + unfold misslash. rewrite S1, S2. cbn. apply andb_false_r. }
  split; [|exact X]. destruct B as (C & _). unfold consumed in C. rewrite K in C. split; [|rewrite X; discriminate].
  unfold consumed, ahead. cbn [hk hpast hi]. fold (tk (tl (hi st))). rewrite C, T. split; reflexivity.
Qed.
Lemma ahead_holds g name p st f : base p st -> hk st = 1 -> tk (hi st) = TIdent name -> holds f p st -> holds f p (ahead g name st).
Proof.
  intros B K T H. destruct (ahead_base g name p st B K T) as (_ & G).
  destruct f; cbn [holds] in *; cbn [hk he hi ahead] in *; try lia; try discriminate; try assumption; rewrite ?K in *.
  - intros _. apply H. lia.
  - intros _. apply H. lia.
  - intros _ _. exact G.
  - intros _ _. exact G.
  - intros _. apply H. lia.
  - intros S BO. specialize (H S BO). lia.
Qed.
Lemma ahead_sat l g name st : sat l st -> hk st = 1 -> tk (hi st) = TIdent name -> sat (K2 :: l) (ahead g name st).
Proof.
  intros (p & B & H) K T. exists p. split; [apply ahead_base; assumption|]. intros f M. rewrite mem_cons in M. apply orb_true_iff in M.
  destruct M as [M|M]; [destruct f; try discriminate; reflexivity|]. apply ahead_holds; auto.
Qed.

Inductive Quiet (st : hstate) : hstate -> Prop :=
| q_refl : Quiet st st
| q_peek st1 g : Quiet st st1 -> Quiet st (hpeek misslash TEOF g st1)
| q_ahead st1 g name : Quiet st st1 -> hk st1 = 1 -> tk (hi st1) = TIdent name -> Quiet st (ahead g name st1).
Lemma q_trans a b c : Quiet a b -> Quiet b c -> Quiet a c.
Proof. induction 2; [assumption| |]; econstructor; eassumption. Qed.

Lemma quiet_sat l st st' : Quiet st st' -> sat l st -> sat (tr_quiet l) st'.
Proof.
  intros Q HS0. apply close_sat in HS0. destruct HS0 as (p & B & H). exists p. induction Q as [|st1 g Q IH|st1 g name Q IH K T].
  - split; [exact B|]. intros f M. unfold tr_quiet in M. rewrite mem_select in M.
    destruct f; try discriminate M; try exact (H _ M).
    + intros _. exact (H _ M).
    + apply andb_true_iff in M. exact (H _ (proj2 M)).
    + apply andb_true_iff in M. exact (H _ (proj2 M)).
    + intros _ BO. specialize (H _ M). cbn [holds] in H. congruence.
  - destruct IH as (B1 & H1). split; [apply peek_base; exact B1|].
    assert (S1 : sat (tr_quiet l) st1) by (exists p; auto).
    intros f M.
    assert (P : forall f, mem f (tr_peek (tr_quiet l)) = true -> holds f p (hpeek misslash TEOF g st1)).
    { apply (peek_sat _ g) in S1. destruct S1 as (p1 & B2 & H2).
      assert (p1 = p).
      { destruct (peek_base g p st1 B1) as (B3 & _). destruct B2 as (C2 & _), B3 as (C3 & _).
        unfold consumed in C2, C3. destruct (hk _) as [|[|[|?]]]; [congruence|congruence|destruct C2, C3; congruence|destruct C2]. }
      subst p1. exact H2. }
    apply P. unfold tr_peek. rewrite mem_select.
    assert (C1 : forall x, mem x (tr_quiet l) = true -> mem x (close (tr_quiet l)) = true).
    { intros x X. unfold close. rewrite mem_select, X. reflexivity. }
    assert (M' := M). unfold tr_quiet in M'. rewrite mem_select in M'.
    assert (SEL : forall x, mem x (tr_quiet l) = match x with KZ | HT => false | OW => mem OC (close l)
       | R1 => mem R (close l) && mem R1 (close l) | D1 => mem D0 (close l) && mem D1 (close l) | SZ => mem RC (close l) | _ => mem x (close l) end)
      by (intros x; unfold tr_quiet; rewrite mem_select; reflexivity).
    destruct f; try discriminate M'; try reflexivity; try (apply C1; exact M).
    + rewrite (C1 HF M). apply orb_true_r.
    + apply C1. rewrite SEL. exact M'.
    + apply andb_true_iff. split; apply C1; [rewrite SEL; apply andb_true_iff in M'; apply M'|exact M].
    + apply andb_true_iff. split; apply C1; [rewrite SEL; apply andb_true_iff in M'; apply M'|exact M].
    + apply C1. rewrite SEL. exact M'.
  - destruct IH as (B1 & H1). split; [apply ahead_base; assumption|]. intros f M. apply ahead_holds; auto.
Qed.

Lemma expect_sat l st : sat l st -> sat (tr_expect l) (HS (hk st) true (hpast st) (hbad st) (hi st)).
Proof.
  intros HS0. apply close_sat in HS0. destruct HS0 as (p & B & H). exists p. split; [exact B|]. intros f M.
  unfold tr_expect in M. rewrite mem_select in M.
  destruct f; try discriminate M; cbn [holds hk he hi hbad]; try exact (H _ M); auto.
  - intros L _. exact (H _ M L).
  - intros Z. specialize (H _ M). cbn in H. lia.
  - intros L. specialize (H _ M). cbn in H. lia.
Qed.

Definition is_paren (t : token) : bool := match t with TPunctuator ParenClose => true | _ => false end.
Definition is_literal (t : token) : bool :=
  match t with TNumeric _ | TString _ | TRegExp _ _ | TTemplate TF_NoSubstitution _ _ => true | _ => false end.
(** Whether a slash after the token [t] is read as it should be. *)
Definition pop_d0 (l : list fact) (t : token) : bool :=
  let m f := mem f (close l) in
  match t with
  | TIdent name => negb (plain name)
  | _ => if is_paren t then m CL else if is_literal t then m W else true
  end.

Lemma comma_token t : IsComma = effect_of t -> t = TPunctuator Comma.
Proof. destruct t as [[]| | | | |name| | |[]|]; try discriminate; try reflexivity. cbn [effect_of]. destruct (SpecGrammar.word_in _ name); discriminate. Qed.
Lemma semi_token t : IsSemi = effect_of t -> t = TPunctuator Semicolon.
Proof. destruct t as [[]| | | | |name| | |[]|]; try discriminate; try reflexivity. cbn [effect_of]. destruct (SpecGrammar.word_in _ name); discriminate. Qed.
Lemma period_token t : IsPeriod = effect_of t -> t = TPunctuator Period.
Proof. destruct t as [[]| | | | |name| | |[]|]; try discriminate; try reflexivity. cbn [effect_of]. destruct (SpecGrammar.word_in _ name); discriminate. Qed.
Lemma if_token t p : IsIf = effect_of t -> mentions_if (t :: p) = true.
Proof.
  destruct t as [[]| | | | |name| | |[]|]; try discriminate. unfold mentions_if. cbn [effect_of existsb]. destruct (SpecGrammar.word_in _ name); [reflexivity|discriminate].
Qed.
Lemma step_mentions t p : mentions_if p = true -> mentions_if (t :: p) = true.
Proof. intros H. unfold mentions_if in *. cbn [existsb]. rewrite H. apply orb_true_r. Qed.
Lemma step_square e t p m : e = effect_of t ->
  match e with OpensSquare => true | Plain | IsComma | IsDots | IsPeriod | IsSemi | IsIf => m | _ => false end = true ->
  (m = true -> exists s, open_brackets p = Square :: s) -> exists s, open_brackets (t :: p) = Square :: s.
Proof.
  intros -> M H. cbn [open_brackets fold_right]. fold (open_brackets p). destruct t as [[]| | | | | | | |[]|]; cbn [effect_of] in M; try match type of M with context [SpecGrammar.word_in ?a ?b] => destruct (SpecGrammar.word_in a b) end; try discriminate M;
    try (destruct (H M) as (s & ->)); cbn; eauto.
Qed.
Lemma step_round e t p m : e = effect_of t ->
  match e with OpensRound => true | Plain | IsComma | IsDots | IsPeriod | IsSemi | IsIf => m | _ => false end = true ->
  (m = true -> exists d s, open_brackets p = Round d :: s) -> exists d s, open_brackets (t :: p) = Round d :: s.
Proof.
  intros -> M H. cbn [open_brackets fold_right]. fold (open_brackets p). destruct t as [[]| | | | | | | |[]|]; cbn [effect_of] in M; try match type of M with context [SpecGrammar.word_in ?a ?b] => destruct (SpecGrammar.word_in a b) end; try discriminate M;
    try (destruct (H M) as (d & s & ->)); cbn; eauto.
Qed.
Lemma step_unsettled t p (sq ro uc : bool) :
  match effect_of t with OpensSquare => true | Plain | IsPeriod | IsSemi | IsIf => uc | IsDots => ro || sq | IsComma => sq | _ => false end = true ->
  (sq = true -> exists s, open_brackets p = Square :: s) -> (ro = true -> exists d s, open_brackets p = Round d :: s) ->
  (uc = true -> comma_settles p = false) -> comma_settles (t :: p) = false.
Proof.
  intros M HS HR HU. unfold comma_settles in *. cbn [open_brackets fold_right]. fold (open_brackets p).
  destruct t as [[]| | | | | | | |[]|]; cbn [effect_of bracket_step] in *; try match type of M with context [SpecGrammar.word_in ?a ?b] => destruct (SpecGrammar.word_in a b) end; try discriminate M; try reflexivity; try (exact (HU M)).
  - destruct (HS M) as (s & ->). reflexivity.
  - apply orb_true_iff in M. destruct M as [M|M]; [destruct (HR M) as (d & s & ->)|destruct (HS M) as (s & ->)]; reflexivity.
Qed.

Lemma pop_sat l st (d0 ident oc rc : bool) (e : effect) :
  let t := tk (hi st) in
  sat l st -> 1 <= hk st ->
  (is_regex t = true -> mem R1 (close l) = true) -> (slash t = true -> mem D1 (close l) = true) ->
  (is_ident t = true -> ident = true) -> (d0 = true -> pop_d0 l t = true) ->
  (forall p, oc = true -> wants_operand (t :: p) = false) ->
  (forall p, (mem PD (close l) = true -> after_period p = true) -> rc = true -> before_operand (t :: p) = false) ->
  (e = effect_of t \/ e = Unknown) ->
  sat (tr_pop d0 ident oc rc e l) (HS (pred (hk st)) (he st) (hpast st) (hbad st) (tl (hi st))).
Proof.
  intros t HS0 L HR HD HI H0 HO HC HE. apply close_sat in HS0. destruct HS0 as (p & B & H). exists (t :: p).
  assert (G : hbad st = false).
  { destruct (is_regex t) eqn:X; [exact (H _ (HR eq_refl) L X)|]. destruct (slash t) eqn:Y; [exact (H _ (HD eq_refl) L Y)|].
    apply (base_fine p st B); fold t; congruence. }
  split.
  { split; [|cbn; rewrite G; discriminate]. destruct B as (C & _). unfold consumed in *. cbn [hk hpast hi].
    destruct (hk st) as [|[|[|?]]]; [lia|exact C|apply C|destruct C]. }
  assert (KK := base_k p st B). assert (K2I := base_k2 p st B). fold t in K2I.
  assert (NK : is_ident t = false -> hk st = 1) by (intros E; destruct (Nat.eq_dec (hk st) 2) as [E2|]; [rewrite (K2I E2) in E; discriminate|lia]).
  assert (NKI : ident = false -> hk st = 1) by (intros E; apply NK; destruct (is_ident t); [rewrite HI in E by reflexivity; discriminate|reflexivity]).
  intros f M. unfold tr_pop in M. rewrite mem_select in M.
  assert (W0 : d0 = true -> he st = true -> pred (hk st) = 0 -> after_operand (t :: p) = false).
  { intros D E Z. specialize (H0 D). unfold pop_d0 in H0. destruct t as [[]| | | | | | | |[]|] eqn:ET; cbn [is_paren is_literal after_operand] in H0 |- *; try reflexivity.
    - exact (H _ H0 L E).
    - exact (H _ H0 L E).
    - apply negb_true_iff in H0. exact H0.
    - exact (H _ H0 L E).
    - exact (H _ H0 L E).
    - exact (H _ H0 L E). }
  assert (HC1 : rc || (match e with IsComma => mem UC (close l) | IsSemi => mem MI (close l) | _ => false end) = true -> before_operand (t :: p) = false).
  { intros X. apply orb_true_iff in X. destruct X as [X|X]; [exact (HC p (H PD) X)|]. destruct e; try discriminate X;
    (destruct HE as [HE|HE]; [|discriminate HE]); [apply comma_token in HE; rewrite HE; exact (H _ X)|].
    apply semi_token in HE. rewrite HE. cbn [before_operand]. specialize (H _ X). cbn [holds] in H. rewrite H. reflexivity. }
  destruct f; try discriminate M; cbn [holds hk he hi hbad].
  - apply negb_true_iff in M. rewrite (NKI M). reflexivity.
  - exact (H _ M).
  - exact (H _ M).
  - apply HO, M.
  - apply HC1, M.
  - intros L'. apply orb_true_iff in M. destruct M as [M|M]; [apply HO, M|]. apply negb_true_iff in M. rewrite (NKI M) in L'. cbn in L'. lia.
  - intros L' E. repeat (apply orb_true_iff in M; destruct M as [M|M]).
    + apply HO, M.
    + apply negb_true_iff in M. rewrite (NKI M) in L'. cbn in L'. lia.
    + specialize (H _ M). cbn in H. congruence.
  - intros Z P. apply orb_true_iff in M. destruct M as [M|M]; [rewrite (HC1 M) in P; discriminate|exact (H _ M)].
  - intros _ _. exact G.
  - intros Z E. repeat (apply orb_true_iff in M; destruct M as [M|M]).
    + auto.
    + specialize (H _ M). cbn in H. congruence.
    + apply andb_true_iff in M. destruct M as (_ & M). specialize (H _ M). cbn in H. rewrite H in Z. discriminate.
  - intros _ _. exact G.
  - intros L' E. repeat (apply orb_true_iff in M; destruct M as [M|M]).
    + apply negb_true_iff in M. rewrite (NKI M) in L'. cbn in L'. lia.
    + specialize (H _ M). cbn in H. congruence.
    + assert (E2 : hk st = 2) by lia. specialize (K2I E2). destruct t eqn:ET; try discriminate K2I. cbn [after_operand]. exact (H _ M L E).
  - destruct HE as [->| ->]; [|discriminate M]. exact (step_square _ t p _ eq_refl M (H SQ)).
  - destruct HE as [->| ->]; [|discriminate M]. exact (step_round _ t p _ eq_refl M (H RO)).
  - destruct HE as [->| ->]; [|discriminate M]. apply (step_unsettled t p (mem SQ (close l)) (mem RO (close l)) (mem UC (close l))); [exact M| | |]; intros X; exact (H _ X).
  - destruct e; try discriminate M. destruct HE as [HE|HE]; [|discriminate HE]. apply period_token in HE. rewrite HE. reflexivity.
  - apply orb_true_iff in M. destruct M as [M|M]; [apply step_mentions; exact (H _ M)|]. destruct e; try discriminate M.
    destruct HE as [HE|HE]; [|discriminate HE]. apply if_token, HE.
  - apply orb_true_iff in M. destruct M as [M|M]; [right; apply HC1, M|left]. destruct e; try discriminate M.
    destruct HE as [HE|HE]; [|discriminate HE]. apply semi_token in HE. rewrite HE. reflexivity.
  - intros S _. cbn [is_semi] in S. rewrite NK; [reflexivity|]. destruct t; try discriminate S; reflexivity.
Qed.

Definition pop_list (l : list fact) (t : token) : list fact :=
  tr_pop (pop_d0 l t) (is_ident t) (negb (wants_operand [t])) (negb (before_operand [t]) || (is_ident t && mem PD (close l))) (effect_of t) l.

Lemma pop_any l st : let t := tk (hi st) in
  sat l st -> 1 <= hk st ->
  (is_regex t = true -> mem R1 (close l) = true) -> (slash t = true -> mem D1 (close l) = true) ->
  sat (pop_list l t) (HS (pred (hk st)) (he st) (hpast st) (hbad st) (tl (hi st))).
Proof.
  intros t S L HR HD. apply pop_sat; auto; fold t.
  - intros p O. apply negb_true_iff in O. destruct t; exact O.
  - intros p HP O. apply orb_true_iff in O. destruct O as [O|O].
    + apply negb_true_iff in O. destruct t as [[]| | | | | | | | |]; try exact O; try discriminate O.
      cbn [before_operand after_period negb] in O |- *. rewrite andb_true_r in O. rewrite O. reflexivity.
    + apply andb_true_iff in O. destruct O as (O1 & O2). specialize (HP O2). destruct t; try discriminate O1. cbn [before_operand]. rewrite HP. apply andb_false_r.
Qed.

Definition lit_pop (l : list fact) : list fact := tr_pop (mem W (close l)) false true true Plain l.
Definition other_pop (l : list fact) : list fact := tr_pop true false true true Unknown l.
Definition is_other (t : token) : bool :=
  match t with TTemplate TF_NoSubstitution _ _ => false | TTemplate _ _ _ | TEOF => true | _ => false end.
Lemma pop_lit l t : is_literal t = true -> pop_list l t = lit_pop l.
Proof. unfold pop_list, lit_pop, pop_d0. destruct t as [| | | | | | | |[]|]; try discriminate; intros _; cbn [is_paren is_literal is_ident wants_operand before_operand negb andb orb]; reflexivity. Qed.
Lemma pop_other l t st : is_other t = true -> sat (pop_list l t) st -> sat (other_pop l) st.
Proof.
  intros O (p & B & S). exists p. split; [exact B|]. intros f M. apply S. revert M. unfold pop_list, other_pop, tr_pop, pop_d0. rewrite !mem_select.
  destruct t as [| | | | | | | |[]|]; try discriminate O; destruct f; cbn [is_paren is_literal is_ident wants_operand before_operand negb andb orb]; auto; discriminate.
Qed.

(** ** Rules *)
Definition swp {A : Set} (n : nat) (p : prog A) (g : grammar_flags) (st : hstate) (Q : A -> hstate -> Prop) : Prop :=
  match hrun n p g st with HOk a st' => Q a st' | _ => True end.

Lemma fr_peek g st : Fr st -> Fr (hpeek misslash TEOF g st).
Proof.
  intros (B & Y). unfold hpeek. destruct (hk st =? 0); [|split; assumption]. split; cbn [hbad hpast].
  - rewrite B. unfold misslash. rewrite Y. reflexivity.
  - unfold mentions_yield in *. cbn [existsb]. rewrite Y. apply orb_true_r.
Qed.
Lemma fr_act {A : Set} (a : act A) g st : Fr st -> match hact misslash TEOF a g st with HOk _ st' => Fr st' | _ => True end.
Proof.
  intros F. assert (P := fr_peek g st F). destruct a; cbn [hact]; try exact P; try exact F.
  set (st1 := hpeek misslash TEOF g st) in *. clearbody st1. destruct (hk _ <? 2); [|exact P]. destruct (tok TEOF (hi st)); try exact P. destruct P as (B & Y). split; cbn [hbad hpast].
  - rewrite B. unfold misslash. rewrite Y. reflexivity.
  - unfold mentions_yield in *. cbn [existsb]. rewrite Y. apply orb_true_r.
Qed.
Lemma fr_interp call (HC : forall f g st, Fr st -> match call f g st with HOk _ st' => Fr st' | _ => True end) :
  forall (A : Set) (p : prog A) g st, Fr st -> match hinterp misslash TEOF call p g st with HOk _ st' => Fr st' | _ => True end.
Proof.
  intros A p. induction p as [A a|A B p IHp k IHk|A a|A x|A w|A f v p IHp|f]; intros g st F; cbn [hinterp]; auto.
  - specialize (IHp g st F). destruct (hinterp misslash TEOF call p g st); auto. apply IHk. exact IHp.
  - apply fr_act. exact F.
  - apply IHp. exact F.
  - apply HC. exact F.
Qed.
Lemma fr_exec n : forall f g st, Fr st -> match hexec misslash TEOF n f g st with HOk _ st' => Fr st' | _ => True end.
Proof. induction n as [|n IH]; intros f g st F; [exact I|]. cbn [hexec]. apply fr_interp; assumption. Qed.
Lemma fr_wp {A : Set} n (p : prog A) g st (Q : _ -> _ -> Prop) : Fr st -> (forall a st', Fr st' -> Q a st') -> swp n p g st Q.
Proof. intros F H. assert (X := fr_interp _ (fr_exec n) A p g st F). unfold swp. destruct (hrun n p g st); auto. Qed.

Section Rules.
Context (n : nat) (g : grammar_flags) (l : list fact) (st : hstate).

Lemma s_ret {A : Set} (a : A) (Q : _ -> _ -> Prop) : Q a st -> swp n (Ret a) g st Q.
Proof. exact (fun H => H). Qed.
Lemma s_bind {A B : Set} (p : prog A) (k : A -> prog B) Q :
  swp n p g st (fun a st' => swp n (k a) g st' Q) -> swp n (Bind p k) g st Q.
Proof. unfold swp. cbn [hinterp]. destruct (hrun n p g st); exact (fun H => H). Qed.
Lemma s_with {A : Set} f v (p : prog A) Q : swp n p (set_flag g f v) st Q -> swp n (With f v p) g st Q.
Proof. exact (fun H => H). Qed.
Lemma s_flags (Q : _ -> _ -> Prop) : Q g st -> swp n get_flags g st Q.
Proof. exact (fun H => H). Qed.

Hypothesis HS0 : sat l st.

Lemma s_expect (Q : _ -> _ -> Prop) : (forall st', sat (tr_expect l) st' -> Q tt st') -> swp n expect_expression g st Q.
Proof. intros H. apply H. apply expect_sat. exact HS0. Qed.

Lemma peek_hi : hi (hpeek misslash TEOF g st) = hi st.
Proof. unfold hpeek. destruct (hk st =? 0); reflexivity. Qed.

Lemma s_token (Q : _ -> _ -> Prop) : (forall st', sat (tr_peek l) st' -> Quiet st st' -> Q (tk (hi st')) st') -> swp n token_ g st Q.
Proof.
  intros H. unfold swp, token_. cbn [hinterp hact]. fold (tk (hi st)). rewrite <- peek_hi. apply H; [apply peek_sat; exact HS0|].
  constructor. constructor.
Qed.
Lemma s_noline (Q : _ -> _ -> Prop) : (forall b st', sat (tr_peek l) st' -> Quiet st st' -> Q b st') -> swp n no_line_terminator g st Q.
Proof. intros H. unfold swp, no_line_terminator. cbn [hinterp hact]. apply H; [apply peek_sat; exact HS0|]. constructor. constructor. Qed.
Lemma s_look (Q : _ -> _ -> Prop) :
  (forall a st', sat (K2 :: tr_peek l) st' -> Quiet st st' -> Q (Some a) st') ->
  (forall st', sat (NI :: tr_peek l) st' -> Quiet st st' -> Q None st') -> swp n ident_lookahead g st Q.
Proof.
  intros H1 H2. unfold swp, ident_lookahead. cbn [hinterp hact]. assert (P := peek_sat l g st HS0).
  assert (E := peek_hi). assert (HQ : Quiet st (hpeek misslash TEOF g st)) by (constructor; constructor).
  set (st1 := hpeek misslash TEOF g st) in *. clearbody st1. rewrite <- E.
  assert (KP : 1 <= hk st1) by (destruct P as (p & _ & P); exact (P KP eq_refl)).
  destruct (Nat.ltb_spec (hk st1) 2) as [L|L].
  - assert (K : hk st1 = 1) by lia.
    assert (HN : is_ident (tk (hi st1)) = false -> sat (NI :: tr_peek l) st1).
    { intros X. destruct P as (p & B & P). exists p. split; [exact B|]. intros f M. rewrite mem_cons in M. apply orb_true_iff in M.
      destruct M as [M|M]; [destruct f; try discriminate; exact X|auto]. }
    destruct (tk (hi st1)) eqn:T; try (apply H2; [apply HN; reflexivity|exact HQ]).
    apply H1; [exact (ahead_sat _ g name st1 P K T)|exact (q_ahead _ st1 g name HQ K T)].
  - assert (K : hk st1 = 2) by (destruct P as (p & B & _); assert (X := base_k p st1 B); lia). apply H1; [|exact HQ].
    destruct P as (p & B & P). exists p. split; [exact B|]. intros f M. rewrite mem_cons in M. apply orb_true_iff in M.
    destruct M as [M|M]; [destruct f; try discriminate; exact K|auto].
Qed.

Definition allowed (l1 : list fact) (t : token) : Prop :=
  (is_regex t = true -> mem R1 (close l1) = true) /\ (slash t = true -> mem D1 (close l1) = true).

Lemma s_take {A : Set} (same : token -> bool) (payload : token -> option A) why (Q : _ -> _ -> Prop) :
  (forall t, same t = true -> allowed (tr_peek l) t) ->
  (forall st1 st' t a, same t = true -> payload t = Some a -> tk (hi st1) = t -> sat (tr_peek l) st1 -> sat (pop_list (tr_peek l) t) st' ->
     hpast st' = hpast st1 -> hbad st' = hbad st1 -> Q (Some a) st') ->
  (forall st', sat (tr_peek l) st' -> Quiet st st' -> Q None st') ->
  swp n (take_if same payload why) g st Q.
Proof.
  intros HA H1 H2. unfold take_if. apply s_bind, s_token. intros st' P HQ. destruct (same (tk (hi st'))) eqn:E; [|apply H2; assumption].
  unfold swp, pop_. cbn [hinterp hact]. destruct (payload (tk (hi st'))) eqn:Py; [|exact I]. cbn [hinterp].
  destruct (HA _ E) as (A1 & A2). apply (H1 st' _ _ _ E Py); [reflexivity|exact P| |reflexivity|reflexivity].
  apply pop_any; [exact P| |exact A1|exact A2]. destruct P as (p & _ & P). exact (P KP eq_refl).
Qed.

Definition punc_list p := pop_list (tr_peek l) (TPunctuator p).
Lemma s_punc p (Q : _ -> _ -> Prop) : slash (TPunctuator p) = false ->
  (forall st', sat (punc_list p) st' -> Q (Some tt) st') ->
  (forall st', sat (tr_peek l) st' -> Quiet st st' -> Q None st') -> swp n (punc p) g st Q.
Proof.
  intros NS H1 H2. apply s_take; [| |exact H2].
  - intros t E. destruct t; try discriminate. cbn in E. apply peqb_eq in E. subst. split; [discriminate|congruence].
  - intros st1 st' t [] E _ _ _ HP _ _. destruct t; try discriminate. cbn in E. apply peqb_eq in E. subst. apply H1. exact HP.
Qed.
Definition lit_list := lit_pop (tr_peek l).
Lemma s_string (Q : _ -> _ -> Prop) : (forall st', sat lit_list st' -> Q (Some tt) st') ->
  (forall st', sat (tr_peek l) st' -> Quiet st st' -> Q None st') -> swp n string_ g st Q.
Proof.
  intros H1 H2. apply s_take; [| |exact H2].
  - intros t E. destruct t; try discriminate. split; discriminate.
  - intros st1 st' t [] E _ _ _ HP _ _. rewrite pop_lit in HP by (destruct t; try discriminate; reflexivity). apply H1. exact HP.
Qed.
Lemma s_numeric (Q : _ -> _ -> Prop) : (forall st', sat lit_list st' -> Q (Some tt) st') ->
  (forall st', sat (tr_peek l) st' -> Quiet st st' -> Q None st') -> swp n numeric g st Q.
Proof.
  intros H1 H2. apply s_take; [| |exact H2].
  - intros t E. destruct t; try discriminate. split; discriminate.
  - intros st1 st' t [] E _ _ _ HP _ _. rewrite pop_lit in HP by (destruct t; try discriminate; reflexivity). apply H1. exact HP.
Qed.
Lemma s_regex (Q : _ -> _ -> Prop) : mem R1 (close (tr_peek l)) = true -> (forall st', sat lit_list st' -> Q (Some tt) st') ->
  (forall st', sat (tr_peek l) st' -> Quiet st st' -> Q None st') -> swp n regex g st Q.
Proof.
  intros HR H1 H2. apply s_take; [| |exact H2].
  - intros t E. destruct t; try discriminate. split; [intros _; exact HR|discriminate].
  - intros st1 st' t [] E _ _ _ HP _ _. rewrite pop_lit in HP by (destruct t; try discriminate; reflexivity). apply H1. exact HP.
Qed.
Lemma s_eof (Q : _ -> _ -> Prop) : (forall st', hbad st' = false -> sat (other_pop (tr_peek l)) st' -> Q (Some tt) st') ->
  (forall st', sat (tr_peek l) st' -> Quiet st st' -> Q None st') -> swp n eof g st Q.
Proof.
  intros H1 H2. apply s_take; [| |exact H2].
  - intros t E. destruct t; try discriminate. split; discriminate.
  - intros st1 st' t [] E _ ET (p & B & _) HP _ HB. destruct t; try discriminate. apply pop_other in HP; try reflexivity. apply H1; [|exact HP].
    rewrite HB. apply (base_fine p st1 B); rewrite ET; discriminate.
Qed.
Lemma s_template (Q : _ -> _ -> Prop) : (forall st', sat (other_pop (tr_peek l)) st' -> Q (Some TF_Head) st') ->
  (forall st', sat lit_list st' -> Q (Some TF_NoSubstitution) st') ->
  (forall st', sat (tr_peek l) st' -> Quiet st st' -> Q None st') -> swp n template g st Q.
Proof.
  intros H1 H1' H2. apply s_take; [| |exact H2].
  - intros t E. destruct t; try discriminate. split; discriminate.
  - intros st1 st' t f E P _ _ HP _ _. destruct t as [| | | | | | | |[]|]; try discriminate; injection P as <-;
    [rewrite pop_lit in HP by reflexivity|apply pop_other in HP; try reflexivity]; [apply H1'|apply H1]; exact HP.
Qed.
Lemma s_template_tail (Q : _ -> _ -> Prop) : (forall st', sat (other_pop (tr_peek l)) st' -> Q (Some TF_Tail) st') ->
  (forall st', sat (other_pop (tr_peek l)) st' -> Q (Some TF_Middle) st') ->
  (forall st', sat (tr_peek l) st' -> Quiet st st' -> Q None st') -> swp n template_tail g st Q.
Proof.
  intros H1 H1' H2. apply s_take; [| |exact H2].
  - intros t E. destruct t; try discriminate. split; discriminate.
  - intros st1 st' t f E P _ _ HP _ _. destruct t as [| | | | | | | |[]|]; try discriminate; injection P as <-;
    apply pop_other in HP; try reflexivity; [apply H1'|apply H1]; exact HP.
Qed.
End Rules.

(** Identifiers; [known]: whether the name is one after which a slash is no division sign;
    [rc]: whether it is no word for an operator; [mi]: whether it is [if] or [export]. *)
Definition ident_pop (known rc mi : bool) (l : list fact) : list fact :=
  if mem NI (close l) then facts else tr_pop known true true (rc || mem PD (close l)) (if mi then IsIf else Plain) l.

Lemma sat_false l l' st : sat l st -> mem NI (close l) = true -> is_ident (tk (hi st)) = true -> forall st', sat l' st'.
Proof.
  intros H M I0. apply close_sat in H. destruct H as (p & _ & H). specialize (H _ M). cbn [holds] in H. congruence.
Qed.
Lemma sat_sub l l' st : (forall f, mem f l' = true -> mem f l = true) -> sat l st -> sat l' st.
Proof. intros H (p & B & S). exists p. split; auto. Qed.
Lemma tr_pop_more (d d' c c' mi : bool) x l f : (d = true -> d' = true) -> (c = true -> c' = true) -> (x = Plain \/ x = IsIf) -> (mi = true -> x = IsIf) ->
  mem f (tr_pop d true true c (if mi then IsIf else Plain) l) = true -> mem f (tr_pop d' true true c' x l) = true.
Proof.
  intros HD HC HX HM. unfold tr_pop. rewrite !mem_select. intros M.
  assert (HC2 : c || match (if mi then IsIf else Plain) with IsComma => mem UC (close l) | IsSemi => mem MI (close l) | _ => false end = true -> c' = true).
  { intros X. apply HC. destruct c; [reflexivity|]. destruct mi; exact X. }
  assert (HD2 : forall b, d || b = true -> d' || b = true) by (intros b X; destruct b; [apply orb_true_r|]; rewrite orb_false_r in *; auto).
  destruct HX as [-> | ->].
  - assert (mi = false) by (destruct mi; [discriminate (HM eq_refl)|reflexivity]). subst mi. rewrite orb_false_r in *.
    destruct f; auto.
    + destruct c; [rewrite HC by reflexivity; reflexivity|destruct c'; [reflexivity|exact M]].
    + rewrite <- !orb_assoc in *. apply HD2, M.
    + rewrite orb_false_r in *. auto.
  - rewrite orb_false_r in *. destruct mi; rewrite ?orb_false_r in *; destruct f; auto; try (rewrite <- !orb_assoc in *; apply HD2, M); try (apply orb_true_r);
    try (destruct c; [rewrite HC by reflexivity; reflexivity|destruct c'; [reflexivity|exact M]]); try (rewrite M; reflexivity).
Qed.

Section Idents.
Context (n : nat) (g : grammar_flags) (l : list fact) (st : hstate).
Hypothesis HS0 : sat l st.

Lemma s_ident (known rc mi : bool) (same : token -> bool) (payload : token -> option unit) why (Q : _ -> _ -> Prop) :
  (forall t, same t = true -> exists name, t = TIdent name /\ (known = true -> plain name = false) /\
     (rc = true -> operand_word name = false) /\ (mi = true -> SpecGrammar.word_in ["if"; "export"]%string name = true)) ->
  (forall st', sat (ident_pop known rc mi (tr_peek l)) st' -> Q (Some tt) st') ->
  (forall st', sat (tr_peek l) st' -> Quiet st st' -> Q None st') -> swp n (take_if same payload why) g st Q.
Proof.
  intros HN H1 H2. apply s_take with (l := l); [exact HS0| | |exact H2].
  - intros t E. destruct (HN t E) as (name & -> & _). split; discriminate.
  - intros st1 st' t [] E _ ET P HP _ _. destruct (HN t E) as (name & -> & NP & NO & NI0). apply H1. unfold ident_pop.
    destruct (mem NI (close (tr_peek l))) eqn:M.
    + eapply sat_false; [exact P|exact M|rewrite ET; reflexivity].
    + eapply sat_sub; [|exact HP]. intros f F. unfold pop_list. cbn [pop_d0 is_ident wants_operand before_operand after_period negb].
      eapply tr_pop_more; [| | | |exact F].
      * intros K. rewrite (NP K). reflexivity.
      * intros K. apply orb_true_iff in K. destruct K as [K|K]; [rewrite (NO K); reflexivity|rewrite K; apply orb_true_r].
      * cbn [effect_of]. destruct (SpecGrammar.word_in _ name); auto.
      * intros K. cbn [effect_of]. rewrite (NI0 K). reflexivity.
Qed.
Lemma s_keyword k (Q : _ -> _ -> Prop) :
  (forall st', sat (ident_pop (negb (plain (s2b k))) (negb (operand_word (s2b k))) (SpecGrammar.word_in ["if"; "export"]%string (s2b k)) (tr_peek l)) st' -> Q (Some tt) st') ->
  (forall st', sat (tr_peek l) st' -> Quiet st st' -> Q None st') -> swp n (keyword k) g st Q.
Proof.
  apply s_ident. intros t E. destruct t; try discriminate. cbn in E. apply ByteFacts.beqb_eq in E. subst. eexists. split; [reflexivity|].
  split; [apply negb_true_iff|]. split; [apply negb_true_iff|auto].
Qed.
Lemma s_identifier (Q : _ -> _ -> Prop) :
  (forall st', sat (ident_pop false false false (tr_peek l)) st' -> Q (Some tt) st') ->
  (forall st', sat (tr_peek l) st' -> Quiet st st' -> Q None st') -> swp n identifier g st Q.
Proof. apply s_ident. intros t E. destruct t; try discriminate. eexists. split; [reflexivity|]. repeat split; discriminate. Qed.
Lemma s_binding (Q : _ -> _ -> Prop) :
  (forall st', sat (ident_pop false true false (tr_peek l)) st' -> Q (Some tt) st') ->
  (forall st', sat (tr_peek l) st' -> Quiet st st' -> Q None st') -> swp n binding_identifier g st Q.
Proof.
  intros H1 H2. unfold binding_identifier. apply s_bind, s_flags, s_ident with (known := false) (rc := true) (mi := false); auto.
  intros t E. destruct t; try discriminate. eexists. split; [reflexivity|]. split; [discriminate|]. split; [|discriminate].
  intros _. apply (binding_not_operand g). exact E.
Qed.
Lemma s_yield (Q : _ -> _ -> Prop) :
  (forall st', Fr st' -> Q (Some tt) st') ->
  (forall st', sat (tr_peek l) st' -> Quiet st st' -> Q None st') -> swp n (keyword "yield") g st Q.
Proof.
  intros H1 H2. apply s_take with (l := l); [exact HS0| | |exact H2].
  - intros t E. destruct t; try discriminate. split; discriminate.
  - intros st1 st' t [] E _ ET P _ HP HB. destruct t; try discriminate. cbn in E. apply ByteFacts.beqb_eq in E. subst name.
    apply H1. destruct P as (p & B & P). split.
    + rewrite HB. apply (base_fine p st1 B); rewrite ET; discriminate.
    + rewrite HP. assert (L : 1 <= hk st1) by exact (P KP eq_refl). destruct B as (C & _). unfold consumed in C.
      destruct (hk st1) as [|[|[|?]]]; [lia|rewrite C|destruct C as (C & _); rewrite C|destruct C]; rewrite ET; unfold mentions_yield; cbn [existsb].
      * reflexivity.
      * replace (beqb (s2b "yield") (s2b "yield")) with true by reflexivity. apply orb_true_r.
Qed.

(** Taking an operator after looking at it. *)
Lemma s_pop_reify r (Q : _ -> _ -> Prop) : reify_of (tk (hi st)) = Some r -> mem KP (close l) = true -> mem D1 (close l) = true ->
  (forall t st', sat [KZ] st' -> Q t st') -> swp n pop_ g st Q.
Proof.
  intros E K D H. unfold swp, pop_. cbn [hinterp hact]. apply H.
  eapply sat_sub; [|apply (pop_sat l st false false false false Unknown HS0); auto; try discriminate].
  - intros f F. unfold tr_pop. rewrite mem_select. destruct f; try discriminate. reflexivity.
  - destruct (close_sat l st HS0) as (p & _ & X). exact (X _ K).
  - destruct (tk (hi st)); discriminate.
  - destruct (tk (hi st)); discriminate.
Qed.
Lemma s_pop_binary b r (Q : _ -> _ -> Prop) : binary_precedence b (tk (hi st)) = Some r -> mem KP (close l) = true -> mem D1 (close l) = true ->
  (forall t st', sat [OW; R1; D1] st' -> Q t st') -> swp n pop_ g st Q.
Proof.
  intros E K D H. unfold swp, pop_. cbn [hinterp hact]. apply H.
  assert (L : 1 <= hk st) by (destruct (close_sat l st HS0) as (p & _ & X); exact (X _ K)).
  destruct (is_ident (tk (hi st))) eqn:T.
  - eapply sat_sub; [|apply (pop_sat l st false true true false Unknown HS0 L); auto; try discriminate].
    + intros f F. unfold tr_pop. rewrite mem_select. destruct f; try discriminate; reflexivity.
    + destruct (tk (hi st)); discriminate.
    + intros p _. destruct (tk (hi st)); try discriminate. reflexivity.
  - eapply sat_sub; [|apply (pop_sat l st false false false false Unknown HS0 L); auto; try discriminate].
    + intros f F. unfold tr_pop. rewrite mem_select. destruct f; try discriminate; reflexivity.
    + destruct (tk (hi st)); discriminate.
    + rewrite T. discriminate.
Qed.
Lemma s_pop_punc p (Q : _ -> _ -> Prop) : tk (hi st) = TPunctuator p -> mem KP (close l) = true -> slash (TPunctuator p) = false ->
  (forall t st', sat (pop_list l (TPunctuator p)) st' -> Q t st') -> swp n pop_ g st Q.
Proof.
  intros E K D H. unfold swp, pop_. cbn [hinterp hact]. apply H. rewrite <- E. apply pop_any.
  - exact HS0.
  - destruct (close_sat l st HS0) as (q & _ & X). exact (X _ K).
  - rewrite E. discriminate.
  - rewrite E. congruence.
Qed.
Lemma s_semi b (Q : _ -> _ -> Prop) : subset [OC; RC] (close l) = true ->
  (forall st', sat [OC; SM; SZ] st' -> Q (Some tt) st') -> (forall st', sat [] st' -> Q None st') -> swp n (semicolon_inner b) g st Q.
Proof.
  intros SB H1 H2. assert (HC : sat [OC; RC] st) by (eapply sat_weak; eassumption). clear SB.
  unfold semicolon_inner. unfold swp. cbn [hinterp hact]. assert (P := peek_sat [OC; RC] g st HC). assert (E := peek_hi g st).
  set (st1 := hpeek misslash TEOF g st) in *. clearbody st1.
  assert (X : swp n (run_ expect_expression ;; done_) g st1 Q).
  { apply s_bind. eapply s_expect; [exact P|]. intros st' X. apply s_ret. apply H1. eapply sat_weak; [|exact X]. reflexivity. }
  assert (Y : forall b0 : bool, match hrun n (if b0 then run_ expect_expression ;; done_ else Ret None) g st1 with HOk a st' => Q a st' | _ => True end).
  { intros []; [exact X|]. cbn. apply H2. eapply sat_weak; [|exact P]. reflexivity. }
  rewrite <- E. change (snd (cur TEOF (hi st1))) with (tk (hi st1)). destruct (tk (hi st1)) as [pp| | | | | | | | |] eqn:T; try apply Y; try exact X.
  destruct pp; try apply Y; try exact X.
  cbn. apply H1. eapply sat_weak; [|eapply (pop_any (tr_peek [OC; RC]) st1 P)]; rewrite ?T; try discriminate; [reflexivity|].
  destruct P as (q & _ & P). exact (P KP eq_refl).
Qed.
End Idents.

(** ** The parse functions *)
Definition pre_operand : list fact := [W; R; R1].
Definition post_operand : list fact := [OC; RC; D0; D1; CL].
Definition post_expression : list fact := [OC; RC].
Definition post_statement : list fact := [OC; SM; SZ].
Definition pre_statement : list fact := [OC; R1].

(** Facts needed before a call. *)
Definition before (f : fn) : list fact :=
  match f with
  | F_expression | F_assignment | F_yield | F_conditional | F_fancy _ | F_exponential | F_unary | F_update | F_left_hand _ | F_primary
  | F_array_item | F_expression_statement => pre_operand
  | F_reify_arrow | F_reify_assignment => [KZ]
  | L_call_arguments => [KZ; RO]
  | L_array_literal => [KZ; RC; SQ]
  | L_template_literal => [KZ; RC]
  | F_template_literal => [W]
  | L_fancy _ _ | L_left_hand _ => post_operand
  | L_cover_parenthesized => [CL]
  | L_expression | L_variable_statement | L_for_declarators _ | L_lexical_declarators _ => post_expression
  | L_statement_list | F_statement_list_item | F_declaration | F_statement | F_script_item | F_module_item | L_script | L_module => pre_statement
  | _ => []
  end.
(** Facts after a match. *)
Definition matched (f : fn) : list fact :=
  match f with
  | F_assignment | F_reify_arrow | F_reify_assignment | F_yield | F_conditional | F_fancy _ | L_fancy _ _ | F_exponential | F_unary
  | F_delete | F_void | F_typeof | F_plus | F_minus | F_tilde | F_exclam | F_await | F_update | F_left_hand _ | L_left_hand _
  | F_call_arguments | F_meta_property | F_primary | F_array_literal | F_object_literal | F_function_expression | F_template_literal
  | L_template_literal | F_cover_parenthesized | F_block | F_function_declaration | F_initializer | F_class_heritage => post_operand
  | L_call_arguments | L_cover_parenthesized => [CL]
  | F_binding_pattern | F_object_binding_pattern | F_array_binding_pattern => [KZ; OC; RC; D0]
  | F_expression | L_expression | L_variable_statement | F_var_declarator | L_for_declarators _ | L_lexical_declarators _
  | F_lexical_declarator _ | F_class_declaration | F_class_body => post_expression
  | F_statement | F_statement_list_item | F_variable_statement
  | F_expression_statement | F_if | F_breakable | F_iteration | F_do_while | F_while | F_for | F_switch
  | F_return | F_with | F_labelled | F_throw | F_try | F_declaration | F_let_declaration | F_const_declaration
  | F_import_declaration | F_export_declaration
  | F_script_item | F_module_item => post_statement
  | _ => []
  end.
(** What is known when the function does not match: only that tokens were read ahead, some
    facts, or that this does not happen. *)
Inductive unmatched_kind := OnlyRead | Facts (l : list fact) | Never.
Definition unmatched (f : fn) : unmatched_kind :=
  match f with
  | F_declaration => Facts pre_statement
  | F_statement | F_statement_list_item | F_script_item | F_module_item | F_reify_arrow | F_reify_assignment => Facts []
  | L_script | L_module | L_expression | L_fancy _ _ | L_left_hand _ | L_call_arguments | L_array_literal | L_object_literal
  | L_template_literal | L_cover_parenthesized | L_statement_list | L_variable_statement | L_object_binding_pattern
  | L_array_binding_pattern | L_for_declarators _ | L_switch _ | L_lexical_declarators _ | L_function_params | L_class_body
  | L_import_specifiers | L_export_specifiers => Never
  | _ => OnlyRead
  end.

Definition closes (f : fn) : bool := match f with L_template_literal => true | _ => false end.
(** Facts about the open brackets stay through a call. *)
Definition carry (f : fn) (l m : list fact) : list fact :=
  filter (fun x => mem x (close l)) [MI] ++
  (if closes f then [] else filter (fun x => mem x (close l)) (if loose f then [SQ; RO] else [SQ; RO; UC])) ++ m.

Definition outcome (f : fn) (st0 : hstate) (a : option unit) (st : hstate) : Prop :=
  Fr st \/
  match a, unmatched f with
  | Some _, _ => sat (matched f) st
  | None, OnlyRead => Quiet st0 st
  | None, Facts l => sat l st
  | None, Never => False
  end.

Ltac norm H :=
  lazymatch type of H with sat ?l ?s => let l' := eval vm_compute in l in change (sat l' s) in H end.
(** A state reached by reading ahead. *)
Ltac on_quiet :=
  let st := fresh "st" in let A := fresh "A" in let B := fresh "Q" in
  intros st A B; norm A;
  lazymatch type of B with Quiet ?s _ =>
    first [ lazymatch goal with H : Quiet _ s |- _ => apply (q_trans _ _ _ H) in B; clear H end | clear B ];
    match goal with A0 : sat _ s |- _ => clear A0 end
  end.
Ltac on_pop :=
  let st := fresh "st" in let A := fresh "A" in
  intros st A; norm A; repeat match goal with H : Quiet _ _ |- _ => clear H end;
  repeat match goal with A0 : sat _ ?s |- _ => lazymatch s with st => fail | _ => clear A0 end end.
Ltac on_fr := let st := fresh "st" in let F := fresh "F" in intros st F;
  repeat first [left; exact F | eapply fr_wp; [exact F|clear st F; intros ? st F; cbv beta]].

Ltac sstep :=
  lazymatch goal with
  | |- swp _ ?p _ _ _ =>
    lazymatch p with
    | Ret _ => apply s_ret
    | Bind _ _ => apply s_bind
    | Throw _ => exact I
    | Crash _ => exact I
    | With _ _ _ => apply s_with
    | get_flags => apply s_flags
    | expect_expression => eapply s_expect; [eassumption|on_pop]
    | token_ => eapply s_token; [eassumption|on_quiet]
    | no_line_terminator => eapply s_noline; [eassumption|intros [|]; on_quiet]
    | ident_lookahead => eapply s_look; [eassumption|intros [[|] [| | | | |?| | | |]]; on_quiet|on_quiet]
    | pop_ => first [ eapply s_pop_reify; [eassumption|eassumption|reflexivity|reflexivity|intros ?; on_pop]
                    | eapply s_pop_binary; [eassumption|eassumption|reflexivity|reflexivity|intros ?; on_pop]
                    | eapply s_pop_punc; [eassumption|eassumption|reflexivity|reflexivity|intros ?; on_pop] ]
    | punc _ => eapply s_punc; [eassumption|reflexivity|on_pop|on_quiet]
    | numeric => eapply s_numeric; [eassumption|on_pop|on_quiet]
    | string_ => eapply s_string; [eassumption|on_pop|on_quiet]
    | regex => eapply s_regex; [eassumption|reflexivity|on_pop|on_quiet]
    | eof => eapply s_eof; [eassumption|intros ? ?; on_pop|on_quiet]
    | keyword "yield" => eapply s_yield; [eassumption|on_fr|on_quiet]
    | keyword _ => eapply s_keyword; [eassumption|on_pop|on_quiet]
    | identifier => eapply s_identifier; [eassumption|on_pop|on_quiet]
    | binding_identifier => eapply s_binding; [eassumption|on_pop|on_quiet]
    | reference_identifier => eapply s_binding; [eassumption|on_pop|on_quiet]
    | label_identifier => eapply s_binding; [eassumption|on_pop|on_quiet]
    | semicolon => eapply s_semi; [eassumption|reflexivity|on_pop|on_pop]
    | semicolon_dowhile => eapply s_semi; [eassumption|reflexivity|on_pop|on_pop]
    | template => eapply s_template; [eassumption|on_pop|on_pop|on_quiet]
    | template_tail => eapply s_template_tail; [eassumption|on_pop|on_pop|on_quiet]
    | try_sequence _ => cbn [try_sequence]
    | match ?x with _ => _ end => destruct x eqn:?
    | Call _ => fail
    | ?f _ _ => unfold f; cbv beta
    | ?f _ => unfold f; cbv beta
    | ?f => unfold f
    end
  end.
Ltac oncall IHc :=
  eapply IHc; [eassumption|reflexivity|on_fr|on_pop|cbn [unmatched]; lazymatch goal with |- forall _, False -> _ => intros ? [] | |- forall _, _ -> Quiet _ _ -> _ => on_quiet | _ => on_pop end|on_fr].
Ltac finish :=
  lazymatch goal with
  | |- outcome _ _ (Some _) _ => right; cbn [matched]; eapply sat_weak; [|eassumption]; reflexivity
  | |- outcome _ _ None _ => right; cbn [unmatched]; first [eassumption | eapply sat_weak; [|eassumption]; reflexivity]
  end.

Lemma consumed_same st p q : consumed st p -> consumed st q -> p = q.
Proof. unfold consumed. destruct (hk st) as [|[|[|?]]]; [congruence|congruence|intros [? ?] [? ?]; congruence|intros []]. Qed.
Lemma base_yielded p st : base p st -> mentions_yield p = true -> Fr st.
Proof.
  intros (C & B) Y. split.
  - destruct (hbad st); [|reflexivity]. destruct (B eq_refl) as (_ & N & _). congruence.
  - unfold consumed in C. destruct (hk st) as [|[|[|?]]]; [rewrite C; exact Y| | |destruct C].
    + rewrite C. unfold mentions_yield in *. cbn [existsb]. rewrite Y. apply orb_true_r.
    + rewrite (proj1 C). unfold mentions_yield in *. cbn [existsb]. rewrite Y, !orb_true_r. reflexivity.
Qed.
Lemma in_mem f l : In f l -> mem f l = true.
Proof. intros H. apply existsb_exists. exists f. split; [exact H|]. destruct f; reflexivity. Qed.
Lemma mem_in f l : mem f l = true -> In f l.
Proof. intros H. apply existsb_exists in H. destruct H as (x & H & E). destruct f, x; try discriminate; exact H. Qed.

Lemma carried n f g l st : sat l st -> match hexec misslash TEOF n f g st with
  | HOk _ st' => forall m, sat m st' -> Fr st' \/ sat (carry f l m) st'
  | _ => True
  end.
Proof.
  intros HS0. apply close_sat in HS0. destruct HS0 as (p & B & H).
  assert (K := brackets misslash n f g (open_brackets p) st (ex_intro _ p (conj (proj1 B) (or_intror eq_refl)))).
  assert (G := exec_grows misslash n f g p st (proj1 B)).
  unfold bwp in K. cbn [hinterp] in K. destruct (hexec misslash TEOF n f g st) as [a st'| | |]; try exact I.
  intros m (p1 & B1 & H1). destruct K as (s' & (p2 & C2 & [Y|E]) & K).
  - left. rewrite (consumed_same _ _ _ C2 (proj1 B1)) in Y. exact (base_yielded p1 st' B1 Y).
  - rewrite (consumed_same _ _ _ C2 (proj1 B1)) in E. right. exists p1. split; [exact B1|].
    assert (X : closes f = true \/ closed f (open_brackets p) = open_brackets p) by (destruct f; auto).
    intros x M. apply mem_in in M. unfold carry in M. apply in_app_or in M. destruct M as [M|M].
    { apply filter_In in M. destruct M as ([<-|[]] & N). specialize (H _ N). destruct G as (q & G). rewrite <- (consumed_same _ _ _ G (proj1 B1)).
      cbn [holds] in *. unfold mentions_if in *. rewrite existsb_app, H. apply orb_true_r. }
    destruct (closes f); [exact (H1 x (in_mem _ _ M))|].
    destruct X as [X|X]; [discriminate X|].
    apply in_app_or in M. destruct M as [M|M]; [|exact (H1 x (in_mem _ _ M))].
    apply filter_In in M. destruct M as (M & N). specialize (H x N). unfold kept in K. rewrite X in K. destruct (loose f).
    + destruct M as [<-|[<-|[]]]; cbn [holds] in *; rewrite E.
      * destruct H as (s & H). rewrite H in K. apply undot_square in K. eauto.
      * destruct H as (d & s & H). rewrite H in K. apply undot_round in K. destruct K as (c & ->). eauto.
    + destruct M as [<-|[<-|[<-|[]]]]; cbn [holds] in *; unfold comma_settles in *; rewrite E, K; exact H.
Qed.

Lemma slashes n : forall f g st, sat (before f) st -> swp n (Call f) g st (outcome f st).
Proof.
  induction n as [|n IH]; intros f g st A; [exact I|].
  change (swp n (body f) g st (outcome f st)).
  assert (IHc : forall f g l st (Q : _ -> _ -> Prop), sat l st -> subset (before f) (close l) = true ->
    (forall st', Fr st' -> Q None st') -> (forall st', sat (carry f l (matched f)) st' -> Q (Some tt) st') ->
    (forall st', match unmatched f with OnlyRead => sat (tr_quiet l) st' -> Quiet st st' -> Q None st' | Facts l' => sat (carry f l l') st' -> Q None st'
       | Never => False -> Q None st' end) -> (forall st', Fr st' -> Q (Some tt) st') -> swp n (Call f) g st Q).
  { intros f0 g0 l st0 Q S0 SB H0 H1 H2 H3. specialize (IH f0 g0 st0 (sat_weak _ _ _ SB S0)). assert (CS := carried n f0 g0 l st0 S0). unfold swp in *. cbn [hinterp] in *.
    destruct (hexec misslash TEOF n f0 g0 st0) as [a st1|? ?|?|?]; try exact I. destruct IH as [F|B].
    - destruct a as [[]|]; auto.
    - destruct a as [[]|].
      + destruct (CS _ B); auto.
      + specialize (H2 st1). destruct (unmatched f0); auto.
        * apply H2; [|exact B]. eapply quiet_sat; eassumption.
        * destruct (CS _ B); auto. }
  clear IH.
  assert (Q : Quiet st st) by constructor.
  destruct f; cbn [body before] in *; norm A.
  all: lazymatch goal with |- swp _ parse_for_statement _ _ _ => idtac | _ => solve [repeat (cbv beta iota; first [sstep | oncall IHc | finish])] end.
  (* The rest of a for statement does not depend on its head. *)
  assert (T : forall h st', sat [] st' -> swp n (if fst (for_allowed h) then
      if_some_ punc Semicolon then_
        (run_ expect_expression ;;
         opt_ Call F_expression ;;
         eat_ punc Semicolon ;;
         run_ expect_expression ;;
         opt_ Call F_expression ;;
         parse_for_tail)
      else_ parse_for_in_of (snd (for_allowed h))
    else parse_for_in_of (snd (for_allowed h))) g st' (outcome F_for st)).
  { clear Q A. intros h st' A. repeat (cbv beta iota; first [sstep | oncall IHc | finish]). }
  unfold parse_for_statement.
  repeat (cbv beta iota; lazymatch goal with
          | |- swp _ (if fst (for_allowed _) then _ else _) _ _ _ => apply T; eapply sat_weak; [|eassumption]; reflexivity
          | _ => first [sstep | oncall IHc | finish]
          end).
Qed.

Lemma no_misslash n i a st' : hrun n parse_module flags_default (HS 0 false [] false i) = HOk a st' -> hbad st' = false.
Proof.
  intros H. assert (W : swp n parse_module flags_default (HS 0 false [] false i) (fun _ st => hbad st = false)).
  { unfold parse_module. apply s_bind.
    assert (A : sat pre_statement (HS 0 false [] false i)).
    { exists []. split; [split; [reflexivity|discriminate]|]. intros f M. destruct f; try discriminate M; cbn; [reflexivity|intros L; inversion L]. }
    pose proof (slashes n L_module flags_default _ A) as B. unfold swp in B |- *.
    destruct (hrun n (Call L_module) flags_default _) as [u st1|? ?|?|?]; try exact I.
    destruct B as [F|B].
    - change (swp n (eat_ eof ;; done_) flags_default st1 (fun _ st => hbad st = false)).
      eapply fr_wp; [exact F|]. intros ? st2 F2. exact (proj1 F2).
    - destruct u as [[]|]; [|destruct B]. cbn [matched] in B. clear A.
      change (swp n (eat_ eof ;; done_) flags_default st1 (fun _ st => hbad st = false)).
      apply s_bind. eapply s_eof; [exact B| |].
      + intros st2 HB _. exact HB.
      + intros; exact I. }
  unfold swp in W. rewrite H in W. exact W.
Qed.
