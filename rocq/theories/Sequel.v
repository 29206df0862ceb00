(** A program with all its semicolons can be followed by another one. *)
From Coq Require Import String List Bool Arith Lia.
From Verif Require Import Base Tokens ByteFacts ParserCore SpecGrammar SpecLanguage GrammarRules GrammarFacts SpecSemicolons Semicolons OneLine SpecSequel.
Import ListNotations.
Local Open Scope string_scope.
Local Open Scope list_scope.

(** ** What the conditions of the grammar look at *)
Definition is_name (t : token) : bool := match t with TIdent _ => true | _ => false end.
Definition agree (i i' : tokens) : Prop :=
  next i' = next i /\ (is_name (snd (next i)) = true -> next (tl i') = next (tl i)).
Definition firm (w : tokens) : Prop := forall r r', agree (w ++ r) (w ++ r').
Lemma firm_two w : 2 <= length w -> firm w.
Proof. destruct w as [|a [|b w]]; cbn; [lia|lia|]. intros _ r r'. split; reflexivity. Qed.
Lemma firm_token t w : is_name (snd t) = false -> firm (t :: w).
Proof. intros H r r'. split; [reflexivity|]. cbn [app next hd]. rewrite H. discriminate. Qed.
Lemma firm_app w v : firm w -> firm (w ++ v).
Proof. intros F r r'. rewrite <- !app_assoc. apply F. Qed.
Lemma agree_behind w i i' : agree i i' -> agree (w ++ i) (w ++ i').
Proof.
  intros [A B]. destruct w as [|a [|b w]]; [split; assumption| |split; reflexivity].
  split; [reflexivity|]. intros _. exact A.
Qed.

Definition local (c : condition) : Prop := forall g i i', agree i i' -> c g i = true -> c g i' = true.
Lemma local_no ts : local (no ts).
Proof. intros g i i' [A _] H. unfold no in *. rewrite A. exact H. Qed.
Lemma local_line : local line_break.
Proof. intros g i i' [A _] H. unfold line_break in *. rewrite A. exact H. Qed.
Lemma local_no_line : local no_line_break.
Proof. intros g i i' [A _] H. unfold no_line_break in *. rewrite A. exact H. Qed.
Lemma local_param f v : local (only_if f v).
Proof. intros g i i' _ H. exact H. Qed.
Lemma local_both c d : local c -> local d -> local (both c d).
Proof. intros C D g i i' A H. unfold both in *. rewrite andb_true_iff in *. split; [eapply C|eapply D]; try eassumption; apply H. Qed.
Definition names_only (ts : list term) : Prop := forall g t, one_of g ts t = true -> is_name t = true.
Lemma pair_agree ts sl us g i i' : names_only ts -> agree i i' -> pair ts sl us g i' = pair ts sl us g i.
Proof.
  intros Nm [A B]. unfold pair. rewrite A. destruct (one_of g ts (snd (next i))) eqn:O; [|reflexivity].
  rewrite (B (Nm _ _ O)). reflexivity.
Qed.
Lemma local_pair ts sl us : names_only ts -> local (pair ts sl us).
Proof. intros Nm g i i' A H. rewrite (pair_agree _ _ _ _ _ _ Nm A). exact H. Qed.
Lemma local_no_pair ts sl us : names_only ts -> local (no_pair ts sl us).
Proof. intros Nm g i i' A H. unfold no_pair in *. rewrite (pair_agree _ _ _ _ _ _ Nm A). exact H. Qed.
Lemma local_no_function : local no_function_start.
Proof.
  intros g i i' A H. unfold no_function_start, async_function in *.
  assert (N1 : names_only [K "async"]) by (intros g0 t E; destruct t; try reflexivity; discriminate E).
  assert (N2 : names_only [Name]) by (intros g0 t E; destruct t; try reflexivity; discriminate E).
  rewrite (pair_agree [K "async"] _ _ _ _ _ N1 A), (pair_agree [Name] _ _ _ _ _ N2 A), (proj1 A). exact H.
Qed.
Ltac only_names := let g := fresh in let t := fresh in let E := fresh in intros g t E; destruct t; try reflexivity; discriminate E.
Ltac is_local :=
  match goal with
  | |- local (both _ _) => apply local_both; is_local
  | |- local no_item => unfold no_item; is_local
  | |- local (no _) => apply local_no
  | |- local line_break => apply local_line
  | |- local no_line_break => apply local_no_line
  | |- local (only_if _ _) => apply local_param
  | |- local for_let => apply local_pair; only_names
  | |- local no_for_let => apply (local_no_pair [K "let"] false); only_names
  | |- local async_function => apply local_pair; only_names
  | |- local no_function_start => apply local_no_function
  | |- local (pair _ _ _) => apply local_pair; only_names
  | |- local (no_pair _ _ _) => apply local_no_pair; only_names
  end.
Definition local_sym (s : sym) : Prop := match s with When c => local c | _ => True end.
Lemma all_local n alpha : In alpha (prods n) -> Forall local_sym alpha.
Proof.
  intros I. destruct n;
    try match goal with k : for_kind |- _ => destruct k end;
    repeat match goal with b : bool |- _ => destruct b end;
    try match goal with h : method_head |- _ => destruct h as [[] [] []] end;
    cbn [prods In app map flat_map] in I;
    repeat (destruct I as [I|I]; [subst alpha|]); try contradiction I; cbn [star];
    repeat (apply Forall_cons; [cbn [local_sym]; first [exact Logic.I|is_local]|]); apply Forall_nil.
Qed.

(** ** How many tokens a phrase has at least *)
Fixpoint count (alpha : list sym) : nat :=
  match alpha with
  | [] => 0
  | T _ :: beta => S (count beta)
  | N n _ :: beta => (if vanishes n then 0 else 1) + count beta
  | Semi _ :: beta => S (count beta)
  | When _ :: beta => count beta
  end.
Lemma count_prods n alpha : In alpha (prods n) -> vanishes n = false -> 1 <= count alpha.
Proof.
  intros I V. destruct n; try discriminate V;
    try match goal with k : for_kind |- _ => destruct k end;
    repeat match goal with b : bool |- _ => destruct b end; try discriminate V;
    try match goal with h : method_head |- _ => destruct h as [[] [] []] end;
    cbn [prods In app map flat_map] in I;
    repeat (destruct I as [I|I]; [subst alpha|]); try contradiction I; cbn [star count vanishes]; lia.
Qed.
Lemma counted : (forall g n i r, explicit g n i r -> vanishes n = false -> 1 + length r <= length i) /\
  (forall g alpha i r, explicit_seq g alpha i r -> count alpha + length r <= length i).
Proof.
  apply explicit_both.
  - intros g n alpha i r I _ Q V. pose proof (count_prods n alpha I V). lia.
  - intros g i. cbn. lia.
  - intros g ts nl t i alpha r _ _ Q. cbn [count length]. lia.
  - intros g n ch i m alpha r X Ph _ Q. cbn [count]. destruct (vanishes n) eqn:V; [|specialize (Ph eq_refl); lia].
    destruct (proj1 explicit_suffix _ _ _ _ X) as [w ->]. rewrite app_length. lia.
  - intros g b nl i alpha r _ Q. cbn [count length]. lia.
  - intros g c i alpha r _ _ Q. exact Q.
Qed.

(** ** Phrases with a firm end *)
Definition ended (n : nt) : bool :=
  match n with
  | NModuleItem | NScriptItem | NImport | NImportNames | NImportFrom | NExport
  | NStatementListItem | NStatement | NBlock | NDeclaration | NLet | NConst | NVariableStatement | NExpressionStatement
  | NIf | NBreakable | NIteration | NDoWhile | NWhile | NFor | NSwitch | NReturn | NBreak | NContinue | NWith | NLabelled
  | NTry | NFinally | NDebugger | NThrow
  | NFunctionDeclaration | NFunctionDeclarationRest _ _ | NFunctionRest _ _ | NClass | NClassBody => true
  | _ => false
  end.
(** Phrases that are empty or firm. *)
Definition sturdy (n : nt) : bool :=
  ended n || match n with NLexicalTail _ | NVariableTail | NHeritage => true | _ => false end.
Definition symbols_only (ts : list term) : Prop := forall g t, one_of g ts t = true -> is_name t = false.
(** What the production derives is nothing or firm. *)
Fixpoint firm_or_nothing (alpha : list sym) : Prop :=
  match alpha with
  | [] => True
  | T ts :: beta => symbols_only ts \/ 1 <= count beta
  | Semi _ :: _ => True
  | When _ :: beta => firm_or_nothing beta
  | N n ch :: beta => 2 <= count (N n ch :: beta) \/ sturdy n = true /\ firm_or_nothing beta
  end.
Fixpoint closed (alpha : list sym) : Prop :=
  match alpha with
  | [] => True
  | T _ :: beta => closed beta
  | Semi _ :: beta => closed beta
  | N n _ :: beta => closed beta /\ firm_or_nothing beta /\ (ended n = true \/ 1 <= count beta)
  | When c :: beta => closed beta /\ firm_or_nothing beta /\
      (1 <= count beta \/ forall g r, fresh_start r -> c g r = true)
  end.

Definition phrase_continues (g : grammar_flags) (n : nt) (i r : tokens) : Prop :=
  exists w, i = w ++ r /\ (forall r', agree r r' -> explicit g n (w ++ r') r') /\
    (without "throw" w -> (sturdy n = true -> w = [] \/ firm w) /\
      (ended n = true -> forall r', fresh_start r' -> explicit g n (w ++ r') r')).
Definition seq_continues (g : grammar_flags) (alpha : list sym) (i r : tokens) : Prop :=
  Forall local_sym alpha ->
  exists w, i = w ++ r /\ (forall r', agree r r' -> explicit_seq g alpha (w ++ r') r') /\
    (without "throw" w -> (firm_or_nothing alpha -> w = [] \/ firm w) /\
      (closed alpha -> forall r', fresh_start r' -> explicit_seq g alpha (w ++ r') r')).
Lemma without_app w u v : without w (u ++ v) -> without w u /\ without w v.
Proof. intros H. split; intros nl I; apply (H nl), in_or_app; auto. Qed.

Lemma continues_token g ts nl t i alpha r : one_of g ts t = true -> explicit_seq g alpha i r -> seq_continues g alpha i r ->
  seq_continues g (T ts :: alpha) ((nl, t) :: i) r.
Proof.
  intros Ho X Q L. inversion L as [|? ? _ L']; subst. destruct (Q L') as (w & -> & A & B). exists ((nl, t) :: w).
  split; [reflexivity|]. split; [intros r' H; cbn [app]; constructor; auto|]. intros W.
  change ((nl, t) :: w) with ([(nl, t)] ++ w) in W. apply without_app in W. destruct W as [_ W]. destruct (B W) as [F C]. split.
  - cbn [firm_or_nothing]. intros [S|K]; right.
    + apply firm_token. exact (S g t Ho).
    + apply firm_two. pose proof (proj2 counted _ _ _ _ X) as K'. rewrite app_length in K'. cbn [length]. lia.
  - cbn [closed app]. intros K r' H. constructor; auto.
Qed.
Lemma continues_semicolon g b nl i alpha r : seq_continues g alpha i r -> seq_continues g (Semi b :: alpha) ((nl, TPunctuator Semicolon) :: i) r.
Proof.
  intros Q L. inversion L as [|? ? _ L']; subst. destruct (Q L') as (w & -> & A & B). exists ((nl, TPunctuator Semicolon) :: w).
  split; [reflexivity|]. split; [intros r' H; cbn [app]; constructor; auto|]. intros W.
  change ((nl, TPunctuator Semicolon) :: w) with ([(nl, TPunctuator Semicolon)] ++ w) in W. apply without_app in W.
  destruct W as [_ W]. destruct (B W) as [F C]. split.
  - intros _. right. apply firm_token. reflexivity.
  - cbn [closed app]. intros K r' H. constructor; auto.
Qed.
Lemma continues_condition g c i alpha r : c g i = true -> explicit_seq g alpha i r -> seq_continues g alpha i r -> seq_continues g (When c :: alpha) i r.
Proof.
  intros H X Q L. inversion L as [|? ? Lc L']; subst. cbn [local_sym] in Lc. destruct (Q L') as (w & -> & A & B). exists w.
  split; [reflexivity|]. split; [intros r' G; constructor; [eapply Lc; [|exact H]; apply agree_behind; exact G|auto]|]. intros W.
  destruct (B W) as [F C]. split; [exact F|]. cbn [closed]. intros (K1 & K2 & K3) r' G. constructor; [|auto].
  destruct (F K2) as [->|Fw]; [|exact (Lc g _ _ (Fw r r') H)].
  destruct K3 as [K3|K3]; [|exact (K3 g r' G)]. pose proof (proj2 counted _ _ _ _ X) as K'. cbn [app] in K'. lia.
Qed.
Lemma continues_nonterminal g n ch i m alpha r : explicit_seq g (N n ch :: alpha) i r -> phrase_continues (changed g ch) n i m -> explicit_seq g alpha m r -> seq_continues g alpha m r ->
  seq_continues g (N n ch :: alpha) i r.
Proof.
  intros Y (w1 & -> & A1 & B1) X Q L. inversion L as [|? ? _ L']; subst. destruct (Q L') as (w2 & -> & A2 & B2).
  exists (w1 ++ w2). split; [apply app_assoc|]. split.
  - intros r' G. rewrite <- app_assoc. econstructor; [apply A1, agree_behind; exact G|auto].
  - intros W. apply without_app in W. destruct W as [W1 W2]. destruct (B2 W2) as [F2 C2]. split.
    + cbn [firm_or_nothing]. intros [K|[K1 K2]].
      * right. apply firm_two. pose proof (proj2 counted _ _ _ _ Y) as K'. rewrite app_assoc, app_length in K'. lia.
      * destruct (proj1 (B1 W1) K1) as [->|F1]; [exact (F2 K2)|right; apply firm_app; exact F1].
    + cbn [closed]. intros (K1 & K2 & K3) r' G. rewrite <- app_assoc. apply e_nonterminal with (m := w2 ++ r'); [|auto].
      destruct (F2 K2) as [->|Fw]; [|apply A1; apply Fw].
      destruct K3 as [K3|K3]; [exact (proj2 (B1 W1) K3 r' G)|]. pose proof (proj2 counted _ _ _ _ X) as K'. cbn [app] in K'. lia.
Qed.

(** ** All productions *)
Ltac symbols := let g := fresh in let t := fresh in let E := fresh in intros g t E; destruct t; try reflexivity; discriminate E.
Ltac is_firm := cbn [firm_or_nothing sturdy ended orb count vanishes];
  repeat match goal with
  | |- _ /\ _ => split
  | |- True => exact Logic.I
  | |- _ = _ => reflexivity
  | |- symbols_only _ \/ _ => first [right; lia|left; symbols]
  | |- _ <= _ \/ _ => first [left; lia|right]
  end.
Lemma fresh_no ws g r : fresh_start r -> incl ws ["else"; "catch"; "finally"] -> no (map K ws) g r = true.
Proof.
  intros F I. unfold no. induction ws as [|w ws IH]; [reflexivity|]. cbn [map one_of existsb].
  rewrite negb_orb, andb_true_iff. split; [|apply IH; intros x Hx; apply I; right; exact Hx].
  rewrite negb_true_iff. destruct (matches g (K w) (snd (next r))) eqn:M; [|reflexivity]. exfalso.
  specialize (F w (I w (or_introl eq_refl))). destruct (snd (next r)); try discriminate M. cbn [matches] in M. apply beqb_eq in M. subst. congruence.
Qed.
Ltac is_fresh := let F := fresh in intros ? ? F;
  first [apply (fresh_no ["else"]); [exact F|intros ? [<-|[]]; cbn; auto]
        |apply (fresh_no ["catch"]); [exact F|intros ? [<-|[]]; cbn; auto]
        |apply (fresh_no ["finally"]); [exact F|intros ? [<-|[]]; cbn; auto]].
Ltac is_closed :=
  cbn [closed]; cbn [count vanishes];
  repeat match goal with
  | |- _ /\ _ => split
  | |- True => exact Logic.I
  | |- firm_or_nothing _ => is_firm; fail
  | |- _ = true \/ _ <= _ => first [left; reflexivity|right; lia]
  | |- _ <= _ \/ _ => first [left; lia|right; is_fresh]
  end.
Lemma production_continues g n alpha i r : In alpha (prods n) -> explicit_seq g alpha i r -> seq_continues g alpha i r -> phrase_continues g n i r.
Proof.
  intros I X Q. destruct (Q (all_local n alpha I)) as (w & -> & A & B). exists w. split; [reflexivity|].
  split; [intros r' G; econstructor; [exact I|auto]|]. intros W. destruct (B W) as [F C].
  assert (Thrown : forall beta, alpha = #"throw" :: beta -> False).
  { intros beta ->. clear A B F C Q. assert (E1 : exists z, z = w ++ r) by eauto. destruct E1 as [z E1]. rewrite <- E1 in X.
    inversion X as [|? ? nl t i1 ? ? Ho X1 E2| | |]. destruct (proj2 explicit_suffix _ _ _ _ X1) as [v Ev].
    assert (E3 : ((nl, t) :: v) ++ r = w ++ r) by (match goal with K : _ :: _ = z |- _ => rewrite <- E1, <- K, Ev; reflexivity end). apply app_inv_tail in E3. rewrite <- E3 in W.
    destruct t; try discriminate Ho. cbn [one_of existsb matches] in Ho. rewrite orb_false_r in Ho. apply beqb_eq in Ho. subst name.
    apply (W nl). left. reflexivity. }
  split; intros En.
  - apply F. clear F C A B Q W. destruct n; try discriminate En;
      repeat match goal with b : bool |- _ => destruct b end;
      cbn [prods In app map flat_map] in I;
      repeat (destruct I as [I|I]; [subst alpha|]); try contradiction I; try (exfalso; eapply Thrown; reflexivity); is_firm.
  - assert (K : closed alpha); [|intros r' G; econstructor; [exact I|auto]]. clear F C A B Q W.
    destruct n; try discriminate En;
      repeat match goal with b : bool |- _ => destruct b end;
      cbn [prods In app map flat_map] in I;
      repeat (destruct I as [I|I]; [subst alpha|]); try contradiction I; try (exfalso; eapply Thrown; reflexivity); is_closed.
Qed.

Theorem continues : (forall g n i r, explicit g n i r -> phrase_continues g n i r) /\
  (forall g alpha i r, explicit_seq g alpha i r -> explicit_seq g alpha i r /\ seq_continues g alpha i r).
Proof.
  apply explicit_both.
  - intros g n alpha i r I _ [X Q]. eapply production_continues; eassumption.
  - intros g i. split; [constructor|]. intros _. exists []. split; [reflexivity|]. split; [intros; constructor|].
    intros _. split; [auto|intros; constructor].
  - intros g ts nl t i alpha r O _ [X Q]. split; [constructor; assumption|apply continues_token; assumption].
  - intros g n ch i m alpha r H Ph _ [X Q]. assert (Y : explicit_seq g (N n ch :: alpha) i r) by (econstructor; eassumption).
    split; [exact Y|eapply continues_nonterminal; eassumption].
  - intros g b nl i alpha r _ [X Q]. split; [constructor; assumption|apply continues_semicolon; assumption].
  - intros g c i alpha r H _ [X Q]. split; [constructor; assumption|apply continues_condition; assumption].
Qed.

(** ** Modules *)
Lemma items_continue k : forall g i r, length i <= k -> explicit g NModuleItems i r ->
  exists w, i = w ++ r /\ (without "throw" w -> (w = [] \/ firm w) /\
    forall b r', fresh_start b -> derives g NModuleItems b r' -> derives g NModuleItems (w ++ b) r').
Proof.
  induction k as [|k IH]; intros g i r L X; inversion X as [? ? alpha ? ? I X1]; subst; cbn [prods In] in I; destruct I as [<-|[<-|[]]].
  - inversion X1 as [| |? ? ? ? m ? ? X2 X3| |]; subst. pose proof (proj1 counted _ _ _ _ X2 eq_refl). lia.
  - inversion X1 as [| | | |? ? ? ? ? _ X2]; subst. inversion X2; subst. exists []. split; [reflexivity|]. split; auto.
  - inversion X1 as [| |? ? ? ? m ? ? X2 X3| |]; subst. inversion X3 as [| |? ? ? ? m' ? ? X4 X5| |]; subst. inversion X5; subst.
    pose proof (proj1 counted _ _ _ _ X2 eq_refl) as Lm. destruct (fun L' => IH g m _ L' X4) as (w2 & -> & K2); [lia|].
    destruct (proj1 continues _ _ _ _ X2) as (w1 & -> & A1 & B1). exists (w1 ++ w2). split; [apply app_assoc|].
    intros W. apply without_app in W. destruct W as [W1 W2]. destruct (K2 W2) as [F2 D2]. destruct (B1 W1) as [F1 C1]. split.
    + right. destruct (F1 eq_refl) as [->|F]; [|apply firm_app; exact F]. cbn [app] in Lm. lia.
    + intros b r' Fb Db. rewrite <- app_assoc. eapply by_production; [left; reflexivity|].
      eapply d_nonterminal; [|eapply d_nonterminal; [exact (D2 b r' Fb Db)|constructor]].
      apply explicit_derives. destruct F2 as [->|F2]; [exact (C1 eq_refl b Fb)|apply A1; apply F2].
  - inversion X1 as [| | | |? ? ? ? ? _ X2]; subst. inversion X2; subst. exists []. split; [reflexivity|]. split; auto.
Qed.

Theorem programs_in_sequence a nl b : explicit_program (a ++ [(nl, TEOF)]) -> without "throw" a -> fresh_start b -> program b ->
  program (a ++ b).
Proof.
  intros X W F Pr. unfold explicit_program in X. inversion X as [? ? alpha ? ? I X1]; subst. cbn [prods In] in I. destruct I as [<-|[]].
  inversion X1 as [| |? ? ? ? m ? ? X2 X3| |]; subst. inversion X3 as [|? ? nl' t i1 ? ? Ho X4| | |]; subst. inversion X4; subst.
  destruct (items_continue _ _ _ _ (le_n _) X2) as (w & E & K). apply app_inj_tail in E. destruct E as [-> _].
  destruct (K W) as [_ D].
  unfold program in *. inversion Pr as [? ? alpha ? ? I Y1]; subst. cbn [prods In] in I. destruct I as [<-|[]].
  inversion Y1 as [| |? ? ? ? m ? ? Y2 Y3| | |]; subst.
  eapply by_production; [left; reflexivity|]. eapply d_nonterminal; [exact (D b m F Y2)|exact Y3].
Qed.

(** ** With the semicolons added *)
Lemma completed_in b k i i' : completed b k i i' -> forall nl w, (In (nl, TIdent w) i' -> In (nl, TIdent w) i) /\ (In (nl, TEOF) i -> In (nl, TEOF) i').
Proof.
  induction 1 as [|b k nl0 t i i' _ IH|b k i i' _ _ IH]; intros nl w; [split; auto| |].
  - destruct (IH nl w) as [A B]. cbn [In]. tauto.
  - destruct (IH nl w) as [A B]. cbn [In]. split; [|tauto]. intros [K|K]; [discriminate K|auto].
Qed.
Theorem any_programs_in_sequence a nl b : program (a ++ [(nl, TEOF)]) -> without "throw" a -> fresh_start b -> program b ->
  exists a', semicolons_added (a ++ [(nl, TEOF)]) (a' ++ [(nl, TEOF)]) /\ program (a' ++ b).
Proof.
  intros Pr W F Pb. destruct (semicolons_can_be_written _ Pr) as (l' & C & X).
  pose proof (explicit_program_program _ X) as Pl. destruct (module_eof _ _ _ Pl) as (a' & nl' & E & Ne).
  subst l'.
  assert (nl' = nl) as ->.
  { destruct (completed_in _ _ _ _ C nl []) as [_ K]. specialize (K (in_or_app _ _ _ (or_intror (in_eq _ _)))).
    apply in_app_or in K. destruct K as [K|[K|[]]]; [|congruence]. exfalso. apply Ne. apply (in_map snd) in K. exact K. }
  exists a'. split; [exact C|]. eapply programs_in_sequence; [exact X| |exact F|exact Pb].
  intros nl0 I. destruct (completed_in _ _ _ _ C nl0 (s2b "throw")) as [K _]. specialize (K (in_or_app _ _ _ (or_introl I))).
  apply in_app_or in K. destruct K as [K|[K|[]]]; [exact (W nl0 K)|discriminate K].
Qed.
