(** Programs with all their semicolons need no line breaks. *)
From Coq Require Import String List Bool Arith Lia.
From Verif Require Import Base Tokens ByteFacts ParserCore SpecGrammar SpecLanguage GrammarRules SpecSemicolons Semicolons.
Import ListNotations.
Local Open Scope string_scope.
Local Open Scope list_scope.

Lemma next_one_line i : next (one_line i) = (false, snd (next i)).
Proof. destruct i as [|[]]; reflexivity. Qed.
Lemma tl_one_line i : tl (one_line i) = one_line (tl i).
Proof. destruct i as [|[]]; reflexivity. Qed.

(** A derivation reads its tokens from the front. *)
Lemma explicit_suffix : (forall g n i r, explicit g n i r -> exists w, i = w ++ r) /\
  (forall g alpha i r, explicit_seq g alpha i r -> exists w, i = w ++ r).
Proof.
  apply explicit_both; intros; try assumption;
    repeat match goal with H : exists _, _ |- _ => destruct H; subst end;
    [exists []; reflexivity|eexists (_ :: _); reflexivity|eexists; apply app_assoc|eexists (_ :: _); reflexivity].
Qed.
Lemma calm_suffix w r : calm (w ++ r) = true -> calm r = true.
Proof.
  induction w as [|[nl t] w IH]; [auto|]. cbn [app calm]. rewrite !andb_true_iff. intros [_ H]. auto.
Qed.
Lemma explicit_calm g n i r : explicit g n i r -> calm i = true -> calm r = true.
Proof. intros H. destruct (proj1 explicit_suffix _ _ _ _ H) as [w ->]. apply calm_suffix. Qed.

(** ** The token behind a phrase that may end with a postfix operator *)
Definition postfix : list term := [P PlusPlus; P MinusMinus].
Definition safe (i : tokens) : Prop := forall g, one_of g postfix (snd (next i)) = false.
(** Phrases that start with no [++] or [--]. *)
Definition starts_safe (n : nt) : bool :=
  match n with
  | NExpressionTail | NBinaryTail | NLexicalTail _ | NVariableTail | NForMore _ | NParenthesizedTail | NParameterNext
  | NClassBody => true
  | _ => false
  end.
Definition disjoint_terms (ts : list term) : Prop := forall g t, one_of g ts t = true -> forall g', one_of g' postfix t = false.
Fixpoint safe_start (alpha : list sym) : Prop :=
  match alpha with
  | [] => True
  | T ts :: _ => disjoint_terms ts
  | N n _ :: beta => starts_safe n = true /\ safe_start beta
  | Semi _ :: _ => True
  | When _ :: beta => safe_start beta
  end.
(** Phrases that may end with a place for a postfix operator. *)
Definition open_end (n : nt) : bool :=
  match n with
  | NLexical _ | NLexicalTail _ | NVariable | NVariableTail | NInitializer | NAssignment | NExpression | NExpressionTail
  | NArrowBody | NYield | NOptExpression | NConditional | NBinary | NBinaryTail | NUnary | NUpdate
  | NForVariables _ | NForMore _ | NForConstants | NPatternElements | NPatternElement | NPatternProperty | NPatternProperties
  | NArgumentList | NPlainArgumentList | NElements | NElement | NProperties | NProperty
  | NParameterList | NParameterNext | NParenthesizedBody | NParenthesizedTail => true
  | _ => false
  end.
(** The production may derive nothing but a safe start. *)
Fixpoint reaches_end (alpha : list sym) : bool :=
  match alpha with
  | [] => true
  | N n _ :: beta => starts_safe n && reaches_end beta
  | When _ :: beta => reaches_end beta
  | _ => false
  end.

Definition start_stays_safe (g : grammar_flags) (n : nt) (i r : tokens) : Prop := starts_safe n = true -> safe r -> safe i.
Definition seq_stays_safe (g : grammar_flags) (alpha : list sym) (i r : tokens) : Prop :=
  safe_start alpha -> (reaches_end alpha = true -> safe r) -> safe i.

Ltac disjoint :=
  let g := fresh in let t := fresh in let H := fresh in let g' := fresh in
  intros g t H g'; destruct t as [[]| | | |?| | | | |]; try reflexivity; discriminate H.
Lemma stays_safe : (forall g n i r, explicit g n i r -> start_stays_safe g n i r) /\
  (forall g alpha i r, explicit_seq g alpha i r -> seq_stays_safe g alpha i r).
Proof.
  apply explicit_both.
  - intros g n alpha i r I X Q S R. apply Q; [|intros _; exact R]. clear Q R X.
    destruct n; try discriminate S; cbn [prods In app] in I;
      repeat match goal with b : bool |- _ => destruct b | k : for_kind |- _ => destruct k end;
      repeat (destruct I as [I|I]; [subst alpha|]); try contradiction I; cbn [safe_start starts_safe]; try exact Logic.I;
      try (disjoint).
  - intros g i _ R. exact (R eq_refl).
  - intros g ts nl t i alpha r O _ _ D _. intros g'. exact (D g t O g').
  - intros g n ch i m alpha r _ Ph _ Q [S D] R. apply Ph; [exact S|]. apply Q; [exact D|]. intros E. apply R. cbn [reaches_end]. rewrite S, E. reflexivity.
  - intros g b nl i alpha r _ _ _ _ g'. reflexivity.
  - intros g c i alpha r _ _ Q S R. apply Q; assumption.
Qed.

(** ** Leaving out the line breaks *)
Fixpoint ends_open (alpha : list sym) : bool :=
  match alpha with
  | [] => false
  | N n _ :: beta => open_end n && reaches_end beta || ends_open beta
  | _ :: beta => ends_open beta
  end.
Fixpoint steady (alpha : list sym) : Prop :=
  match alpha with
  | [] => True
  | N n _ :: beta => steady beta /\ (open_end n = true -> safe_start beta)
  | When c :: beta => steady beta /\
      forall g i r, explicit_seq g beta i r -> calm i = true -> c g i = true -> c g (one_line i) = true
  | _ :: beta => steady beta
  end.
Definition phrase_fits (g : grammar_flags) (n : nt) (i r : tokens) : Prop :=
  calm i = true -> (open_end n = true -> safe r) -> explicit g n (one_line i) (one_line r).
Definition seq_fits (g : grammar_flags) (alpha : list sym) (i r : tokens) : Prop :=
  forall beta, without_conditions alpha beta -> steady beta -> calm i = true -> (ends_open beta = true -> safe r) ->
    explicit_seq g beta (one_line i) (one_line r).

Lemma explicit_without g alpha i r : explicit_seq g alpha i r -> forall beta, without_conditions alpha beta -> explicit_seq g beta i r.
Proof.
  revert i. induction alpha as [|s alpha IH]; intros i X beta W; inversion W as [|? ? b W'|? ? b W']; subst; [exact X| |].
  - inversion X; subst; try (econstructor; eauto; fail).
  - inversion X; subst. eauto.
Qed.

Lemma fits_token g ts nl t i alpha r : one_of g ts t = true -> seq_fits g alpha i r -> seq_fits g (T ts :: alpha) ((nl, t) :: i) r.
Proof.
  intros O Q beta W S C E. inversion W as [|? ? b W'|]; subst. cbn [one_line map snd]. constructor; [exact O|].
  apply Q; try assumption. cbn [calm] in C. rewrite !andb_true_iff in C. apply C.
Qed.
Lemma fits_semicolon g b nl i alpha r : seq_fits g alpha i r -> seq_fits g (Semi b :: alpha) ((nl, TPunctuator Semicolon) :: i) r.
Proof.
  intros Q beta W S C E. inversion W as [|? ? b' W'|]; subst. cbn [one_line map snd]. constructor.
  apply Q; assumption.
Qed.
Lemma fits_nonterminal g n ch i m alpha r : explicit (changed g ch) n i m -> phrase_fits (changed g ch) n i m ->
  explicit_seq g alpha m r -> seq_fits g alpha m r -> seq_fits g (N n ch :: alpha) i r.
Proof.
  intros X1 Ph X2 Q beta W S C E. inversion W as [|? ? b W'|]; subst. destruct S as [S O]. cbn [ends_open] in E.
  econstructor.
  - apply Ph; [exact C|]. intros Hn. eapply (proj2 stays_safe); [exact (explicit_without _ _ _ _ X2 _ W')|exact (O Hn)|].
    intros R. apply E. rewrite Hn, R. reflexivity.
  - apply Q; try assumption; [exact (explicit_calm _ _ _ _ X1 C)|]. intros K. apply E. rewrite K. apply orb_true_r.
Qed.
Lemma fits_condition g c i alpha r : c g i = true -> explicit_seq g alpha i r -> seq_fits g alpha i r -> seq_fits g (When c :: alpha) i r.
Proof.
  intros H X Q beta W S C E. inversion W as [|? ? b W'|? ? b W']; subst.
  - destruct S as [S A]. constructor; [|apply Q; assumption]. eapply A; [exact (explicit_without _ _ _ _ X _ W')|exact C|exact H].
  - apply Q; assumption.
Qed.

(** ** The conditions *)
Lemma fits_no ts g i : no ts g i = true -> no ts g (one_line i) = true.
Proof. unfold no. rewrite next_one_line. auto. Qed.
Lemma fits_pair ts sl us g i : pair ts sl us g i = true -> pair ts sl us g (one_line i) = true.
Proof.
  unfold pair. rewrite tl_one_line, !next_one_line. cbn [fst snd]. rewrite !andb_true_iff, !negb_true_iff, andb_false_r. tauto.
Qed.
Lemma fits_no_pair ts us g i : no_pair ts false us g i = true -> no_pair ts false us g (one_line i) = true.
Proof. unfold no_pair, pair. rewrite tl_one_line, !next_one_line. auto. Qed.
Lemma calm_async g i us : calm i = true -> no_pair [K "async"] true us g i = true -> no_pair [K "async"] true us g (one_line i) = true.
Proof.
  intros C H. unfold no_pair, pair in *. rewrite tl_one_line, !next_one_line. cbn [fst snd andb negb] in *.
  destruct (one_of g [K "async"] (snd (next i))) eqn:A; [|reflexivity]. cbn [andb] in *.
  destruct i as [|[nl t] j]; [discriminate A|]. cbn [next hd tl snd calm] in *.
  assert (L : fst (next j) = false).
  { rewrite !andb_true_iff in C. destruct C as [[_ C] _]. cbn [one_of existsb] in C, A. rewrite orb_false_r in A.
    assert (A' : matches no_parameters (K "async") t = true) by exact A.
    rewrite A' in C. cbn [orb andb] in C. rewrite negb_true_iff in C. exact C. }
  rewrite L in H. exact H.
Qed.

Lemma function_follows g i : one_of g [K "function"] (snd (next (tl i))) = false ->
  no_pair [K "function"] true [K "function"] g (one_line i) = true.
Proof.
  intros H. unfold no_pair, pair. rewrite tl_one_line, !next_one_line. cbn [snd fst]. rewrite H, andb_false_r. reflexivity.
Qed.
Lemma bound_function g t : one_of g [Bind] t = true -> forall g', one_of g' [K "function"] t = false.
Proof.
  intros H g'. destruct (one_of g' [K "function"] t) eqn:F; [|reflexivity].
  destruct t as [[]| | | | |n| | | |]; try discriminate F. cbn [one_of existsb matches] in F, H. rewrite orb_false_r in F, H.
  apply beqb_eq in F. subst n. discriminate H.
Qed.
Lemma rest_starts g a s i r : explicit g (NFunctionRest a s) i r -> snd (next i) = TPunctuator ParenOpen.
Proof.
  intros X. inversion X as [? ? alpha ? ? I X1]; subst. cbn [prods In] in I. destruct I as [<-|[]].
  inversion X1 as [| |? ? ? ? m ? ? X2 _| |]; subst. inversion X2 as [? ? alpha ? ? I X3]; subst.
  cbn [prods In] in I. destruct I as [<-|[]]. inversion X3 as [|? ? ? t ? ? ? O X4| | |]; subst.
  destruct t as [[]| | | | | | | | |]; try discriminate O. reflexivity.
Qed.

Lemma declared_function g i r a s : explicit g (NFunctionDeclarationRest a s) i r -> forall g', one_of g' [K "function"] (snd (next i)) = false.
Proof.
  intros X g'. inversion X as [? ? alpha ? ? I X1]; subst. cbn [prods In] in I. destruct I as [<-|[<-|[]]].
  - inversion X1 as [|? ? ? ? ? ? ? Ho X2| | |]; subst. cbn [next hd snd]. eapply bound_function. exact Ho.
  - inversion X1 as [| | | |? ? ? ? ? _ X2]; subst. inversion X2 as [| | | |? ? ? ? ? _ X3]; subst.
    inversion X3 as [| |? ? ? ? m ? ? X4 _| |]; subst. rewrite (rest_starts _ _ _ _ _ X4). reflexivity.
Qed.

Lemma fits_no_function g i : calm i = true -> no_function_start g i = true -> no_function_start g (one_line i) = true.
Proof.
  intros C. unfold no_function_start. rewrite !andb_true_iff. intros [A B]. split.
  - exact (calm_async g i [K "function"] C A).
  - rewrite next_one_line. cbn [snd]. destruct (one_of g [K "function"] (snd (next i))); [|reflexivity]. cbn [andb] in *.
    rewrite negb_involutive in *. apply fits_pair. exact B.
Qed.

(** ** All productions *)
Ltac settles X C :=
  match goal with
  | |- both _ _ _ _ = true -> _ => unfold both; rewrite !andb_true_iff; let A := fresh in let B := fresh in
      intros [A B]; split; [revert A; settles X C|revert B; settles X C]
  | |- no_item _ _ = true -> _ => unfold no_item; settles X C
  | |- no_function_start _ _ = true -> _ => apply fits_no_function; exact C
  | |- only_if _ _ _ _ = true -> _ => exact (fun H => H)
  | |- no_line_break _ _ = true -> _ => intros _; unfold no_line_break; rewrite next_one_line; reflexivity
  | |- no _ _ _ = true -> _ => apply fits_no
  | |- no_for_let _ _ = true -> _ => apply (fits_no_pair [K "let"] [NameExcept ["in"; "of"]; P SquareOpen; P CurlyOpen])
  | |- no_pair _ false _ _ _ = true -> _ => apply fits_no_pair
  | |- no_pair [K "async"] true _ _ _ = true -> _ => apply calm_async; exact C
  | |- no_pair [K "function"] true _ _ _ = true -> _ => intros _; apply function_follows;
      inversion X as [|? ? ? ? ? ? ? Ho Y| | |]; subst; cbn [tl];
      first [inversion Y as [|? ? ? second ? ? ? O' X'| | |]; subst; cbn [next hd snd]; first [eapply bound_function; exact O'|destruct second as [[]| | | | | | | | |]; try discriminate O'; reflexivity]
            |inversion Y as [| | | |? ? ? ? ? _ X']; subst; inversion X' as [| |? ? ? ? m ? ? X4 _| |]; subst;
             first [rewrite (rest_starts _ _ _ _ _ X4); reflexivity|exact (declared_function _ _ _ _ _ X4 _)]]
  | |- for_let _ _ = true -> _ => apply fits_pair
  | |- async_function _ _ = true -> _ => apply fits_pair
  | |- pair _ _ _ _ _ = true -> _ => apply fits_pair
  end.
Ltac steadies :=
  let g := fresh "g" in let i := fresh "i" in let r := fresh "r" in let X := fresh "X" in let C := fresh "C" in
  intros g i r X C; settles X C.
Ltac is_steady := cbn [steady safe_start open_end starts_safe star]; repeat split; try (intros; discriminate); try exact Logic.I; try (intros _); try disjoint; try steadies.

Lemma by_steady g n alpha i r : In alpha (prods n) -> seq_fits g alpha i r -> steady alpha ->
  (ends_open alpha = true -> open_end n = true) -> phrase_fits g n i r.
Proof.
  intros I Q S E C R. econstructor; [exact I|]. apply Q; auto using without_refl.
Qed.
Lemma line_ends g i r n (w : string) alpha : (n = NReturn \/ n = NBreak \/ n = NContinue) ->
  In alpha (prods n) -> alpha = [T [K w]; When line_break; Semi false] -> explicit_seq g alpha i r -> phrase_fits g n i r.
Proof.
  intros N0 I -> X C _. inversion X as [|? ? nl t i1 ? ? Ho X1| | |]; subst. inversion X1 as [| | | |? ? ? ? ? B X2]; subst.
  inversion X2 as [| | |? ? nl1 i2 ? ? X3|]; subst. inversion X3; subst. cbn [one_line map snd].
  destruct N0 as [ ->|[ ->| ->]]; cbn [prods In] in I;
    repeat (destruct I as [I|I]; [try discriminate I|]); try contradiction; injection I; intros; subst w;
    (econstructor; [right; left; reflexivity|]; repeat (constructor; try assumption; try reflexivity)).
Qed.
Lemma word_excluded g n i r alpha (w : string) : w = "throw" \/ False -> explicit_seq g (T [K w] :: alpha) i r -> phrase_fits g n i r.
Proof.
  intros [ ->|[]] X C _. exfalso. inversion X as [|? ? nl t i1 ? ? Ho X1| | |]; subst. cbn [calm] in C.
  assert (E : one_of no_parameters [K "throw"] t = true) by exact Ho. rewrite E in C. discriminate C.
Qed.
Lemma line_excluded g n i r alpha (w : string) : w = "async" \/ w = "yield" ->
  explicit_seq g (T [K w] :: When line_break :: alpha) i r -> phrase_fits g n i r.
Proof.
  intros W X C _. exfalso. inversion X as [|? ? nl t i1 ? ? Ho X1| | |]; subst. inversion X1 as [| | | |? ? ? ? ? B X2]; subst.
  cbn [calm] in C. assert (E : one_of no_parameters [K "async"; K "yield"] t = true).
  { cbn [one_of existsb] in *. rewrite orb_false_r in *. destruct W as [ ->| ->].
    - assert (E : matches no_parameters (K "async") t = true) by exact Ho. rewrite E. reflexivity.
    - assert (E : matches no_parameters (K "yield") t = true) by exact Ho. rewrite E. apply orb_true_r. }
  unfold line_break in B. rewrite E, B in C. rewrite andb_false_r in C. discriminate C.
Qed.
Lemma production_fits g n alpha i r : In alpha (prods n) -> explicit_seq g alpha i r -> seq_fits g alpha i r -> phrase_fits g n i r.
Proof.
  intros I X Q.
  destruct n;
    try match goal with k : for_kind |- _ => destruct k end;
    repeat match goal with b : bool |- _ => destruct b end;
    try match goal with h : method_head |- _ => destruct h as [[] [] []] end;
    pose proof I as J; cbn [prods In app map flat_map] in J;
    repeat (destruct J as [J|J]; [subst alpha|]); try contradiction J;
    try solve [apply (by_steady g _ _ _ _ I Q); [is_steady|first [discriminate|reflexivity]]].
  - apply (line_ends g i r NReturn "return" _ ltac:(auto) I eq_refl X).
  - apply (line_ends g i r NBreak "break" _ ltac:(auto) I eq_refl X).
  - apply (line_ends g i r NContinue "continue" _ ltac:(auto) I eq_refl X).
  - eapply word_excluded; [left; reflexivity|exact X].
  - eapply word_excluded; [left; reflexivity|exact X].
  - eapply line_excluded; [left; reflexivity|exact X].
  - eapply line_excluded; [left; reflexivity|exact X].
  - eapply line_excluded; [right; reflexivity|exact X].
  - intros C R. inversion X as [| |? ? ? ? m ? ? X1 X2| |]; subst. inversion X2 as [| | | |? ? ? ? ? B X3]; subst. inversion X3; subst.
    econstructor; [right; right; left; reflexivity|].
    specialize (Q [!(NLeftHand true)] ltac:(repeat constructor) ltac:(is_steady) C ltac:(discriminate)).
    inversion Q as [| |? ? ? ? m ? ? Y1 Y2| |]; subst. inversion Y2; subst. econstructor; [exact Y1|].
    constructor; [|constructor]. unfold both, no_line_break, no. rewrite next_one_line. cbn [fst snd negb andb].
    pose proof (R eq_refl g) as S. unfold postfix in S. rewrite S. reflexivity.
Qed.

Theorem fits : (forall g n i r, explicit g n i r -> phrase_fits g n i r) /\
  (forall g alpha i r, explicit_seq g alpha i r -> explicit_seq g alpha i r /\ seq_fits g alpha i r).
Proof.
  apply explicit_both.
  - intros g n alpha i r I _ [X Q]. eapply production_fits; eassumption.
  - intros g i. split; [constructor|]. intros beta W _ _ _. inversion W; subst. constructor.
  - intros g ts nl t i alpha r O _ [X Q]. split; [constructor; assumption|apply fits_token; assumption].
  - intros g n ch i m alpha r H Ph _ [X Q]. split; [econstructor; eassumption|eapply fits_nonterminal; eassumption].
  - intros g b nl i alpha r _ [X Q]. split; [constructor; assumption|apply fits_semicolon; assumption].
  - intros g c i alpha r H _ [X Q]. split; [constructor; assumption|apply fits_condition; assumption].
Qed.
Theorem fits_on_one_line l : explicit_program l -> calm l = true -> explicit_program (one_line l).
Proof. intros X C. apply (proj1 fits _ _ _ _ X C). discriminate. Qed.
