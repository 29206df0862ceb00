(** Every text begins with a token of the specification or with a lexical error, and
    [read_next] reads it accordingly. *)
From Coq Require Import String List NArith ZArith Bool Arith Lia.
From Verif Require Import Base Tokens SpecTokens Tokenizer ByteFacts LoopFacts StringFacts NumberFacts LexFacts.
Import ListNotations.
Local Open Scope N_scope.

(** ** Comments, division, regular expressions *)

Lemma utf8_cons_ascii b s : b < 128 -> utf8 (b :: s) -> utf8 s.
Proof. apply utf8_ascii_tail. Qed.

Lemma slash_line E v r h : line_comment_text v r -> utf8 (s2b "//" ++ v ++ r) ->
  read_next E (s2b "//" ++ v ++ r) h = TOk (TComment CF_Line v, length (s2b "//" ++ v)).
Proof.
  change (s2b "//") with [47; 47]. cbn [app]. intros Hv Hu. rewrite read_slash. unfold tok_slash.
  change (Nat.ltb 1 (length (47 :: 47 :: v ++ r))) with true.
  change (at_ (47 :: 47 :: v ++ r) 1) with 47. cbn [andb]. change (47 =? 47) with true. cbv iota.
  change (skipn 2 (47 :: 47 :: v ++ r)) with (v ++ r). rewrite line_comment_loop_spec by exact Hv.
  assert (Hvr : utf8 (v ++ r)).
  { apply utf8_cons_ascii in Hu; [|lia]. apply utf8_cons_ascii in Hu; [exact Hu|lia]. }
  assert (Hr : utf8 r).
  { destruct Hv as [[->|Hr] _]; [constructor|].
    destruct r as [|b r]; [constructor|].
    apply (utf8_split _ Hvr v b r eq_refl).
    apply at_lt_cases in Hr. apply is_cont_not.
    destruct Hr as [Hr|Hr].
    - rewrite orb_true_iff, !N.eqb_eq in Hr. lia.
    - rewrite andb_true_iff, N.eqb_eq in Hr. lia. }
  assert (Hend : (match (match r with [] => None | _ => Some (2 + length v)%nat end) with
                  | Some i => i | None => length (47 :: 47 :: v ++ r) end) = (2 + length v)%nat).
  { destruct r; [rewrite app_nil_r|]; reflexivity. }
  rewrite Hend.
  rewrite (slice_at _ 2 _ [47; 47] v r); [|reflexivity|reflexivity|reflexivity|exact Hvr|exact Hr].
  reflexivity.
Qed.

Lemma slash_block E v r h : block_comment_text v -> utf8 (s2b "/*" ++ (v ++ s2b "*/") ++ r) ->
  read_next E (s2b "/*" ++ (v ++ s2b "*/") ++ r) h =
  TOk (TComment CF_Block v, length (s2b "/*" ++ v ++ s2b "*/")).
Proof.
  change (s2b "/*") with [47; 42]. change (s2b "*/") with [42; 47].
  rewrite <- app_assoc. cbn [app]. intros Hv Hu. rewrite read_slash. unfold tok_slash.
  change (Nat.ltb 1 (length (47 :: 42 :: v ++ 42 :: 47 :: r))) with true.
  change (at_ (47 :: 42 :: v ++ 42 :: 47 :: r) 1) with 42. cbn [andb].
  change (42 =? 47) with false. change (42 =? 42) with true. cbv iota.
  change (skipn 2 (47 :: 42 :: v ++ 42 :: 47 :: r)) with (v ++ 42 :: 47 :: r).
  rewrite block_comment_loop_spec by (exact Hv || discriminate).
  assert (Hvr : utf8 (v ++ 42 :: 47 :: r)).
  { apply utf8_cons_ascii in Hu; [|lia]. apply utf8_cons_ascii in Hu; [exact Hu|lia]. }
  assert (Hr : utf8 (42 :: 47 :: r)) by (apply (utf8_split _ Hvr v 42 _ eq_refl); reflexivity).
  rewrite (slice_at _ 2 _ [47; 42] v (42 :: 47 :: r));
    [|reflexivity|reflexivity|cbn [length]; lia|exact Hvr|exact Hr].
  cbn [tbind length]. rewrite app_length. cbn [length]. do 2 f_equal; lia.
Qed.

Lemma slash_block_open E v h : absent (s2b "*/") v ->
  exists p, read_next E (s2b "/*" ++ v) h = TPanic p.
Proof.
  change (s2b "/*") with [47; 42]. cbn [app]. intros Hv. rewrite read_slash. unfold tok_slash.
  change (Nat.ltb 1 (length (47 :: 42 :: v))) with true.
  change (at_ (47 :: 42 :: v) 1) with 42. cbn [andb].
  change (42 =? 47) with false. change (42 =? 42) with true. cbv iota.
  change (skipn 2 (47 :: 42 :: v)) with v.
  rewrite block_comment_loop_none by (exact Hv || discriminate). eauto.
Qed.

Lemma slash_other_test s : ~ head_is (fun b => b = 47 \/ b = 42) s ->
  Nat.ltb 1 (length (47 :: s)) && (at_ (47 :: s) 1 =? 47) = false /\
  Nat.ltb 1 (length (47 :: s)) && (at_ (47 :: s) 1 =? 42) = false.
Proof.
  intros H. destruct s as [|b s]; [split; reflexivity|]. rewrite head_is_cons in H.
  change (at_ (47 :: b :: s) 1) with b.
  split; apply andb_false_iff; right; apply N.eqb_neq; tauto.
Qed.

Lemma regex_head p r : regex_body p -> p <> [] -> ~ begins (s2b "*") p ->
  ~ head_is (fun b => b = 47 \/ b = 42) (p ++ r).
Proof.
  intros Hp Np Hs. destruct p as [|c p]; [congruence|]. cbn [app]. rewrite head_is_cons.
  intros [->| ->].
  - inversion Hp; congruence.
  - apply Hs. eexists. reflexivity.
Qed.

Lemma slash_regex E p fl r h :
  h_expression h = true -> regex_body p -> p <> [] -> ~ begins (s2b "*") p ->
  Forall lower fl -> ~ head_is lower r -> utf8 (47 :: p ++ 47 :: fl ++ r) ->
  read_next E (47 :: p ++ 47 :: fl ++ r) h = TOk (TRegExp p fl, length (47 :: p ++ 47 :: fl)).
Proof.
  intros Hh Hp Np Hs Hfl Hr Hu. rewrite read_slash. unfold tok_slash.
  destruct (slash_other_test (p ++ 47 :: fl ++ r) (regex_head _ _ Hp Np Hs)) as [T1 T2].
  rewrite T1, T2, Hh. change (skipn 1 (47 :: p ++ 47 :: fl ++ r)) with (p ++ 47 :: fl ++ r).
  rewrite regex_loop_spec by exact Hp.
  assert (Hu1 : utf8 (p ++ 47 :: fl ++ r)) by (apply utf8_cons_ascii in Hu; [exact Hu|lia]).
  assert (Hu2 : utf8 (47 :: fl ++ r)) by (apply (utf8_split _ Hu1 p 47 _ eq_refl); reflexivity).
  assert (Hu3 : utf8 (fl ++ r)) by (apply utf8_cons_ascii in Hu2; [exact Hu2|lia]).
  assert (Hu4 : utf8 r).
  { apply (utf8_rest_ascii fl); [|exact Hu3]. revert Hfl. apply Forall_impl. unfold lower. intros; lia. }
  rewrite (slice_from_at _ (1 + length p + 1) (47 :: p ++ [47]) (fl ++ r));
    [|cbn [app]; rewrite <- app_assoc; reflexivity|cbn [length]; rewrite app_length; cbn; lia|exact Hu3].
  cbn [tbind]. rewrite regex_flags_loop_spec by assumption.
  rewrite (slice_at _ 1 (1 + length p) [47] p (47 :: fl ++ r)); [|reflexivity|reflexivity|reflexivity|exact Hu1|exact Hu2].
  cbn [tbind].
  rewrite (slice_at _ _ _ (47 :: p ++ [47]) fl r);
    [|cbn [app]; rewrite <- app_assoc; reflexivity
     |cbn [length]; rewrite app_length; cbn; lia
     |cbn [length]; rewrite app_length; cbn; lia|exact Hu3|exact Hu4].
  cbn [tbind length]. rewrite app_length. cbn [length]. do 2 f_equal; lia.
Qed.

Lemma slash_regex_open E v h :
  h_expression h = true -> ~ head_is (fun b => b = 47 \/ b = 42) v ->
  (forall p r, v = p ++ s2b "/" ++ r -> ~ regex_body p) ->
  exists p, read_next E (47 :: v) h = TPanic p.
Proof.
  intros Hh Hv N. rewrite read_slash. unfold tok_slash.
  destruct (slash_other_test v Hv) as [T1 T2]. rewrite T1, T2, Hh. cbv iota.
  change (skipn 1 (47 :: v)) with v. destruct (regex_loop v 1 false false) as [j|] eqn:E1; [|eauto].
  exfalso. apply regex_loop_exists in E1 as (p & r & -> & Hp). apply (N p r); [reflexivity|exact Hp].
Qed.

Lemma slash_eq E r h : h_expression h = false ->
  read_next E (47 :: 61 :: r) h = TOk (TPunctuator SlashEq, 2%nat).
Proof. intros Hh. rewrite read_slash. unfold tok_slash. rewrite Hh. reflexivity. Qed.

Lemma slash_plain E r h : h_expression h = false ->
  ~ head_is (fun b => b = 47 \/ b = 42 \/ b = 61) r ->
  read_next E (47 :: r) h = TOk (TPunctuator Slash, 1%nat).
Proof.
  intros Hh Hr. rewrite read_slash. unfold tok_slash. rewrite Hh.
  destruct (slash_other_test r) as [T1 T2].
  { intros (b & t & -> & Hb). apply Hr. rewrite head_is_cons. tauto. }
  rewrite T1, T2. cbv iota.
  replace (Nat.ltb 1 (length (47 :: r)) && (at_ (47 :: r) 1 =? 61)) with false; [reflexivity|].
  symmetry. destruct r as [|b r]; [reflexivity|]. rewrite head_is_cons in Hr.
  apply andb_false_iff. right. apply N.eqb_neq. change (at_ (47 :: b :: r) 1) with b. tauto.
Qed.

(** ** Templates *)

Lemma template_slices c v r : c < 128 -> utf8 (c :: v ++ r) ->
  (begins [96] r \/ begins [36] r) ->
  slice (c :: v ++ r) 1 (1 + length v) = TOk v.
Proof.
  intros Hc Hu Hr. apply utf8_cons_ascii in Hu; [|exact Hc].
  apply (slice_at _ 1 _ [c] v r); [reflexivity|reflexivity|reflexivity|exact Hu|].
  destruct Hr as [[x ->]|[x ->]].
  - apply (utf8_split _ Hu v 96 x eq_refl). reflexivity.
  - apply (utf8_split _ Hu v 36 x eq_refl). reflexivity.
Qed.

Lemma template_tick c v r : c < 128 -> template_text v -> utf8 (c :: v ++ 96 :: r) ->
  template_loop (skipn 1 (c :: v ++ 96 :: r)) 1 false = StopTick (1 + length v) /\
  slice (c :: v ++ 96 :: r) 1 (1 + length v) = TOk v.
Proof.
  intros Hc Hv Hu. split.
  - change (skipn 1 (c :: v ++ 96 :: r)) with (v ++ 96 :: r).
    rewrite template_loop_spec; [reflexivity|exact Hv|discriminate|].
    right; left. eexists; reflexivity.
  - apply template_slices; [exact Hc|exact Hu|]. left. eexists; reflexivity.
Qed.
Lemma template_curly c v r : c < 128 -> template_text v -> utf8 (c :: v ++ 36 :: 123 :: r) ->
  template_loop (skipn 1 (c :: v ++ 36 :: 123 :: r)) 1 false = StopCurly (1 + length v + 1) /\
  slice (c :: v ++ 36 :: 123 :: r) 1 (1 + length v + 1 - 1) = TOk v.
Proof.
  intros Hc Hv Hu. split.
  - change (skipn 1 (c :: v ++ 36 :: 123 :: r)) with (v ++ 36 :: 123 :: r).
    rewrite template_loop_spec; [reflexivity|exact Hv|discriminate|].
    right; right. eexists; reflexivity.
  - replace (1 + length v + 1 - 1)%nat with (1 + length v)%nat by lia.
    apply template_slices; [exact Hc|exact Hu|]. right. eexists; reflexivity.
Qed.
Lemma template_open c v : template_text v ->
  template_loop (skipn 1 (c :: v)) 1 false = StopNone.
Proof.
  intros Hv. change (skipn 1 (c :: v)) with v. rewrite <- (app_nil_r v).
  rewrite template_loop_spec; [reflexivity|exact Hv|discriminate|]. left; reflexivity.
Qed.

(** ** Strings *)

Lemma string_closed E q v nl r h : q = 34 \/ q = 39 -> string_text q false v nl ->
  utf8 (q :: v ++ q :: r) ->
  read_next E (q :: v ++ q :: r) h = TOk (TString v, length (q :: v ++ [q])).
Proof.
  intros Hq Hv Hu. rewrite read_quote by exact Hq. unfold tok_str.
  change (skipn 1 (q :: v ++ q :: r)) with (v ++ q :: r).
  change str_state_init with (plain false). rewrite (loop_closed q Hq v false nl) by exact Hv.
  cbn [tbind].
  assert (Aq : q < 128) by (destruct Hq as [-> | ->]; lia).
  assert (Hu1 := utf8_cons_ascii _ _ Aq Hu).
  assert (Hu2 : utf8 (q :: r)).
  { apply (utf8_split _ Hu1 v q r eq_refl). apply is_cont_not. lia. }
  rewrite (slice_at _ 1 _ [q] v (q :: r)); [|reflexivity|reflexivity|reflexivity|exact Hu1|exact Hu2].
  cbn [tbind].
  rewrite (slice_at _ 0 _ [] (q :: v ++ [q]) r);
    [|cbn [app]; rewrite <- app_assoc; reflexivity|reflexivity
     |cbn [length]; rewrite app_length; cbn; lia
     |cbn [app]; rewrite <- app_assoc; exact Hu|eapply utf8_cons_ascii; eauto].
  cbn [tbind length]. rewrite app_length. cbn [length]. do 2 f_equal; lia.
Qed.

Lemma string_unclosed E q v h : q = 34 \/ q = 39 -> string_open q v ->
  read_next E (q :: v) h = TOk (TString [], 0%nat).
Proof.
  intros Hq Hv. rewrite read_quote by exact Hq. unfold tok_str.
  change (skipn 1 (q :: v)) with v. change str_state_init with (plain false).
  rewrite loop_open by assumption. reflexivity.
Qed.

Lemma string_bad E q v h : q = 34 \/ q = 39 -> string_error q v ->
  exists p, read_next E (q :: v) h = TPanic p.
Proof.
  intros Hq Hv. rewrite read_quote by exact Hq. unfold tok_str.
  change (skipn 1 (q :: v)) with v. change str_state_init with (plain false).
  destruct (loop_error q Hq v Hv) as [p ->]. cbn [tbind]. eauto.
Qed.

(** ** Identifiers *)

Lemma ident_text E c v r h : ident_char c -> ~ digit c -> Forall ident_char v -> ~ head_is ident_char r ->
  utf8 (c :: v ++ r) -> read_next E (c :: v ++ r) h = TOk (TIdent (c :: v), length (c :: v)).
Proof.
  intros Hc Nc Hv Hr Hu. rewrite read_ident by assumption. unfold tok_ident.
  change (c :: v ++ r) with ((c :: v) ++ r). rewrite tok_ident_loop_spec; [|constructor; assumption|exact Hr].
  cbn [Nat.add]. rewrite slice_0_app; [reflexivity|].
  apply (utf8_rest_ascii (c :: v)); [|exact Hu].
  assert (X : Forall ident_char (c :: v)) by (constructor; assumption). revert X.
  apply Forall_impl. unfold ident_char, lower, upper, digit. intros; lia.
Qed.

Lemma unsupported_text E r h : unsupported r -> read_next E r h = TOk (TIdent [], 0%nat).
Proof.
  intros ((c & s & -> & H) & NL & NN & NB).
  destruct H as (N1 & N2 & N3 & N4 & N5 & NP).
  assert (P : forall p k t, spelling p = k :: t -> (c =? k) = false).
  { intros p k t E1. apply N.eqb_neq. intros ->. apply (NP p). rewrite E1. apply head_is_cons. reflexivity. }
  unfold read_next. cbn [length Nat.eqb]. change (at_ (c :: s) 0) with c.
  assert (D : digit c -> False) by (intros D; apply N1; unfold ident_char; tauto).
  assert (Z48 : (c =? 48) = false) by (apply N.eqb_neq; intros ->; apply D; unfold digit; lia).
  assert (Z49 : in_range 49 57 c = false) by (apply in_range_not; intros X; apply D; unfold digit; lia).
  apply N.eqb_neq in N3, N4, N5.
  rewrite (P CurlyOpen 123 [] eq_refl), (P ParenOpen 40 [] eq_refl), (P ParenClose 41 [] eq_refl),
    (P SquareOpen 91 [] eq_refl), (P SquareClose 93 [] eq_refl), (P Semicolon 59 [] eq_refl),
    (P Comma 44 [] eq_refl), (P Question 63 [] eq_refl), (P Colon 58 [] eq_refl), (P Tilde 126 [] eq_refl),
    (P Period 46 [] eq_refl), (P LAngle 60 [] eq_refl), (P RAngle 62 [] eq_refl), (P Eq_ 61 [] eq_refl),
    (P Exclam 33 [] eq_refl), (P Plus 43 [] eq_refl), (P Minus 45 [] eq_refl), (P Amp 38 [] eq_refl),
    (P Bar 124 [] eq_refl), (P Caret 94 [] eq_refl), (P Percent 37 [] eq_refl), (P Star 42 [] eq_refl),
    (P Slash 47 [] eq_refl), (P CurlyClose 125 [] eq_refl), N3, N4, N5, Z48, Z49.
  rewrite (proj2 (blank_not c)) by exact N2.
  rewrite at_lt_cases in NL.
  assert (NL1 : (c =? 13) || (c =? 10) = false) by (destruct ((c =? 13) || (c =? 10)); tauto).
  assert (NL2 : (c =? 226) && (starts_with NS_LS (c :: s) || starts_with NS_PS (c :: s)) = false)
    by (destruct ((c =? 226) && (starts_with NS_LS (c :: s) || starts_with NS_PS (c :: s))); tauto).
  rewrite (orb_comm (c =? 10)), NL1.
  rewrite (orb_comm (starts_with NS_PS _)), NL2.
  apply starts_with_not in NN, NB. unfold WS_ZWNBSP, WS_NBSP. unfold nbsp in NN. unfold bom in NB.
  rewrite NN, NB, !andb_false_r.
  cbn [orb]. unfold tok_ident. cbn [tok_ident_loop].
  rewrite (proj2 (ident_not c)) by exact N1. reflexivity.
Qed.

(** ** Lexemes are read *)

Theorem lexeme_read E h w t r : lexeme (overflow_checks E) h w t r -> utf8 (w ++ r) ->
  exists t', read_next E (w ++ r) h = TOk (t', length w) /\ same_token t t'.
Proof.
  intros H Hu. destruct H.
  - eexists; split; reflexivity.
  - rewrite read_line_terminator by assumption. eexists; split; reflexivity.
  - rewrite read_punctuator by assumption. eexists; split; reflexivity.
  - change (s2b "/" ++ r) with (47 :: r). rewrite slash_plain by assumption. eexists; split; reflexivity.
  - change (s2b "/=" ++ r) with (47 :: 61 :: r). rewrite slash_eq by assumption. eexists; split; reflexivity.
  - change (s2b "}" ++ r) with (125 :: r). rewrite read_curly_close. unfold tok_curly_close. rewrite H.
    eexists; split; reflexivity.
  - rewrite <- app_assoc in *. rewrite slash_line by assumption. eexists; split; reflexivity.
  - rewrite <- app_assoc in *. rewrite slash_block by assumption. eexists; split; reflexivity.
  - change (s2b "/") with [47] in *.
    replace (([47] ++ p ++ [47] ++ fl) ++ r) with (47 :: p ++ 47 :: fl ++ r) in *
      by (cbn [app]; rewrite <- app_assoc; reflexivity).
    rewrite slash_regex by assumption. eexists; split; reflexivity.
  - change (s2b "`") with [96] in *.
    replace (([96] ++ v ++ [96]) ++ r) with (96 :: v ++ 96 :: r) in *
      by (cbn [app]; rewrite <- app_assoc; reflexivity).
    rewrite read_tick. unfold tok_template_head.
    destruct (template_tick 96 v r) as [-> ->]; [lia|assumption|assumption|].
    eexists. split; [|reflexivity]. cbn [tbind app length]. rewrite app_length. cbn [length]. do 2 f_equal; lia.
  - change (s2b "`") with [96] in *. change (s2b "${") with [36; 123] in *.
    replace (([96] ++ v ++ [36; 123]) ++ r) with (96 :: v ++ 36 :: 123 :: r) in *
      by (cbn [app]; rewrite <- app_assoc; reflexivity).
    rewrite read_tick. unfold tok_template_head.
    destruct (template_curly 96 v r) as [-> ->]; [lia|assumption|assumption|].
    eexists. split; [|reflexivity]. cbn [tbind app length]. rewrite app_length. cbn [length]. do 2 f_equal; lia.
  - change (s2b "}") with [125] in *. change (s2b "${") with [36; 123] in *.
    replace (([125] ++ v ++ [36; 123]) ++ r) with (125 :: v ++ 36 :: 123 :: r) in *
      by (cbn [app]; rewrite <- app_assoc; reflexivity).
    rewrite read_curly_close. unfold tok_curly_close. rewrite H.
    destruct (template_curly 125 v r) as [-> ->]; [lia|assumption|assumption|].
    eexists. split; [|reflexivity]. cbn [tbind app length]. rewrite app_length. cbn [length]. do 2 f_equal; lia.
  - change (s2b "}") with [125] in *. change (s2b "`") with [96] in *.
    replace (([125] ++ v ++ [96]) ++ r) with (125 :: v ++ 96 :: r) in *
      by (cbn [app]; rewrite <- app_assoc; reflexivity).
    rewrite read_curly_close. unfold tok_curly_close. rewrite H.
    destruct (template_tick 125 v r) as [-> ->]; [lia|assumption|assumption|].
    eexists. split; [|reflexivity]. cbn [tbind app length]. rewrite app_length. cbn [length]. do 2 f_equal; lia.
  - cbn [app] in *. rewrite ident_text by assumption. eexists; split; reflexivity.
  - cbn [app]. rewrite unsupported_text by assumption. eexists; split; reflexivity.
  - replace ((q :: v ++ [q]) ++ r) with (q :: v ++ q :: r) in *
      by (cbn [app]; rewrite <- app_assoc; reflexivity).
    rewrite (string_closed E q v nl) by assumption. eexists; split; reflexivity.
  - cbn [app]. rewrite string_unclosed by assumption. eexists; split; reflexivity.
  - rewrite <- app_assoc in *. destruct (tok_decimal_spec E m x r H Hu) as [A _].
    destruct (A H0) as (v & Hv & _). exists (TNumeric v). split; [|exact I]. rewrite <- Hv.
    destruct H as [d ds|d ds fs|f fs x r Hf|fs|]; cbn [app].
    + rewrite read_digit by assumption. unfold tok_decimal, at_. cbn [nth].
      destruct (N.eqb_spec d 46); [lia|]. destruct (N.eqb_spec d 48); [lia|]. reflexivity.
    + rewrite read_digit by assumption. unfold tok_decimal, at_. cbn [nth].
      destruct (N.eqb_spec d 46); [lia|]. destruct (N.eqb_spec d 48); [lia|]. reflexivity.
    + rewrite read_dot_digit by (inversion Hf; assumption). reflexivity.
    + rewrite read_zero. reflexivity.
    + rewrite read_zero. reflexivity.
  - cbn [app] in *. destruct (tok_radix_ok E k l d ds r) as [v Hv]; try assumption.
    exists (TNumeric v). split; [|exact I]. rewrite read_zero. exact Hv.
Qed.

Theorem lex_error_read E h s : lex_error (overflow_checks E) h s -> utf8 s ->
  exists p, read_next E s h = TPanic p.
Proof.
  intros H Hu. destruct H.
  - apply slash_block_open; assumption.
  - apply slash_regex_open; assumption.
  - change (s2b "`" ++ v) with (96 :: v). rewrite read_tick. unfold tok_template_head.
    rewrite template_open by assumption. eauto.
  - change (s2b "}" ++ v) with (125 :: v). rewrite read_curly_close. unfold tok_curly_close.
    rewrite H, template_open by assumption. eauto.
  - apply string_bad; assumption.
  - destruct (tok_decimal_spec E m x r H0 Hu) as [_ A].
    exists P_overflow. rewrite <- A by assumption.
    destruct H0 as [d ds|d ds fs|f fs x r Hf|fs|]; cbn [app].
    + rewrite read_digit by assumption. unfold tok_decimal, at_. cbn [nth].
      destruct (N.eqb_spec d 46); [lia|]. destruct (N.eqb_spec d 48); [lia|]. reflexivity.
    + rewrite read_digit by assumption. unfold tok_decimal, at_. cbn [nth].
      destruct (N.eqb_spec d 46); [lia|]. destruct (N.eqb_spec d 48); [lia|]. reflexivity.
    + rewrite read_dot_digit by (inversion Hf; assumption). reflexivity.
    + rewrite read_zero. reflexivity.
    + rewrite read_zero. reflexivity.
  - rewrite read_zero. eapply tok_radix_bad_first; eassumption.
  - rewrite read_zero. eapply tok_radix_bad_digit; eassumption.
  - rewrite read_nbsp. eauto.
  - rewrite read_bom. eauto.
Qed.

(** ** Every text is one or the other *)

Lemma single_spelling p c : head_is (eq c) (spelling p) ->
  exists q, q <> LAngleExclamDashDash /\ spelling q = [c].
Proof.
  intros (b & t & E & <-).
  destruct p; vm_compute in E; injection E as <- _;
  first
  [ exists CurlyOpen; split; [discriminate|reflexivity] | exists CurlyClose; split; [discriminate|reflexivity]
  | exists ParenOpen; split; [discriminate|reflexivity] | exists ParenClose; split; [discriminate|reflexivity]
  | exists SquareOpen; split; [discriminate|reflexivity] | exists SquareClose; split; [discriminate|reflexivity]
  | exists Semicolon; split; [discriminate|reflexivity] | exists Comma; split; [discriminate|reflexivity]
  | exists Tilde; split; [discriminate|reflexivity] | exists Question; split; [discriminate|reflexivity]
  | exists Colon; split; [discriminate|reflexivity] | exists Period; split; [discriminate|reflexivity]
  | exists LAngle; split; [discriminate|reflexivity] | exists RAngle; split; [discriminate|reflexivity]
  | exists Exclam; split; [discriminate|reflexivity] | exists Eq_; split; [discriminate|reflexivity]
  | exists Plus; split; [discriminate|reflexivity] | exists Minus; split; [discriminate|reflexivity]
  | exists Percent; split; [discriminate|reflexivity] | exists Star; split; [discriminate|reflexivity]
  | exists Slash; split; [discriminate|reflexivity] | exists Amp; split; [discriminate|reflexivity]
  | exists Bar; split; [discriminate|reflexivity] | exists Caret; split; [discriminate|reflexivity] ].
Qed.

Definition lexes (checks : bool) (h : hint) (s : bytes) : Prop :=
  (exists w t r, s = w ++ r /\ lexeme checks h w t r) \/ lex_error checks h s.

Lemma lexes_slash checks h s : lexes checks h (47 :: s).
Proof.
  destruct s as [|b s].
  { destruct (h_expression h) eqn:Hh.
    - right. apply (le_regex _ _ []); [exact Hh|apply head_is_nil|].
      intros p r E. destruct p; discriminate.
    - left. exists (s2b "/"), (TPunctuator Slash), []. split; [reflexivity|].
      apply lx_slash; [exact Hh|apply head_is_nil]. }
  destruct (N.eq_dec b 47) as [->|N1].
  { left. destruct (line_comment_exists s) as (v & r & -> & H).
    exists (s2b "//" ++ v), (TComment CF_Line v), r. split; [reflexivity|]. apply lx_line_comment, H. }
  destruct (N.eq_dec b 42) as [->|N2].
  { destruct (first_occurrence (s2b "*/") s) as [H|(v & r & -> & H)]; [discriminate| |].
    - right. apply (le_block_comment _ _ s), H.
    - left. exists (s2b "/*" ++ v ++ s2b "*/"), (TComment CF_Block v), r.
      split; [cbn [app s2b]; rewrite <- app_assoc; reflexivity|]. apply lx_block_comment, H. }
  destruct (h_expression h) eqn:Hh.
  - destruct (regex_loop (b :: s) 1 false false) as [j|] eqn:E1.
    + apply regex_loop_exists in E1 as (p & r & E & Hp).
      destruct (span_exists lower lower_dec r) as (fl & r' & -> & Hfl & Hr').
      left. exists (s2b "/" ++ p ++ s2b "/" ++ fl), (TRegExp p fl), r'. split.
      * rewrite E. cbn [app s2b]. rewrite <- app_assoc. reflexivity.
      * apply lx_regex; try assumption.
        -- intros ->. injection E as E _. congruence.
        -- intros [x ->]. injection E as E _. apply N2. rewrite E. reflexivity.
    + right. apply (le_regex _ _ (b :: s)); [exact Hh| |].
      * rewrite head_is_cons. tauto.
      * intros p r E Hp. rewrite E in E1. change (s2b "/") with [47] in E1.
        cbn [app] in E1. rewrite regex_loop_spec in E1 by exact Hp. discriminate.
  - left. destruct (N.eq_dec b 61) as [->|N3].
    + exists (s2b "/="), (TPunctuator SlashEq), s. split; [reflexivity|]. apply lx_slash_eq, Hh.
    + exists (s2b "/"), (TPunctuator Slash), (b :: s). split; [reflexivity|].
      apply lx_slash; [exact Hh|]. rewrite head_is_cons. tauto.
Qed.

Lemma lexes_template checks h s : lexes checks h (96 :: s).
Proof.
  destruct (template_exists s) as [H|(v & r & Hv & [-> | ->])].
  - right. apply (le_template _ _ s), H.
  - left. exists (s2b "`" ++ v ++ s2b "`"), (TTemplate TF_NoSubstitution v v), r.
    split; [cbn [app s2b]; rewrite <- app_assoc; reflexivity|]. apply lx_template_whole, Hv.
  - left. exists (s2b "`" ++ v ++ s2b "${"), (TTemplate TF_Head v v), r.
    split; [cbn [app s2b]; rewrite <- app_assoc; reflexivity|]. apply lx_template_head, Hv.
Qed.

Lemma lexes_curly checks h s : lexes checks h (125 :: s).
Proof.
  destruct (h_template h) eqn:Hh.
  - destruct (template_exists s) as [H|(v & r & Hv & [-> | ->])].
    + right. apply (le_template_rest _ _ s); assumption.
    + left. exists (s2b "}" ++ v ++ s2b "`"), (TTemplate TF_Tail v v), r.
      split; [cbn [app s2b]; rewrite <- app_assoc; reflexivity|]. apply lx_template_tail; assumption.
    + left. exists (s2b "}" ++ v ++ s2b "${"), (TTemplate TF_Middle v v), r.
      split; [cbn [app s2b]; rewrite <- app_assoc; reflexivity|]. apply lx_template_middle; assumption.
  - left. exists (s2b "}"), (TPunctuator CurlyClose), s. split; [reflexivity|]. apply lx_curly_close, Hh.
Qed.

Lemma lexes_string checks h q s : q = 34 \/ q = 39 -> lexes checks h (q :: s).
Proof.
  intros Hq. destruct (string_cases_start q Hq s) as [(v & r & nl & -> & Hv)|[H|H]].
  - left. exists (q :: v ++ [q]), (TString v), r.
    split; [cbn [app]; rewrite <- app_assoc; reflexivity|]. eapply lx_string; eassumption.
  - left. exists [], (TString []), (q :: s). split; [reflexivity|]. apply lx_string_empty; assumption.
  - right. apply le_string; assumption.
Qed.

Lemma lexes_decimal checks h m x r : decimal_text m x r -> lexes checks h (m ++ x ++ r).
Proof.
  intros H. destruct (exponent_fits_dec x) as [F|F].
  - left. exists (m ++ x), (TNumeric f64_zero), r. split; [apply app_assoc|]. apply lx_decimal; auto.
  - destruct checks.
    + right. apply le_exponent; auto.
    + left. exists (m ++ x), (TNumeric f64_zero), r. split; [apply app_assoc|]. apply lx_decimal; auto.
      discriminate.
Qed.

Lemma lexes_digit checks h d s : 49 <= d <= 57 -> lexes checks h (d :: s).
Proof.
  intros Hd. destruct (span_exists digit digit_dec s) as (ds & t & -> & Hds & Ht).
  assert (D : head_is (eq 46) t \/ ~ head_is (eq 46) t).
  { destruct t as [|b t]; [right; apply head_is_nil|]. rewrite head_is_cons. lia. }
  destruct D as [(b & u & -> & <-)|D].
  - destruct (span_exists digit digit_dec u) as (fs & t & -> & Hfs & Hu).
    destruct (exponent_exists t) as (x & r & -> & Hx).
    replace (d :: ds ++ 46 :: fs ++ x ++ r) with ((d :: ds ++ 46 :: fs) ++ x ++ r)
      by (cbn [app]; rewrite <- app_assoc; reflexivity).
    apply lexes_decimal. apply dt_fraction; assumption.
  - destruct (exponent_exists t) as (x & r & -> & Hx).
    apply (lexes_decimal checks h (d :: ds) x r). apply dt_integer; assumption.
Qed.

Lemma lexes_dot checks h d s : digit d -> lexes checks h (46 :: d :: s).
Proof.
  intros Hd. destruct (span_exists digit digit_dec s) as (ds & t & -> & Hds & Ht).
  destruct (exponent_exists t) as (x & r & -> & Hx).
  apply (lexes_decimal checks h (46 :: d :: ds) x r). apply dt_dot; auto.
Qed.

Lemma lexes_radix checks h k l d s : radix_letter k l -> lexes checks h (48 :: l :: d :: s).
Proof.
  intros Hl.
  assert (D : first_digit checks d \/ ~ first_digit checks d).
  { unfold first_digit. destruct checks; [|].
    - destruct (N.ltb_spec d 128), (N.leb_spec 48 d); try (right; intros [A B]; specialize (B eq_refl); lia).
      left. split; auto.
    - destruct (N.ltb_spec d 128); [left; split; [lia|discriminate] | right; intros [A B]; lia]. }
  destruct D as [D|D]; [|right; eapply le_first_digit; eassumption].
  destruct (span_exists (radix_digit k) (radix_digit_dec k) s) as (ds & r & -> & Hds & Hr).
  assert (R : head_is (radix_refused k) r \/ ~ head_is (radix_refused k) r).
  { destruct r as [|b r]; [right; apply head_is_nil|]. rewrite head_is_cons. apply radix_refused_dec. }
  destruct R as [R|R].
  - right. eapply le_digit; eassumption.
  - left. exists (48 :: l :: d :: ds), (TNumeric f64_zero), r. split; [reflexivity|].
    eapply lx_radix; eassumption.
Qed.

Lemma lexes_zero checks h s : lexes checks h (48 :: s).
Proof.
  assert (Z : (length s <= 1)%nat \/ ~ head_is (fun b => In b (s2b "xXoObB.")) s -> lexes checks h (48 :: s)).
  { intros H. apply (lexes_decimal checks h [48] [] s). apply dt_zero, H. }
  destruct s as [|b [|d s]]; [apply Z; left; cbn; lia|apply Z; left; cbn; lia|].
  destruct (N.eq_dec b 120) as [->|N1]; [apply (lexes_radix checks h Hex); cbn; auto|].
  destruct (N.eq_dec b 88) as [->|N2]; [apply (lexes_radix checks h Hex); cbn; auto|].
  destruct (N.eq_dec b 111) as [->|N3]; [apply (lexes_radix checks h Octal); cbn; auto|].
  destruct (N.eq_dec b 79) as [->|N4]; [apply (lexes_radix checks h Octal); cbn; auto|].
  destruct (N.eq_dec b 98) as [->|N5]; [apply (lexes_radix checks h Binary); cbn; auto|].
  destruct (N.eq_dec b 66) as [->|N6]; [apply (lexes_radix checks h Binary); cbn; auto|].
  destruct (N.eq_dec b 46) as [->|N7].
  { destruct (span_exists digit digit_dec (d :: s)) as (fs & t & E & Hfs & Ht).
    destruct (exponent_exists t) as (x & r & -> & Hx). rewrite E.
    apply (lexes_decimal checks h (48 :: 46 :: fs) x r). apply dt_zero_dot; auto.
    rewrite <- E. discriminate. }
  apply Z. right. rewrite head_is_cons.
  change (s2b "xXoObB.") with [120; 88; 111; 79; 98; 66; 46]. cbn [In]. intuition congruence.
Qed.

Theorem lex_total checks h s : ~ head_is blank s -> lexes checks h s.
Proof.
  intros Hb. destruct s as [|c s].
  { left. exists [], TEOF, []. split; [reflexivity|constructor]. }
  rewrite head_is_cons in Hb.
  destruct (at_lt_dec (c :: s)) as [(t & Ht & r & E)|NL].
  { left. exists t, TLineTerminator, r. split; [exact E|]. apply lx_line_terminator. exact Ht. }
  destruct (begins_dec nbsp (c :: s)) as [[r0 E]|NN]; [right; rewrite E; apply le_nbsp|].
  destruct (begins_dec bom (c :: s)) as [[r0 E]|NB]; [right; rewrite E; apply le_bom|].
  destruct (N.eq_dec c 47) as [->|N47]; [apply lexes_slash|].
  destruct (N.eq_dec c 125) as [->|N125]; [apply lexes_curly|].
  destruct (N.eq_dec c 96) as [->|N96]; [apply lexes_template|].
  destruct (N.eq_dec c 34) as [->|N34]; [apply lexes_string; auto|].
  destruct (N.eq_dec c 39) as [->|N39]; [apply lexes_string; auto|].
  destruct (N.eq_dec c 48) as [->|N48]; [apply lexes_zero|].
  destruct (digit_dec c) as [D|D]; [apply lexes_digit; unfold digit in D; lia|].
  destruct (ident_char_dec c) as [I|I].
  { destruct (span_exists ident_char ident_char_dec s) as (v & r & -> & Hv & Hr).
    left. exists (c :: v), (TIdent (c :: v)), r. split; [reflexivity|]. constructor; assumption. }
  assert (P : (exists q, q <> LAngleExclamDashDash /\ spelling q = [c]) \/
              forall p, ~ head_is (eq c) (spelling p)).
  { assert (X : forall l, (exists p, In p l /\ head_is (eq c) (spelling p)) \/
                forall p, In p l -> ~ head_is (eq c) (spelling p)).
    { induction l as [|p l IH]; [right; intros ? []|].
      destruct IH as [(q & Hq & X)|IH]; [left; exists q; cbn; auto|].
      assert (Dp : head_is (eq c) (spelling p) \/ ~ head_is (eq c) (spelling p)).
      { destruct (spelling p) as [|b t]; [right; apply head_is_nil|]. rewrite head_is_cons. lia. }
      destruct Dp as [Dp|Dp]; [left; exists p; cbn; auto|].
      right. intros q [<-|Hq]; auto. }
    destruct (X all_punctuators) as [(p & _ & Hp)|Y].
    - left. eapply single_spelling, Hp.
    - right. intros p. apply Y, all_punctuators_in. }
  destruct P as [(q & Nq & Eq)|P].
  - destruct (longest_exists (c :: s) q Nq) as [p Lp]; [rewrite Eq; eexists; reflexivity|].
    assert (L' := Lp). destruct L' as (Np & [r E] & _).
    assert (Hh : ~ hinted p).
    { intros [->|[->| ->]]; vm_compute in E; injection E as E _; congruence. }
    assert (Dd : (p = Period /\ head_is digit r) \/ (p = Period -> ~ head_is digit r)).
    { destruct (punctuator_eq_dec p Period) as [->|]; [|right; congruence].
      destruct r as [|b r]; [right; intros _; apply head_is_nil|].
      rewrite head_is_cons. destruct (digit_dec b); auto. }
    destruct Dd as [[-> (b & u & -> & Hd)]|Dd].
    + rewrite E. apply lexes_dot, Hd.
    + left. exists (spelling p), (TPunctuator p), r. split; [exact E|].
      apply lx_punctuator; try assumption. rewrite <- E. exact Lp.
  - left. exists [], (TIdent []), (c :: s). split; [reflexivity|]. constructor.
    split; [rewrite head_is_cons; auto 10|]. auto.
Qed.

(** ** The characterization of [read_next] *)

Lemma lexeme_same checks h w t t' r : lexeme checks h w t r -> same_token t t' -> lexeme checks h w t' r.
Proof.
  intros H S. destruct H; destruct t'; cbn in S; try discriminate; try (injection S as <-); try (injection S as <- <-);
    try (injection S as <- <- <-);
    try solve [econstructor; eassumption]; try solve [subst; econstructor; eassumption].
Qed.

Theorem read_next_ok E h s t n : utf8 s -> ~ head_is blank s ->
  read_next E s h = TOk (t, n) ->
  exists w r, s = w ++ r /\ length w = n /\ lexeme (overflow_checks E) h w t r.
Proof.
  intros Hu Hb Hr. destruct (lex_total (overflow_checks E) h s Hb) as [(w & t0 & r & -> & H)|H].
  - destruct (lexeme_read E h w t0 r H Hu) as (t' & Ht & S). rewrite Ht in Hr. injection Hr as -> <-.
    exists w, r. repeat split; auto. eapply lexeme_same; eassumption.
  - destruct (lex_error_read E h s H Hu) as [p Hp]. congruence.
Qed.

Theorem read_next_panic E h s p : utf8 s -> ~ head_is blank s ->
  read_next E s h = TPanic p -> lex_error (overflow_checks E) h s.
Proof.
  intros Hu Hb Hr. destruct (lex_total (overflow_checks E) h s Hb) as [(w & t0 & r & -> & H)|H]; [|exact H].
  destruct (lexeme_read E h w t0 r H Hu) as (t' & Ht & S). congruence.
Qed.
