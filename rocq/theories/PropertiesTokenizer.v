(** The properties of the tokenizer (C01-C22, C40).  Statements use the API
    ([next_token], [into_tokenizer]) and the specifications of SpecTokens.v and
    SpecStream.v only.  [stands t u] says that the tokenizer [t] is in front of the text
    [u]; a fresh tokenizer is in front of its source (C01_start), and every call leaves the
    tokenizer in front of some text (C01). *)
From Coq Require Import String List NArith ZArith Bool Arith Lia.
From Verif Require Import Base Tokens SpecTokens SpecStream Tokenizer ByteFacts TokenProps TokenProps2 TokenProps3 TokenProps4.
Import ListNotations.
Local Open Scope N_scope.

(** ** Concrete cases: a build with overflow checks, ASCII sources *)
Definition debug_build : env := {| overflow_checks := true; powi10 := fun z => f64_of_Z (10 ^ z) |}.
Definition release_build : env := {| overflow_checks := false; powi10 := fun z => f64_of_Z (10 ^ z) |}.
Definition start (s : string) : slice_tokenizer := into_tokenizer (s2b s).
Definition no_hint : hint := hint_default.
Definition expr_hint : hint := Hint true false false.
Definition template_hint : hint := Hint false true false.

Lemma ascii_start s : forallb (fun b => b <? 128) (s2b s) = true -> stands (start s) (s2b s).
Proof.
  intros H. apply stands_start. apply forallb_forall in H || rewrite forallb_forall in H.
  revert H. generalize (s2b s). intros l. induction l as [|a l IH]; intros H; [constructor|].
  apply utf8_1; [apply N.ltb_lt, H; left; reflexivity|]. apply IH. intros x Hx. apply H. right. exact Hx.
Qed.
Ltac at_start := apply ascii_start; reflexivity.
Ltac no_blanks := apply Forall_nil.
Ltac some_blanks := repeat constructor; unfold blank; lia.

(** ** C01 Token ranges tile the source *)
Theorem C01_ranges_tile_the_source : forall E code hs l t,
  utf8 code -> run E (into_tokenizer code) hs l t ->
  tiles code 0 l (offset (st_pos t)) /\ st_code t = code /\ exists u, stands t u.
Proof. exact c01. Qed.
Print Assumptions C01_ranges_tile_the_source.

Theorem C01_start : forall code, utf8 code -> stands (into_tokenizer code) code.
Proof. exact stands_start. Qed.

Example C01_case : exists t,
  run debug_build (start "a +b") [no_hint; expr_hint; no_hint]
    [(TIdent (s2b "a"), Range (Pos 0 0 0) (Pos 1 0 1));
     (TPunctuator Plus, Range (Pos 2 0 2) (Pos 3 0 3));
     (TIdent (s2b "b"), Range (Pos 3 0 3) (Pos 4 0 4))] t.
Proof. eexists. repeat (eapply run_cons; [vm_compute; reflexivity|]). apply run_nil. Qed.

(** ** C02 A range spells its token *)
Theorem C02_range_spells_token : forall E t h u tok rg t',
  stands t u -> next_token E t h = TOk (tok, rg, t') ->
  exists w, slice (st_code t) (offset (r_start rg)) (offset (r_end rg)) = TOk w /\ spells tok w.
Proof. exact c02. Qed.
Print Assumptions C02_range_spells_token.

Example C02_case : exists rg t',
  next_token debug_build (start " /* x */y") no_hint = TOk (TComment CF_Block (s2b " x "), rg, t') /\
  slice (s2b " /* x */y") (offset (r_start rg)) (offset (r_end rg)) = TOk (s2b "/* x */").
Proof. do 2 eexists. split; vm_compute; reflexivity. Qed.

(** A number need not consist of characters of numeric literals: [0x;] is one token. *)
Theorem C02_number_characters_refuted : exists code n rg t',
  next_token debug_build (into_tokenizer code) no_hint = TOk (TNumeric n, rg, t') /\
  exists w, slice code (offset (r_start rg)) (offset (r_end rg)) = TOk w /\ In 59 (* ; *) w.
Proof.
  exists (s2b "0x;"). do 3 eexists. split; [vm_compute; reflexivity|].
  eexists. split; [vm_compute; reflexivity|]. right; right; left. reflexivity.
Qed.

(** ** C03 Progress, and exactly when there is none *)
Theorem C03_progress : forall E t h u tok rg t',
  stands t u -> next_token E t h = TOk (tok, rg, t') ->
  (offset (r_end rg) = offset (r_start rg) <->
   (tok = TEOF /\ blanks u) \/
   (tok = TIdent [] /\ exists g s, u = g ++ s /\ blanks g /\ unsupported s) \/
   (tok = TString [] /\ exists g q s, u = g ++ q :: s /\ blanks g /\ (q = 34 \/ q = 39) /\ string_open q s)).
Proof. exact c03. Qed.
Print Assumptions C03_progress.

Example C03_case_none : exists rg t', next_token debug_build (start " 'abc") no_hint = TOk (TString [], rg, t')
  /\ offset (r_end rg) = offset (r_start rg).
Proof. do 2 eexists. split; vm_compute; reflexivity. Qed.
Example C03_case_some : exists rg t', next_token debug_build (start " 'abc'") no_hint = TOk (TString (s2b "abc"), rg, t')
  /\ offset (r_end rg) = (offset (r_start rg) + 5)%nat.
Proof. do 2 eexists. split; vm_compute; reflexivity. Qed.

(** ** C04 EOF means the end, and stays *)
Theorem C04_eof_is_the_end : forall E t h u tok rg t',
  stands t u -> next_token E t h = TOk (tok, rg, t') -> (tok = TEOF <-> blanks u).
Proof. exact c04. Qed.
Theorem C04_eof_stays : forall E t h u rg t',
  stands t u -> next_token E t h = TOk (TEOF, rg, t') ->
  offset (r_end rg) = length (st_code t) /\ r_start rg = r_end rg /\
  forall h', next_token E t' h' = TOk (TEOF, Range (r_end rg) (r_end rg), t').
Proof. exact c04_stays. Qed.
Print Assumptions C04_eof_is_the_end.
Print Assumptions C04_eof_stays.

Example C04_case : exists t', next_token debug_build (start "  ") no_hint = TOk (TEOF, Range (Pos 2 0 2) (Pos 2 0 2), t').
Proof. eexists. vm_compute. reflexivity. Qed.

(** ** C05 Exactly when tokenizing panics *)
Theorem C05_panics_exactly : forall E t h u, stands t u ->
  (panics E t h <-> exists g s, u = g ++ s /\ blanks g /\ ~ head_is blank s /\ lex_error (overflow_checks E) h s).
Proof. exact panics_iff. Qed.
Theorem C05_no_unreachable : forall E t h u s, stands t u -> next_token E t h <> TPanic (P_unreachable s).
Proof. intros E t h u s St. exact (c05_unreachable E t h u St s). Qed.
Print Assumptions C05_panics_exactly.
Print Assumptions C05_no_unreachable.

Example C05_case : panics debug_build (start "  /* x") no_hint.
Proof. eexists. vm_compute. reflexivity. Qed.
Example C05_case_error : lex_error true no_hint (s2b "0b12").
Proof.
  apply (le_digit true no_hint Binary 98 49 [] [50]); [left; reflexivity|split; [|intros _]; reflexivity || lia|constructor|].
  exists 50, []. split; [reflexivity|]. cbn. lia.
Qed.

(** ** C06 Longest punctuator wins *)
Theorem C06_returned_is_longest : forall E t h u p rg t',
  stands t u -> next_token E t h = TOk (TPunctuator p, rg, t') ->
  exists g r, u = g ++ spelling p ++ r /\ blanks g /\ longest_punctuator p (spelling p ++ r) /\ stands t' r.
Proof. exact c06_returned. Qed.
Theorem C06_longest_is_returned : forall E t h g p r,
  stands t (g ++ spelling p ++ r) -> blanks g ->
  longest_punctuator p (spelling p ++ r) -> ~ hinted p -> (p = Period -> ~ head_is digit r) ->
  reads E t h g (spelling p) (TPunctuator p) r.
Proof. exact c06_read. Qed.
Print Assumptions C06_returned_is_longest.
Print Assumptions C06_longest_is_returned.

Example C06_case : exists rg t', next_token debug_build (start " >>>=x") no_hint = TOk (TPunctuator RAngleAngleAngleEq, rg, t').
Proof. do 2 eexists. vm_compute. reflexivity. Qed.
Example C06_case_longest : longest_punctuator RAngleAngle (spelling RAngleAngle ++ s2b "a").
Proof.
  split; [discriminate|]. split; [eexists; reflexivity|].
  intros q _ (r & Hr). destruct q; cbn in Hr; injection Hr; intros; try discriminate; cbn; lia.
Qed.

(** ** C07 The hint decides '/' and '}' *)
Theorem C07_slash : forall E t h g s,
  stands t (g ++ s2b "/" ++ s) -> blanks g -> ~ begins (s2b "/") s -> ~ begins (s2b "*") s ->
  h_expression h = false ->
  (begins (s2b "=") s -> exists r, s = s2b "=" ++ r /\ reads E t h g (s2b "/=") (TPunctuator SlashEq) r) /\
  (~ begins (s2b "=") s -> reads E t h g (s2b "/") (TPunctuator Slash) s).
Proof. exact c07_slash. Qed.
Theorem C07_curly : forall E t h g s,
  stands t (g ++ s2b "}" ++ s) -> blanks g -> h_template h = false ->
  reads E t h g (s2b "}") (TPunctuator CurlyClose) s.
Proof. exact c07_curly. Qed.
Print Assumptions C07_slash.
Print Assumptions C07_curly.

Example C07_case : stands (start " /= 2") ([32] ++ s2b "/" ++ s2b "= 2") /\ begins (s2b "=") (s2b "= 2") /\
  ~ begins (s2b "/") (s2b "= 2") /\ ~ begins (s2b "*") (s2b "= 2").
Proof.
  split; [at_start|]. split; [eexists; reflexivity|]. split; intros (r & Hr); discriminate.
Qed.
Example C07_case_hint : exists rg t' rg2 t2',
  next_token debug_build (start "/a/g") no_hint = TOk (TPunctuator Slash, rg, t') /\
  next_token debug_build (start "/a/g") expr_hint = TOk (TRegExp (s2b "a") (s2b "g"), rg2, t2').
Proof. do 4 eexists. split; vm_compute; reflexivity. Qed.

(** ** C08 Line comments end exactly at the first line terminator *)
Theorem C08_line_comment : forall E t h g s, stands t (g ++ s2b "//" ++ s) -> blanks g ->
  exists v r, s = v ++ r /\ line_comment_text v r /\ reads E t h g (s2b "//" ++ v) (TComment CF_Line v) r.
Proof. exact c08. Qed.
Print Assumptions C08_line_comment.

Example C08_case : stands (start " //ab") ([32] ++ s2b "//" ++ s2b "ab") /\ blanks [32].
Proof. split; [at_start|some_blanks]. Qed.

(** ** C09 Block comments end at the first star-slash *)
Theorem C09_block_comment : forall E t h g s, stands t (g ++ s2b "/*" ++ s) -> blanks g ->
  (absent (s2b "*/") s /\ panics E t h) \/
  exists v r, s = v ++ s2b "*/" ++ r /\ block_comment_text v /\
    reads E t h g (s2b "/*" ++ v ++ s2b "*/") (TComment CF_Block v) r.
Proof. exact c09. Qed.
Print Assumptions C09_block_comment.

Example C09_case : exists rg t', next_token debug_build (start "/*/ **/ */") no_hint = TOk (TComment CF_Block (s2b "/ *"), rg, t').
Proof. do 2 eexists. vm_compute. reflexivity. Qed.
Example C09_case_open : panics debug_build (start "/*/") no_hint.
Proof. eexists. vm_compute. reflexivity. Qed.

(** ** C10 Template chunks end at the first '${' or backtick *)
Theorem C10_template_start : forall E t h g s, stands t (g ++ s2b "`" ++ s) -> blanks g ->
  (template_text s /\ panics E t h) \/
  (exists v r, s = v ++ s2b "`" ++ r /\ template_text v /\
     reads E t h g (s2b "`" ++ v ++ s2b "`") (TTemplate TF_NoSubstitution v v) r) \/
  (exists v r, s = v ++ s2b "${" ++ r /\ template_text v /\
     reads E t h g (s2b "`" ++ v ++ s2b "${") (TTemplate TF_Head v v) r).
Proof. exact c10_open. Qed.
Theorem C10_template_rest : forall E t h g s,
  stands t (g ++ s2b "}" ++ s) -> blanks g -> h_template h = true ->
  (template_text s /\ panics E t h) \/
  (exists v r, s = v ++ s2b "`" ++ r /\ template_text v /\
     reads E t h g (s2b "}" ++ v ++ s2b "`") (TTemplate TF_Tail v v) r) \/
  (exists v r, s = v ++ s2b "${" ++ r /\ template_text v /\
     reads E t h g (s2b "}" ++ v ++ s2b "${") (TTemplate TF_Middle v v) r).
Proof. exact c10_rest. Qed.
Print Assumptions C10_template_start.
Print Assumptions C10_template_rest.

Example C10_case : exists rg t', next_token debug_build (start "} $x${b") template_hint = TOk (TTemplate TF_Middle (s2b " $x") (s2b " $x"), rg, t').
Proof. do 2 eexists. vm_compute. reflexivity. Qed.
(** A backslash does not protect a backtick. *)
Theorem C10_escapes_honoured_refuted : exists code rg t',
  code = s2b "`\``" /\ next_token debug_build (into_tokenizer code) no_hint = TOk (TTemplate TF_NoSubstitution [92] [92], rg, t').
Proof. do 3 eexists. split; [reflexivity|vm_compute; reflexivity]. Qed.

(** ** C11 Regular expression extent *)
Theorem C11_regexp : forall E t h g s,
  stands t (g ++ s2b "/" ++ s) -> blanks g -> h_expression h = true ->
  ~ begins (s2b "/") s -> ~ begins (s2b "*") s ->
  ((forall p r, s = p ++ s2b "/" ++ r -> ~ regex_body p) /\ panics E t h) \/
  exists p fl r, s = p ++ s2b "/" ++ fl ++ r /\ regex_body p /\ Forall lower fl /\ ~ head_is lower r /\
    reads E t h g (s2b "/" ++ p ++ s2b "/" ++ fl) (TRegExp p fl) r.
Proof. exact c11. Qed.
Print Assumptions C11_regexp.

Example C11_case : exists rg t', next_token debug_build (start "/[/]\/+/gi.x") expr_hint = TOk (TRegExp (s2b "[/]\/+") (s2b "gi"), rg, t').
Proof. do 2 eexists. vm_compute. reflexivity. Qed.
Example C11_case_text : stands (start "/[/]/g") ([] ++ s2b "/" ++ s2b "[/]/g") /\ ~ begins (s2b "/") (s2b "[/]/g") /\ ~ begins (s2b "*") (s2b "[/]/g").
Proof. split; [at_start|]. split; intros (r & Hr); discriminate. Qed.

(** ** C12 Identifiers are maximal runs *)
Theorem C12_identifier : forall E t h g c s, stands t (g ++ c :: s) -> blanks g -> ident_char c -> ~ digit c ->
  exists v r, s = v ++ r /\ Forall ident_char v /\ ~ head_is ident_char r /\
    reads E t h g (c :: v) (TIdent (c :: v)) r.
Proof. exact c12. Qed.
Print Assumptions C12_identifier.

Example C12_case : exists rg t', next_token debug_build (start " _a1$.b") no_hint = TOk (TIdent (s2b "_a1$"), rg, t').
Proof. do 2 eexists. vm_compute. reflexivity. Qed.

(** ** C13 String literals: extent and value *)
Theorem C13_string : forall E t h g q s, stands t (g ++ q :: s) -> blanks g -> q = 34 \/ q = 39 ->
  (exists v r nl, s = v ++ q :: r /\ string_text q false v nl /\ reads E t h g (q :: v ++ [q]) (TString v) r) \/
  (string_open q s /\ reads E t h g [] (TString []) (q :: s)) \/
  (string_error q s /\ panics E t h).
Proof. exact c13. Qed.
Theorem C13_plain_text : forall q v,
  Forall (fun c => c <> 92 /\ c <> q /\ c <> 13 /\ c <> 10 /\ c <> 226) v -> string_text q false v false.
Proof. exact plain_string_text. Qed.
Print Assumptions C13_string.
Print Assumptions C13_plain_text.

Example C13_case : exists rg t', next_token debug_build (start "'a\'b' + c") no_hint = TOk (TString (s2b "a\'b"), rg, t').
Proof. do 2 eexists. vm_compute. reflexivity. Qed.

(** ** C14 Decimal integers are exact *)
Theorem C14_decimal_integer : forall E t h g d ds r,
  stands t (g ++ (d :: ds) ++ r) -> blanks g -> 49 <= d <= 57 -> Forall digit ds ->
  ~ head_is digit r -> ~ begins (s2b ".") r -> ~ head_is exp_letter r ->
  exists n, reads E t h g (d :: ds) (TNumeric n) r /\
    (digits_value 10 (d :: ds) < 2 ^ 53 -> is_integer n (Z.of_N (digits_value 10 (d :: ds)))).
Proof. exact c14. Qed.
Print Assumptions C14_decimal_integer.

Example C14_case : stands (start "9007199254740991;") ([] ++ (57 :: s2b "007199254740991") ++ s2b ";") /\
  digits_value 10 (57 :: s2b "007199254740991") = 2 ^ 53 - 1.
Proof. split; [at_start|reflexivity]. Qed.

(** ** C15 Radix integers *)
Theorem C15_radix_integer : forall E t h g k l d ds r,
  stands t (g ++ (48 :: l :: d :: ds) ++ r) -> blanks g ->
  radix_letter k l -> Forall (radix_digit k) (d :: ds) -> Forall digit (d :: ds) ->
  ~ head_is (radix_digit k) r -> ~ head_is (radix_refused k) r ->
  exists n, reads E t h g (48 :: l :: d :: ds) (TNumeric n) r /\
    (denotes (radix_base k) (d :: ds) < 2 ^ 53 -> is_integer n (Z.of_N (denotes (radix_base k) (d :: ds)))).
Proof. exact c15. Qed.
(** With letters among the digits, or any other ASCII character as first digit. *)
Theorem C15_radix_as_read : forall E t h g k l d ds r,
  stands t (g ++ (48 :: l :: d :: ds) ++ r) -> blanks g ->
  radix_letter k l -> 48 <= d < 128 -> Forall (radix_digit k) ds ->
  ~ head_is (radix_digit k) r -> ~ head_is (radix_refused k) r ->
  exists n, reads E t h g (48 :: l :: d :: ds) (TNumeric n) r /\
    (denotes_as_read (radix_base k) d ds < 2 ^ 53 -> is_integer n (Z.of_N (denotes_as_read (radix_base k) d ds))).
Proof. exact c15_as_read. Qed.
Print Assumptions C15_radix_integer.
Print Assumptions C15_radix_as_read.

Example C15_case : stands (start " 0o17;") ([32] ++ (48 :: 111 :: 49 :: [55]) ++ s2b ";") /\
  denotes (radix_base Octal) [49; 55] = 15 /\ exists rg t', next_token debug_build (start " 0o17;") no_hint = TOk (TNumeric (f64_of_Z 15), rg, t').
Proof. split; [at_start|]. split; [reflexivity|]. do 2 eexists. vm_compute. reflexivity. Qed.
(** Hexadecimal literals do not have the value they denote: 0x1a is read as 16. *)
Theorem C15_hex_value_refuted : exists code ds n rg t',
  code = s2b "0x" ++ ds /\ Forall hex_digit ds /\ denotes 16 ds < 2 ^ 53 /\
  next_token debug_build (into_tokenizer code) no_hint = TOk (TNumeric n, rg, t') /\
  is_integer n 16 /\ denotes 16 ds = 26.
Proof.
  exists (s2b "0x1a"), (s2b "1a"). do 3 eexists. split; [reflexivity|].
  split; [unfold hex_digit, digit; repeat constructor; cbn; lia|]. split; [reflexivity|].
  split; [vm_compute; reflexivity|]. split; [|reflexivity]. cbn. exists 60%Z. repeat split; lia || reflexivity.
Qed.
Theorem C15_hex_first_letter_refuted : exists rg t',
  next_token debug_build (start "0xa") no_hint = TOk (TNumeric (f64_of_Z 49), rg, t') /\ denotes 16 (s2b "a") = 10.
Proof. do 2 eexists. split; vm_compute; reflexivity. Qed.

(** ** C16 Numeric literal extents *)
Theorem C16_decimal_extent : forall E t h g s, stands t (g ++ s) -> blanks g ->
  (head_is (fun b => 49 <= b <= 57) s \/ (exists d v, s = 46 :: d :: v /\ digit d) \/
   (exists v, s = 48 :: v /\ (~ head_is (fun b => In b (s2b "xXoObB")) v \/ (length v <= 1)%nat))) ->
  exists m x r, s = m ++ x ++ r /\ decimal_text m x r /\
   ((overflow_checks E = true -> exponent_fits x) -> exists n, reads E t h g (m ++ x) (TNumeric n) r) /\
   (overflow_checks E = true -> ~ exponent_fits x -> panics E t h).
Proof. exact c16. Qed.
Print Assumptions C16_decimal_extent.

Example C16_case : decimal_text (s2b "12.50") (s2b "e-3") (s2b "x").
Proof.
  apply (dt_fraction 49 [50] [53; 48]); [lia|unfold digit; repeat constructor; lia|unfold digit; repeat constructor; lia| |].
  - intros (b & r & Hb & D). injection Hb as <- <-. unfold digit in D. lia.
  - apply (ep_signed 101 45 [51]); [left; reflexivity|right; reflexivity|unfold digit; repeat constructor; lia|].
    intros (b & r & Hb & D). injection Hb as <- <-. unfold digit in D. lia.
Qed.
Example C16_case_zero : exists rg t', next_token debug_build (start "07") no_hint = TOk (TNumeric f64_zero, rg, t') /\ offset (r_end rg) = 1%nat.
Proof. do 2 eexists. split; vm_compute; reflexivity. Qed.

(** ** C17 Exponents beyond i32 *)
Theorem C17_exponent_overflow : forall E t h g m x r,
  stands t (g ++ m ++ x ++ r) -> blanks g -> decimal_text m x r -> overflow_checks E = true ->
  (panics E t h <-> 2147483648 <= digits_value 10 (exponent_digits x)).
Proof. exact c17. Qed.
Theorem C17_no_checks_no_panic : forall E t h g m x r,
  stands t (g ++ m ++ x ++ r) -> blanks g -> decimal_text m x r -> overflow_checks E = false -> ~ panics E t h.
Proof. exact c17_release. Qed.
Print Assumptions C17_exponent_overflow.
Print Assumptions C17_no_checks_no_panic.
(** The build decides between a panic and a number. *)
Example C17_case : panics debug_build (start "1e4294967296") no_hint /\
  exists rg t', next_token release_build (start "1e4294967296") no_hint = TOk (TNumeric (f64_of_Z 1), rg, t').
Proof. split; [eexists; vm_compute; reflexivity|]. do 2 eexists. vm_compute. reflexivity. Qed.

(** ** C18 Blanks never become tokens, C22 tokenizing is local *)
Theorem C18_blanks_do_not_matter : forall E h t1 t2 g1 g2 s,
  stands t1 (g1 ++ s) -> stands t2 (g2 ++ s) -> blanks g1 -> blanks g2 ->
  (panics E t1 h /\ panics E t2 h) \/
  (exists g w tok r, s = g ++ w ++ r /\ blanks g /\
     reads E t1 h (g1 ++ g) w tok r /\ reads E t2 h (g2 ++ g) w tok r).
Proof. exact same_text. Qed.
Theorem C18_no_whitespace_token : forall E t h u rg t', stands t u -> next_token E t h <> TOk (TWhitespace, rg, t').
Proof. exact no_whitespace. Qed.
Print Assumptions C18_blanks_do_not_matter.
Print Assumptions C18_no_whitespace_token.

Example C18_case : stands (start "  a") ([32; 32] ++ s2b "a") /\ stands (start "a") ([] ++ s2b "a") /\ blanks [32; 32].
Proof. split; [at_start|]. split; [at_start|some_blanks]. Qed.

(** ** C19 Line and column tracking *)
Theorem C19_positions : forall E t h u tok rg t',
  stands t u -> next_token E t h = TOk (tok, rg, t') ->
  exists g w r, u = g ++ w ++ r /\ blanks g /\ spells tok w /\
    r_start rg = Pos (offset (st_pos t) + length g) (line (st_pos t)) (column (st_pos t) + length g) /\
    advance (chars w) (line (r_start rg)) (column (r_start rg)) (line (r_end rg)) (column (r_end rg)) /\
    offset (r_end rg) = (offset (r_start rg) + length w)%nat.
Proof. exact c19. Qed.
Print Assumptions C19_positions.

Example C19_case : exists t',
  next_token debug_build (into_tokenizer (s2b "/*" ++ [13; 10; 195; 169] ++ s2b "*/")) no_hint =
  TOk (TComment CF_Block [13; 10; 195; 169], Range (Pos 0 0 0) (Pos 8 1 3), t').
Proof. eexists. vm_compute. reflexivity. Qed.
(** Lines count from 0 and CR LF between tokens makes two lines. *)
Theorem C19_crlf_is_one_line_refuted : exists t1 t2,
  run debug_build (into_tokenizer [13; 10]) [no_hint; no_hint]
    [(TLineTerminator, Range (Pos 0 0 0) (Pos 1 1 0)); (TLineTerminator, Range (Pos 1 1 0) (Pos 2 2 0))] t1 /\
  run debug_build (into_tokenizer [10]) [no_hint] [(TLineTerminator, Range (Pos 0 0 0) (Pos 1 1 0))] t2.
Proof.
  do 2 eexists. split; repeat (eapply run_cons; [vm_compute; reflexivity|]); apply run_nil.
Qed.

(** ** C20 Hints matter nowhere else *)
Theorem C20_hint_irrelevant : forall E t g s h1 h2,
  stands t (g ++ s) -> blanks g -> ~ head_is blank s ->
  ~ begins (s2b "/") s -> ~ begins (s2b "}") s -> next_token E t h1 = next_token E t h2.
Proof. exact c20_other. Qed.
Theorem C20_slash : forall E t g s h1 h2, stands t (g ++ s2b "/" ++ s) -> blanks g ->
  h_expression h1 = h_expression h2 -> next_token E t h1 = next_token E t h2.
Proof. exact c20_slash. Qed.
Theorem C20_curly : forall E t g s h1 h2, stands t (g ++ s2b "}" ++ s) -> blanks g ->
  h_template h1 = h_template h2 -> next_token E t h1 = next_token E t h2.
Proof. exact c20_curly. Qed.
Print Assumptions C20_hint_irrelevant.
Print Assumptions C20_slash.
Print Assumptions C20_curly.

Example C20_case : stands (start " a/b") ([32] ++ s2b "a/b") /\ ~ begins (s2b "/") (s2b "a/b") /\ ~ begins (s2b "}") (s2b "a/b").
Proof. split; [at_start|]. split; intros (r & Hr); discriminate. Qed.

(** ** C21 Line terminators *)
Theorem C21_line_terminator_exactly : forall E t h u tok rg t',
  stands t u -> next_token E t h = TOk (tok, rg, t') ->
  (tok = TLineTerminator <-> exists g s, u = g ++ s /\ blanks g /\ at_line_terminator s).
Proof. exact c21. Qed.
Theorem C21_line_terminator_covers : forall E t h g x r,
  stands t (g ++ x ++ r) -> blanks g -> In x line_terminators -> reads E t h g x TLineTerminator r.
Proof. exact c21_covers. Qed.
Print Assumptions C21_line_terminator_exactly.
Print Assumptions C21_line_terminator_covers.

Example C21_case : exists rg t', next_token debug_build (into_tokenizer ([32; 226; 128; 168; 10])) no_hint = TOk (TLineTerminator, rg, t')
  /\ offset (r_end rg) = 4%nat.
Proof. do 2 eexists. split; vm_compute; reflexivity. Qed.

(** ** C22 Tokenizing is local *)
Theorem C22_local : forall E t hs l t' u, stands t u -> run E t hs l t' ->
  exists l0 t0, run E (into_tokenizer u) hs l0 t0 /\ Forall2 (shifted (offset (st_pos t))) l l0.
Proof. exact c22_run. Qed.
Print Assumptions C22_local.

Example C22_case : exists t, stands (SliceTokenizer (s2b "x=y") (Pos 1 7 9)) (s2b "=y") /\
  run debug_build (SliceTokenizer (s2b "x=y") (Pos 1 7 9)) [no_hint] [(TPunctuator Eq_, Range (Pos 1 7 9) (Pos 2 7 10))] t.
Proof.
  eexists. split.
  - exists (s2b "x"). split; [reflexivity|]. split; [reflexivity|].
    destruct (ascii_start "=y" eq_refl) as ([|] & _ & _ & U); exact U.
  - eapply run_cons; [vm_compute; reflexivity|apply run_nil].
Qed.

(** ** C40 Exponents scale the mantissa *)
Theorem C40_exponent_scales : forall E t1 h1 g1 t2 h2 g2 m x r1 r2,
  stands t1 (g1 ++ m ++ r1) -> blanks g1 -> decimal_text m [] r1 ->
  stands t2 (g2 ++ m ++ x ++ r2) -> blanks g2 -> decimal_text m x r2 -> x <> [] -> exponent_fits x ->
  exists n, reads E t1 h1 g1 m (TNumeric n) r1 /\
            reads E t2 h2 g2 (m ++ x) (TNumeric (f64_mul n (powi10 E (exponent_value x)))) r2.
Proof. exact c40. Qed.
Print Assumptions C40_exponent_scales.

Example C40_case : exponent_value (s2b "e-12") = (-12)%Z /\ exponent_value (s2b "E7") = 7%Z /\
  exists rg t', next_token debug_build (start "25e2") no_hint = TOk (TNumeric (f64_of_Z 2500), rg, t').
Proof. split; [reflexivity|]. split; [reflexivity|]. do 2 eexists. vm_compute. reflexivity. Qed.
Print Assumptions C19_crlf_is_one_line_refuted.
Print Assumptions C15_hex_first_letter_refuted.
Print Assumptions C15_hex_value_refuted.
Print Assumptions C10_escapes_honoured_refuted.
Print Assumptions C02_number_characters_refuted.
Print Assumptions C01_start.
