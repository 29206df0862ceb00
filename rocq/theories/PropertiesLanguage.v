(** Properties of whole sources (properties.jsonl, C30, C35, C36, C37), each followed by a case that
    meets its hypotheses. *)
From Coq Require Import String List Arith NArith Bool Lia.
From Verif Require Import Base Tokens Tokenizer ParserCore ParserBody SpecTokens SpecStream SpecParser SpecTrivia SpecGrammar SpecLanguage SpecHints ByteFacts LexTotal SourceLanguage.
From Verif Require Import PropertiesTokenizer Coverage.
Import ListNotations.
Local Open Scope string_scope.

(** ** C35 Trivia other than line breaks is irrelevant *)
Theorem C35_respacing : forall E r n code, utf8 code -> length code < r -> parse_root E r n code <> OutOfFuel ->
  exists ps rest log t,
    spaced ps rest code /\
    calls (next_token E) (into_tokenizer code) log t /\ significant false log = map word_token ps /\
    (parse_root E r n code = Accepted -> rest = []) /\
    (forall x, parse_root E r n code = Rejected x -> ~ begins (map word_token ps)) /\
    forall qs code' r', respaced ps qs -> spaced qs rest code' -> utf8 code' -> length code' < r' ->
      parse_root E r' n code' = parse_root E r n code.
Proof. exact c35. Qed.
Print Assumptions C35_respacing.

(** Two spacings of one program. *)
Definition C35_pieces (g1 g2 g3 g4 g5 : string) : list piece :=
  [ Piece (s2b g1) (false, TIdent (s2b "a")) (s2b "a"); Piece (s2b g2) (false, TPunctuator Eq_) (s2b "=");
    Piece (s2b g3) (false, TIdent (s2b "b")) (s2b "b"); Piece (s2b g4) (true, TIdent (s2b "c")) (s2b "c");
    Piece (s2b g5) (false, TPunctuator Semicolon) (s2b ";"); Piece [] (false, TEOF) [] ].
Definition C35_source1 := s2b "a = b
c;".
Definition C35_source2 := s2b "/**/a  =	/**/ b //
 c;".
Example C35_case_pieces :
  exists ps qs, spaced ps [] C35_source1 /\ spaced qs [] C35_source2 /\ respaced ps qs /\ ps <> qs.
Proof.
  exists (C35_pieces "" " " " " "
" ""), (C35_pieces "/**/" "  " "	/**/ " " //
 " "").
  assert (B : forall b, b = 32%N \/ b = 9%N -> blank b) by (unfold blank; intuition).
  assert (LT : In [10%N] line_terminators) by (left; reflexivity).
  assert (BC : block_comment_text []).
  { split; [exists []; reflexivity|]. intros a b H. apply (f_equal (@length BinNums.N)) in H. rewrite !app_length in H. cbn in H.
    destruct b; [reflexivity|cbn in H; lia]. }
  assert (NB : ~ contains_break []).
  { intros (a & s & H & t & I1 & r & I2). destruct a; [|discriminate]. cbn in H. subst s. destruct t; [|discriminate].
    cbn in I1. intuition discriminate. }
  split; [|split; [|split]].
  - unfold C35_pieces, C35_source1.
    apply (sp_cons [] false _ (s2b "a")); [constructor|reflexivity|].
    apply (sp_cons [32%N] false _ (s2b "=")); [apply tv_blank; [auto|constructor]|reflexivity|].
    apply (sp_cons [32%N] false _ (s2b "b")); [apply tv_blank; [auto|constructor]|reflexivity|].
    apply (sp_cons [10%N] true _ (s2b "c")); [apply (tv_line [10%N] [] false); [auto|constructor]|reflexivity|].
    apply (sp_cons [] false _ (s2b ";")); [constructor|reflexivity|].
    apply (sp_cons [] false TEOF [] [] [] []); [constructor|reflexivity|constructor].
  - unfold C35_pieces, C35_source2.
    apply (sp_cons (s2b "/**/") false _ (s2b "a")); [apply (tv_block_comment [] []); [exact BC|exact NB|constructor]|reflexivity|].
    apply (sp_cons [32%N; 32%N] false _ (s2b "=")); [apply tv_blank; [auto|]; apply tv_blank; [auto|constructor]|reflexivity|].
    apply (sp_cons (s2b "	/**/ ") false _ (s2b "b"));
      [apply tv_blank; [auto|]; apply (tv_block_comment [] [32%N]); [exact BC|exact NB|]; apply tv_blank; [auto|constructor]|reflexivity|].
    apply (sp_cons (s2b " //
 ") true _ (s2b "c")); [apply tv_blank; [auto|]; apply (tv_line_comment [] [10; 32]%N)|reflexivity|].
    + split; [right; exists [10%N]; split; [exact LT|eexists; reflexivity]|]. intros a b H Nb. destruct a, b; try discriminate. congruence.
    + apply (tv_line [10%N] [32%N] false); [exact LT|]. apply tv_blank; [auto|constructor].
    + apply (sp_cons [] false _ (s2b ";")); [constructor|reflexivity|].
      apply (sp_cons [] false TEOF [] [] [] []); [constructor|reflexivity|constructor].
  - assert (S1 : forall c s, c = 32%N \/ c = 9%N -> separated (c :: s)) by (intros c s H; left; exists c, s; auto).
    assert (S2 : forall s, separated (10%N :: s)) by (intros s; right; exists [10%N]; split; [exact LT|exists s; reflexivity]).
    split; [reflexivity|]. split; [reflexivity|]. unfold respaced_piece. cbn [gap word word_token].
    repeat (apply Forall2_cons; [split; [reflexivity|]; split; [reflexivity|]; (left; reflexivity) || (right; split; cbn; auto)|]).
    constructor.
  - discriminate.
Qed.
Example C35_case : parse_root debug_build 40 400 C35_source1 = Accepted /\ parse_root debug_build 40 400 C35_source2 = Accepted.
Proof. vm_compute. split; reflexivity. Qed.

(** ** C30 Programs of the language are accepted

    [printed] admits a slash only where the tokens before it settle what it is ([suits] in
    SpecHints.v); elsewhere the parser is known to be wrong (C36). *)
Theorem C30_sources : forall E r n ps code, utf8 code -> printed (overflow_checks E) [] ps code ->
  program (map word_token ps) -> length code < r -> 20 * length code + 80 <= n ->
  parse_root E r n code = Accepted /\
  exists hs log t, run E (into_tokenizer code) hs log t /\
    Forall2 (fun a b => fst a = fst b /\ same_token (snd a) (snd b)) (map word_token ps) (significant false log).
Proof. exact c30_accepted. Qed.
Print Assumptions C30_sources.
(** Nothing else is accepted. *)
Theorem C30_sources_exact : forall E r n ps code, utf8 code -> printed (overflow_checks E) [] ps code ->
  Forall (fun p => slash_free (snd (word_token p))) ps -> length code < r -> 20 * length code + 80 <= n ->
  (parse_root E r n code = Accepted <-> program (map word_token ps)).
Proof. exact c30_printed. Qed.
Print Assumptions C30_sources_exact.
Theorem C30_separated_sources : forall E r n ps code, utf8 code -> written (overflow_checks E) [] ps code ->
  length code < r -> 20 * length code + 80 <= n ->
  (program (map word_token ps) -> parse_root E r n code = Accepted) /\
  (Forall (fun p => slash_free (snd (word_token p))) ps -> parse_root E r n code = Accepted -> program (map word_token ps)).
Proof. exact c30_written. Qed.
Print Assumptions C30_separated_sources.

(** A template in an object literal in a template. *)
Definition pieces_of (ws : list (string * token)) : list piece :=
  (map (fun p => Piece [32%N] (false, snd p) (s2b (fst p))) ws ++ [Piece [32%N] (false, TEOF) []])%list.
Definition source_of (ws : list (string * token)) : bytes :=
  (flat_map (fun p => 32%N :: s2b (fst p)) ws ++ [32%N])%list.
Definition pn (s : string) (p : punctuator) := (s, TPunctuator p).
Definition id_ (s : string) := (s, TIdent (s2b s)).
Definition C30_words : list (string * token) :=
  [ id_ "x"; pn "=" Eq_; ("`a${", TTemplate TF_Head (s2b "a") (s2b "a"));
    pn "{" CurlyOpen; id_ "b"; pn ":" Colon;
    ("`c${", TTemplate TF_Head (s2b "c") (s2b "c")); id_ "d";
    ("}e`", TTemplate TF_Tail (s2b "e") (s2b "e")); pn "}" CurlyClose;
    ("}f`", TTemplate TF_Tail (s2b "f") (s2b "f")); pn ";" Semicolon ].
Lemma read_as E h (w : bytes) t (r : bytes) : (utf8 (w ++ r) -> ~ head_is blank (w ++ r) -> read_next E (w ++ r) h = TOk (t, length w) ->
  lexeme (overflow_checks E) h w t r)%list.
Proof.
  intros U B R. destruct (read_next_ok E h _ t _ U B R) as (w' & r' & Q & L & H).
  assert (w' = w /\ r' = r) as [-> ->]; [|exact H].
  apply (f_equal (firstn (length w))) in Q as Q1. rewrite firstn_app, firstn_all, Nat.sub_diag, firstn_O, app_nil_r, <- L, firstn_app, firstn_all,
    Nat.sub_diag, firstn_O, app_nil_r in Q1. subst w'. apply app_inv_head in Q. auto.
Qed.
Lemma program_fed (ps : list piece) log r n w : significant false (log ++ [end_of_input]) = map word_token ps ->
  (map word_token ps = w ++ [(false, TEOF)])%list -> ~ In TEOF (map snd w) ->
  length log < r -> 20 * length log + 80 <= n -> parse_root_with feed r n log = Accepted -> program (map word_token ps).
Proof.
  intros S Ew Nw Lr Ln A. destruct (ParserGrammar.feed_exact log r n Lr Ln) as [[X _] _]. destruct (X A) as (rest & D). unfold ParserGrammar.delivered in D. rewrite S in D.
  rewrite Ew in D |- *. assert (rest = []) as -> by (eapply module_end; eassumption). exact D.
Qed.
Ltac some_utf8 := apply utf8_ascii; repeat (constructor; [reflexivity|]); constructor.
Ltac read_word := apply (read_as debug_build); [some_utf8|intros (c & s & Q & B); injection Q as <- _; unfold blank in B; intuition discriminate|vm_compute; reflexivity].
Ltac each_hint :=
  let h := fresh "h" in let H := fresh "H" in
  intros h H; destruct h as [[] [] []];
  solve [ exfalso;
          first [ discriminate (proj1 H (or_introl eq_refl)) | discriminate (proj1 H (or_intror (ex_intro _ _ (ex_intro _ _ (or_intror eq_refl)))))
                | discriminate (proj1 H (or_intror (ex_intro _ _ (ex_intro _ _ (or_introl eq_refl)))))
                | discriminate (proj1 (proj2 H eq_refl) (or_introl eq_refl) eq_refl)
                | discriminate (proj1 (proj2 H eq_refl) (or_intror eq_refl) eq_refl)
                | discriminate (proj2 (proj2 H eq_refl) (ex_intro _ _ (ex_intro _ _ eq_refl)) eq_refl) ]
        | read_word ].
Lemma blank_trivia code : trivia [32%N] false code.
Proof. apply tv_blank; [unfold blank; auto|constructor]. Qed.
Ltac is_written :=
  repeat (match goal with |- written ?c ?past (Piece ?g (?nl, ?t) ?w :: ?ps) ?code =>
            let r := eval vm_compute in (skipn (length g + length w) code) in apply (wr_cons c past g nl t w ps r) end;
          [apply blank_trivia|discriminate|exact Logic.I|each_hint|left; exists 32%N; eexists; split; [reflexivity|unfold blank; auto]|]);
  apply wr_end, blank_trivia.
Ltac is_spelled :=
  repeat (match goal with |- spelled ?c (Piece ?g (?nl, ?t) ?w :: ?ps) ?code =>
            let r := eval vm_compute in (skipn (length g + length w) code) in
            first [ apply (se_cons c g nl t w ps r (Hint false false false)); [apply blank_trivia|discriminate|exact Logic.I|solve [read_word]|]
                  | apply (se_cons c g nl t w ps r (Hint true true false)); [apply blank_trivia|discriminate|exact Logic.I|solve [read_word]|] ] end);
  apply se_end, blank_trivia.
Definition fed_of (ws : list (string * token)) := map (fun p => (snd p, snd end_of_input)) ws.
Ltac is_program ws :=
  apply (program_fed (pieces_of ws) (fed_of ws) 100 4000 (map (fun p => (false, snd p)) ws));
  [reflexivity|reflexivity|vm_compute; intuition discriminate|apply Nat.ltb_lt; reflexivity|apply Nat.leb_le; vm_compute; reflexivity|vm_compute; reflexivity].

Example C30_case_source : utf8 (source_of C30_words) /\ written (overflow_checks debug_build) [] (pieces_of C30_words) (source_of C30_words) /\
  printed (overflow_checks debug_build) [] (pieces_of C30_words) (source_of C30_words) /\ program (map word_token (pieces_of C30_words)) /\
  Forall (fun p => slash_free (snd (word_token p))) (pieces_of C30_words).
Proof.
  assert (Wr : written (overflow_checks debug_build) [] (pieces_of C30_words) (source_of C30_words)).
  { unfold pieces_of, C30_words. cbn [map app fst snd]. is_written. }
  split; [some_utf8|]. split; [exact Wr|]. split; [apply written_printed, Wr|]. split; [is_program C30_words|].
  repeat (constructor; [split; [intros [K|K]; discriminate K|intros (b & f & K); discriminate K]|]). constructor.
Qed.

(** ** C36 Division versus regular expression *)
Theorem C36_settled_slashes : forall E r n ps code, utf8 code -> printed (overflow_checks E) [] ps code ->
  program (map word_token ps) -> length code < r -> 20 * length code + 80 <= n ->
  parse_root E r n code = Accepted /\
  exists hs log t, run E (into_tokenizer code) hs log t /\
    Forall2 (fun a b => fst a = fst b /\ same_token (snd a) (snd b)) (map word_token ps) (significant false log).
Proof. exact c30_accepted. Qed.
Print Assumptions C36_settled_slashes.

(** [/a/g.b(x / w, /d/, (y) / f(...z, k, /e/) /= c), [(k, /e/)]; /h/; do typeof /i/; while (x in /j/);] *)
Definition re (b f : string) : string * token := ("/" ++ b ++ "/" ++ f, TRegExp (s2b b) (s2b f)).
Definition C36_words : list (string * token) :=
  [ re "a" "g"; pn "." Period; id_ "b"; pn "(" ParenOpen; id_ "x"; pn "/" Slash; id_ "w"; pn "," Comma; re "d" ""; pn "," Comma;
    pn "(" ParenOpen; id_ "y"; pn ")" ParenClose; pn "/" Slash; id_ "f"; pn "(" ParenOpen; pn "..." Ellipsis; id_ "z"; pn "," Comma; id_ "k"; pn "," Comma; re "e" ""; pn ")" ParenClose; pn "/=" SlashEq; id_ "c";
    pn ")" ParenClose; pn "," Comma; pn "[" SquareOpen; pn "(" ParenOpen; id_ "k"; pn "," Comma; re "e" ""; pn ")" ParenClose; pn "]" SquareClose;
    pn ";" Semicolon; re "h" ""; pn ";" Semicolon; id_ "do"; id_ "typeof"; re "i" ""; pn ";" Semicolon;
    id_ "while"; pn "(" ParenOpen; id_ "x"; id_ "in"; re "j" ""; pn ")" ParenClose; pn ";" Semicolon ].
Example C36_case : utf8 (source_of C36_words) /\ printed (overflow_checks debug_build) [] (pieces_of C36_words) (source_of C36_words) /\
  program (map word_token (pieces_of C36_words)).
Proof.
  assert (Wr : written (overflow_checks debug_build) [] (pieces_of C36_words) (source_of C36_words)).
  { unfold pieces_of, C36_words. cbn [map app fst snd]. is_written. }
  split; [some_utf8|]. split; [apply written_printed, Wr|]. is_program C36_words.
Qed.

(** Programs that are rejected because a slash is asked for with the wrong hint. *)
Definition C36_misread : list (list (string * token)) :=
  let quotients := [pn "/" Slash; id_ "x"; pn "/" Slash; id_ "y"; pn ";" Semicolon] in
  let head := ("`a${", TTemplate TF_Head (s2b "a") (s2b "a")) in
  let tail := ("}c`", TTemplate TF_Tail (s2b "c") (s2b "c")) in
  [ [id_ "a"; pn "[" SquareOpen; id_ "b"; pn "]" SquareClose] ++ quotients;
    [id_ "this"] ++ quotients;
    [("'s'", TString (s2b "s"))] ++ quotients;
    [head; id_ "b"; tail] ++ quotients;
    [pn "(" ParenOpen; id_ "typeof"; id_ "a"; pn ")" ParenClose] ++ quotients;
    [pn "(" ParenOpen; id_ "yield"; id_ "a"; pn ")" ParenClose] ++ quotients;
    [id_ "a"; pn "++" PlusPlus] ++ quotients;
    [id_ "a"; pn "=" Eq_; id_ "function"; pn "(" ParenOpen; pn ")" ParenClose; pn "{" CurlyOpen; pn "}" CurlyClose] ++ quotients;
    [id_ "if"; pn "(" ParenOpen; id_ "a"; pn ")" ParenClose; pn ";" Semicolon; re "c" ""; pn ";" Semicolon];
    [id_ "a"; pn "=" Eq_; pn "[" SquareOpen; re "c" ""; pn "]" SquareClose; pn ";" Semicolon];
    [pn "[" SquareOpen; id_ "a"; pn "," Comma; re "c" ""; pn "]" SquareClose; pn ";" Semicolon];
    [id_ "a"; pn "=" Eq_; pn "[" SquareOpen; pn "..." Ellipsis; re "c" ""; pn "]" SquareClose; pn ";" Semicolon];
    [id_ "f"; pn "(" ParenOpen; pn "..." Ellipsis; id_ "a"; pn "," Comma; re "c" ""; pn ")" ParenClose; pn ";" Semicolon];
    [id_ "a"; pn "=" Eq_; id_ "b"; pn "[" SquareOpen; re "c" ""; pn "]" SquareClose; pn ";" Semicolon];
    [id_ "a"; pn "=" Eq_; head; re "b" ""; tail; pn ";" Semicolon];
    [id_ "a"; pn "=" Eq_; id_ "yield"; re "c" ""; pn ";" Semicolon];
    [id_ "return"; ("'s'", TString (s2b "s"))] ++ quotients;
    [id_ "typeof"; ("'s'", TString (s2b "s"))] ++ quotients;
    [id_ "f"; pn "(" ParenOpen; id_ "typeof"; id_ "a"; pn ")" ParenClose] ++ quotients;
    [id_ "if"; pn "(" ParenOpen; id_ "a"; pn ")" ParenClose; id_ "throw"; re "c" ""; pn ";" Semicolon];
    [id_ "if"; pn "(" ParenOpen; id_ "a"; pn ")" ParenClose; id_ "return"; re "c" ""; pn ";" Semicolon];
    [id_ "if"; pn "(" ParenOpen; id_ "a"; pn ")" ParenClose; id_ "var"; id_ "b"; pn ";" Semicolon; re "c" ""; pn ";" Semicolon];
    [id_ "a"; pn "+" Plus; id_ "new"; re "c" ""; pn ";" Semicolon] ]%list.
Theorem C36_slash_refuted : Forall (fun ws =>
  spelled (overflow_checks debug_build) (pieces_of ws) (source_of ws) /\ program (map word_token (pieces_of ws)) /\
  exists e, parse_root debug_build 100 4000 (source_of ws) = Rejected e) C36_misread.
Proof.
  unfold C36_misread. cbn [app].
  repeat (apply Forall_cons; [match goal with |- _ /\ program (map word_token (pieces_of ?ws)) /\ _ =>
    split; [unfold pieces_of; cbn [map app fst snd]; is_spelled|split; [is_program ws|eexists; vm_compute; reflexivity]] end|]).
  apply Forall_nil.
Qed.
Print Assumptions C36_slash_refuted.

(** ** C37 Nested templates and braces *)
Theorem C37_closing_braces : forall E rf n code, utf8 code -> parse_root E rf n code = Accepted ->
  exists hs log t, run E (into_tokenizer code) hs log t /\ tiles code 0 log (length code) /\ program (significant false log) /\
    forall before tok rg after, log = (before ++ (tok, rg) :: after)%list ->
      exists hs1 h hs2, hs = (hs1 ++ h :: hs2)%list /\ length hs1 = length before /\
        (closes_brace tok -> in_substitution (map fst before) = false /\ h_template h = false) /\
        (closes_substitution tok -> in_substitution (map fst before) = true /\ h_template h = true).
Proof. exact c37. Qed.
Print Assumptions C37_closing_braces.

Example C37_case : parse_root debug_build 100 4000 (source_of C30_words) = Accepted /\
  in_substitution (map snd (firstn 8 C30_words)) = true /\ in_substitution (map snd (firstn 9 C30_words)) = false /\
  in_substitution (map snd (firstn 10 C30_words)) = true /\ open_braces (map snd (firstn 8 C30_words)) = [true; false; true].
Proof. vm_compute. auto. Qed.
