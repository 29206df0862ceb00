(** Properties of the shapes of tokens (properties.jsonl, C44), each followed by a case that
    meets its hypotheses. *)
From Coq Require Import String List Arith NArith Bool Lia.
From Verif Require Import Base Tokens Tokenizer ParserCore ParserBody SpecTokens SpecStream SpecParser SpecTrivia SpecShapes ByteFacts ShapeSource.
From Verif Require Import PropertiesTokenizer.
Import ListNotations.

(** ** C44 Only the shapes of the tokens matter *)
Theorem C44_shapes : forall E r n code, utf8 code -> length code < r ->
  parse_root E r n code = Accepted \/ (exists x, parse_root E r n code = Rejected x) ->
  exists hs ps rest,
    laid (overflow_checks E) hs ps rest code /\
    (parse_root E r n code = Accepted -> rest = []) /\
    (forall qs rest' code' r', Forall2 shaped (map word_token ps) (map word_token qs) ->
      laid (overflow_checks E) hs qs rest' code' -> utf8 code' -> length code' < r' ->
      parse_root E r' n code' = parse_root E r n code) /\
    (forall qs code' r', renamed TEOF ps qs -> spaced qs rest code' -> utf8 code' -> length code' < r' ->
      parse_root E r' n code' = parse_root E r n code).
Proof. exact c44. Qed.
Print Assumptions C44_shapes.

(** Two programs that differ by a name and a string. *)
Definition C44_pieces (x v : string) : list piece :=
  [ Piece [] (false, TIdent (s2b "let")) (s2b "let"); Piece [32%N] (false, TIdent (s2b x)) (s2b x);
    Piece [] (false, TPunctuator Eq_) (s2b "="); Piece [] (false, TString (s2b v)) (39%N :: s2b v ++ [39%N]);
    Piece [] (false, TEOF) [] ].
Example C44_case :
  parse_root debug_build 30 400 (s2b "let x='a'") = Accepted /\
  parse_root debug_build 30 400 (s2b "let longer='other'") = Accepted /\
  spaced (C44_pieces "x" "a") [] (s2b "let x='a'") /\ spaced (C44_pieces "longer" "other") [] (s2b "let longer='other'") /\
  renamed TEOF (C44_pieces "x" "a") (C44_pieces "longer" "other").
Proof.
  assert (B : blank 32%N) by (unfold blank; auto).
  split; [vm_compute; reflexivity|]. split; [vm_compute; reflexivity|].
  assert (S : forall x v, s2b x <> [] -> spaced (C44_pieces x v) [] (s2b "let" ++ [32%N] ++ s2b x ++ s2b "=" ++ (39%N :: s2b v ++ [39%N]) ++ [])).
  { intros x v _. unfold C44_pieces.
    apply (sp_cons [] false _ (s2b "let")); [constructor|reflexivity|].
    apply (sp_cons [32%N] false _ (s2b x)); [apply tv_blank; [exact B|constructor]|reflexivity|].
    apply (sp_cons [] false _ (s2b "=")); [constructor|reflexivity|].
    apply (sp_cons [] false _ (39%N :: s2b v ++ [39%N])); [constructor|left; exists 39%N; auto|].
    apply (sp_cons [] false TEOF [] [] [] []); [constructor|reflexivity|constructor]. }
  split; [exact (S "x"%string "a"%string ltac:(discriminate))|]. split; [exact (S "longer"%string "other"%string ltac:(discriminate))|].
  unfold C44_pieces. apply rn_same.
  assert (L : forall u : string, forallb (fun b => (97 <=? b)%N && (b <=? 122)%N) (s2b u) = true -> Forall ident_char (s2b u)).
  { intros u H. rewrite forallb_forall in H. apply Forall_forall. intros b I. specialize (H b I). apply andb_true_iff in H.
    rewrite !N.leb_le in H. left. unfold lower. lia. }
  assert (C : forall u : string, forallb (fun w => negb (beqb (s2b u) (s2b w))) vocabulary = true -> chosen (s2b u)).
  { intros u H w I E. rewrite forallb_forall in H. specialize (H w I).
    apply beqb_eq in E. rewrite E in H. discriminate. }
  apply rn_name.
  - exists 120%N, []. split; [reflexivity|]. split; [left; unfold lower; lia|]. split; [unfold digit; lia|constructor].
  - exists 108%N, (s2b "onger"). split; [reflexivity|]. split; [left; unfold lower; lia|]. split; [unfold digit; lia|apply L; reflexivity].
  - apply C. reflexivity.
  - apply C. reflexivity.
  - discriminate.
  - apply rn_same. apply rn_string.
    + exists 39%N, false. split; [auto|]. split; [|reflexivity]. cbn. apply st_char; try lia; try discriminate; [|constructor].
      intros [(y & Y)|(y & Y)]; discriminate.
    + exists 39%N, false. split; [auto|]. split; [|reflexivity]. cbn.
      repeat (apply st_char; [discriminate|discriminate|discriminate|discriminate|intros [(y & Y)|(y & Y)]; discriminate|]). constructor.
    + apply rn_same. constructor.
Qed.
(** A word with a meaning is no name. *)
Example C44_word : parse_root debug_build 30 400 (s2b "let if='a'") <> Accepted.
Proof. vm_compute. discriminate. Qed.
