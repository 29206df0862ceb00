(** Specification of trivia (the text between two tokens) and of respacing a program. *)
From Coq Require Import String List NArith Bool.
From Verif Require Import Base Tokens SpecTokens SpecStream ParserCore.
Import ListNotations.
Local Open Scope N_scope.

(** A line terminator occurs in [v]. *)
Definition contains_break (v : bytes) : Prop := exists a s, v = a ++ s /\ at_line_terminator s.

(** [trivia g nl r]: the text [g], in front of [r], consists of blanks, line terminators and
    comments; [nl] says whether it contains a line break: a line terminator between two
    comments, or inside a block comment. *)
Inductive trivia : bytes -> bool -> bytes -> Prop :=
| tv_nil r : trivia [] false r
| tv_blank b g nl r : blank b -> trivia g nl r -> trivia (b :: g) nl r
| tv_line t g nl r : In t line_terminators -> trivia g nl r -> trivia (t ++ g) true r
| tv_line_comment v g nl r :
    line_comment_text v (g ++ r) -> trivia g nl r -> trivia (s2b "//" ++ v ++ g) nl r
| tv_block_comment v g nl r :
    block_comment_text v -> ~ contains_break v -> trivia g nl r -> trivia (s2b "/*" ++ v ++ s2b "*/" ++ g) nl r
| tv_block_break v g nl r :
    block_comment_text v -> contains_break v -> trivia g nl r -> trivia (s2b "/*" ++ v ++ s2b "*/" ++ g) true r.

(** A token of a program with the trivia in front of it, its line flag and its text. *)
Record piece : Set := Piece { gap : bytes; word_token : lookahead; word : bytes }.

(** [spaced ps rest code]: the text [code] consists of the tokens [ps], each in front of
    its word and behind its trivia, and of [rest]. *)
Inductive spaced : list piece -> bytes -> bytes -> Prop :=
| sp_nil rest : spaced [] rest rest
| sp_cons g nl tok w ps rest code :
    trivia g nl (w ++ code) -> spells tok w -> spaced ps rest code ->
    spaced (Piece g (nl, tok) w :: ps) rest (g ++ w ++ code).

(** The text begins with a blank or a line terminator. *)
Definition separated (s : bytes) : Prop := head_is blank s \/ at_line_terminator s.

(** The same tokens with the same texts and line flags; in front of each the same trivia,
    or in both cases trivia that begin with a blank or a line terminator. *)
Definition respaced_piece (p q : piece) : Prop :=
  word_token p = word_token q /\ word p = word q /\
  (gap p = gap q \/ (separated (gap p) /\ separated (gap q))).
(** The trivia in front of the first token can be any. *)
Definition respaced (ps qs : list piece) : Prop :=
  match ps, qs with
  | [], [] => True
  | p :: ps', q :: qs' =>
    word_token p = word_token q /\ word p = word q /\ Forall2 respaced_piece ps' qs'
  | _, _ => False
  end.
