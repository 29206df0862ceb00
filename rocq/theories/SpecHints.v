(** Specification of the hints: which of the two readings of a closing brace, and of a
    slash, is the right one after given tokens. *)
From Coq Require Import String List NArith Bool.
From Verif Require Import Base Tokens SpecTokens SpecTrivia.
From Verif Require SpecGrammar.
Import ListNotations.

(** ** Closing braces

    The open braces and template substitutions after a sequence of tokens, the innermost
    first; [true] stands for a substitution. *)
Definition brace_step (s : list bool) (t : token) : list bool :=
  match t with
  | TPunctuator CurlyOpen => false :: s
  | TPunctuator CurlyClose => tl s
  | TTemplate TF_Head _ _ => true :: s
  | TTemplate TF_Tail _ _ => tl s
  | _ => s
  end.
Definition open_braces (l : list token) : list bool := fold_left brace_step l [].
(** Whether a closing brace after [l] closes a template substitution. *)
Definition in_substitution (l : list token) : bool := hd false (open_braces l).

(** Tokens that begin with a closing brace; which of the two kinds. *)
Definition closes_brace (t : token) : Prop := t = TPunctuator CurlyClose.
Definition closes_substitution (t : token) : Prop :=
  exists v r, t = TTemplate TF_Middle v r \/ t = TTemplate TF_Tail v r.

(** ** Slashes

    Lists of tokens in this part have the last token first.  A slash divides after an
    operand and begins a regular expression where an operand is expected.  Which of the
    two is the case cannot be told from the previous tokens alone in general; these are
    places where it can. *)

(** Operators that are followed by an operand, and nothing else. *)
Definition operator (p : punctuator) : bool :=
  match p with
  | Plus | Minus | Star | Slash | Percent | StarStar
  | LAngle | RAngle | LAngleEq | RAngleEq | EqEq | EqEqEq | ExclamEq | ExclamEqEq
  | LAngleAngle | RAngleAngle | RAngleAngleAngle | Amp | Bar | Caret | AmpAmp | BarBar
  | Eq_ | PlusEq | MinusEq | StarEq | SlashEq | PercentEq | StarStarEq
  | LAngleAngleEq | RAngleAngleEq | RAngleAngleAngleEq | AmpEq | BarEq | CaretEq
  | Tilde | Exclam | Question | Arrow => true
  | _ => false
  end.

(** What follows an operator, an opening parenthesis or bracket, a comma or dots is an
    operand or a part of one. *)
Definition wants_operand (past : list token) : bool :=
  match past with
  | TPunctuator p :: _ =>
    operator p || match p with ParenOpen | SquareOpen | Comma | Period | Ellipsis => true | _ => false end
  | _ => false
  end.

(** Names that are not reserved in any context. *)
Definition plain (name : bytes) : bool :=
  negb (SpecGrammar.word_in
          (SpecGrammar.reserved_words ++ SpecGrammar.strict_reserved_words ++ ["yield"; "await"]%string) name).

(** After an operand: a name; a number, string, regular expression or template that comes
    where an operand is wanted; a closing parenthesis, unless it closes over an identifier
    that does not come where an operand is wanted, as in [(typeof a)]. *)
Definition after_operand (past : list token) : bool :=
  match past with
  | TIdent name :: _ => plain name
  | (TNumeric _ | TString _ | TRegExp _ _ | TTemplate TF_NoSubstitution _ _) :: past' => wants_operand past'
  | TPunctuator ParenClose :: TIdent _ :: past' => wants_operand past'
  | TPunctuator ParenClose :: _ => true
  | _ => false
  end.

(** The open brackets, the innermost first; an open parenthesis with whether the part of its
    contents after the last comma has three dots in it. *)
Inductive bracket : Set := Round (dots : bool) | Square | Curly | Substitution.
Definition set_dots (dots : bool) (s : list bracket) : list bracket :=
  match s with Round _ :: s' => Round dots :: s' | _ => s end.
Definition bracket_step (t : token) (s : list bracket) : list bracket :=
  match t with
  | TPunctuator ParenOpen => Round false :: s
  | TPunctuator SquareOpen => Square :: s
  | TPunctuator CurlyOpen => Curly :: s
  | TTemplate TF_Head _ _ => Substitution :: s
  | TPunctuator ParenClose | TPunctuator SquareClose | TPunctuator CurlyClose | TTemplate TF_Tail _ _ => tl s
  | TPunctuator Ellipsis => set_dots true s
  | TPunctuator Comma => set_dots false s
  | _ => s
  end.
Definition open_brackets (past : list token) : list bracket := fold_right bracket_step [] past.

(** A comma is followed by an operand, unless it is directly in square brackets or ends an
    argument with dots. *)
Definition comma_settles (past : list token) : bool :=
  match open_brackets past with Square :: _ | Round true :: _ => false | _ => true end.

(** Words that are followed by an operand, or by a statement. *)
Definition operand_word (name : bytes) : bool :=
  SpecGrammar.word_in ["delete"; "void"; "typeof"; "in"; "instanceof"; "case"; "else"; "do"]%string name.
Definition after_period (past : list token) : bool := match past with TPunctuator Period :: _ => true | _ => false end.
Definition mentions_if (past : list token) : bool :=
  existsb (fun t => match t with TIdent name => SpecGrammar.word_in ["if"; "export"]%string name | _ => false end) past.

(** Before an operand: at the beginning, after an operator, an opening parenthesis or
    brace, after a colon, after a comma that is not in an array and not behind an argument
    with dots, after a word for an operator that is not the name of a property, and after a
    semicolon if neither [if] nor [export] comes before it. *)
Definition before_operand (past : list token) : bool :=
  match past with
  | [] => true
  | TPunctuator Comma :: past' => comma_settles past'
  | TPunctuator Semicolon :: past' => negb (mentions_if past')
  | TPunctuator p :: _ => operator p || match p with ParenOpen | CurlyOpen | Colon => true | _ => false end
  | TIdent name :: past' => operand_word name && negb (after_period past')
  | _ => false
  end.

(** The operand of [yield] is an exception. *)
Definition mentions_yield (past : list token) : bool :=
  existsb (fun t => match t with TIdent name => beqb name (s2b "yield") | _ => false end) past.

(** Tokens that begin with a slash; which of the two kinds. *)
Definition divides (t : token) : Prop := t = TPunctuator Slash \/ t = TPunctuator SlashEq.
Definition regular_expression (t : token) : Prop := exists body flags, t = TRegExp body flags.
Definition slash_free (t : token) : Prop := ~ divides t /\ ~ regular_expression t.

(** Not trivia. *)
Definition significant_token (t : token) : Prop :=
  match t with TWhitespace | TLineTerminator | TComment _ _ => False | _ => True end.

(** ** Sources made of given tokens

    [suits past t h]: the hint [h] is a right one for reading the token [t] after the
    tokens [past]. *)
Definition suits_brace (past : list token) (t : token) (h : hint) : Prop :=
  closes_brace t \/ closes_substitution t -> h_template h = in_substitution past.
Definition suits_slash (past : list token) (t : token) (h : hint) : Prop :=
  mentions_yield past = false ->
  (divides t -> after_operand (rev past) = true -> h_expression h = false) /\
  (regular_expression t -> before_operand (rev past) = true -> h_expression h = true).
Definition suits (past : list token) (t : token) (h : hint) : Prop := suits_brace past t h /\ suits_slash past t h.

(** [printed checks past ps code]: the text [code], which follows the tokens [past],
    consists of the tokens [ps] up to the end of the source, each in front of its word and
    behind its trivia; every right hint makes the tokenizer read that word as that token. *)
Inductive printed (checks : bool) : list token -> list piece -> bytes -> Prop :=
| pr_end past g nl : trivia g nl [] -> printed checks past [Piece g (nl, TEOF) []] g
| pr_cons past g nl t w ps code :
    trivia g nl (w ++ code) -> w <> [] -> significant_token t ->
    (forall h, suits past t h -> lexeme checks h w t code) ->
    printed checks (past ++ [t]) ps code ->
    printed checks past (Piece g (nl, t) w :: ps) (g ++ w ++ code).

(** The tokens of [ps] are in [code], if each is read under some hint. *)
Inductive spelled (checks : bool) : list piece -> bytes -> Prop :=
| se_end g nl : trivia g nl [] -> spelled checks [Piece g (nl, TEOF) []] g
| se_cons g nl t w ps code h :
    trivia g nl (w ++ code) -> w <> [] -> significant_token t -> lexeme checks h w t code ->
    spelled checks ps code -> spelled checks (Piece g (nl, t) w :: ps) (g ++ w ++ code).

(** As [printed], for sources in which a blank or a line terminator follows every token: it is
    enough that the tokenizer reads each word in front of a space as the token. *)
Inductive written (checks : bool) : list token -> list piece -> bytes -> Prop :=
| wr_end past g nl : trivia g nl [] -> written checks past [Piece g (nl, TEOF) []] g
| wr_cons past g nl t w ps code :
    trivia g nl (w ++ code) -> w <> [] -> significant_token t ->
    (forall h, suits past t h -> lexeme checks h w t [32%N]) -> separated code ->
    written checks (past ++ [t]) ps code ->
    written checks past (Piece g (nl, t) w :: ps) (g ++ w ++ code).

(** [right_hints past hs log]: each token of [log] was asked for with a right hint; [past]
    are the tokens before it that are not trivia. *)
Fixpoint right_hints (past : list token) (hs : list hint) (log : list (token * token_range)) : Prop :=
  match hs, log with
  | [], [] => True
  | h :: hs', (t, _) :: log' =>
    suits past t h /\
    right_hints (match t with TWhitespace | TLineTerminator | TComment _ _ => past | _ => past ++ [t] end) hs' log'
  | _, _ => False
  end.
