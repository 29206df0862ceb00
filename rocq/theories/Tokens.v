(** Model of src/tokenizer/tokens.rs and of the data types of
    src/tokenizer/mod.rs.  Rust lifetimes and [Cow] are dropped: a [Cow<str>] is
    the byte string it denotes. *)
From Coq Require Import List NArith Bool.
From Verif Require Import Base.
Import ListNotations.

(** tokens.rs:4-59 [enum PunctuatorToken]. *)
Inductive punctuator : Set :=
| CurlyOpen | CurlyClose | ParenOpen | ParenClose | SquareOpen | SquareClose
| Semicolon | Comma | Tilde | Question | Colon | Period | Ellipsis
| LAngle | LAngleEq | LAngleAngle | LAngleAngleEq | LAngleExclamDashDash
| RAngle | RAngleEq | RAngleAngle | RAngleAngleEq | RAngleAngleAngle
| RAngleAngleAngleEq
| Exclam | ExclamEq | ExclamEqEq
| Eq_ | Arrow | EqEq | EqEqEq
| Plus | PlusEq | PlusPlus
| Minus | MinusEq | MinusMinus | MinusMinusAngle
| Percent | PercentEq
| Star | StarEq | StarStar | StarStarEq
| Slash | SlashEq
| Amp | AmpAmp | AmpEq
| Bar | BarBar | BarEq
| Caret | CaretEq.

(** tokens.rs:67-72 [enum CommentFormat]. *)
Inductive comment_format : Set := CF_Line | CF_Block | CF_HTMLOpen | CF_HTMLClose.

(** tokens.rs:144-153 [enum TemplateFormat]. *)
Inductive template_format : Set := TF_NoSubstitution | TF_Head | TF_Middle | TF_Tail.

(** tokens.rs:176-191 [enum Token], with the fields of the structs of
    tokens.rs:75-168 as constructor arguments. *)
Inductive token : Set :=
| TPunctuator (p : punctuator)
| TComment (format : comment_format) (value : bytes)
| TWhitespace
| TLineTerminator
| TRegExp (pattern flags : bytes)
| TIdent (name : bytes)
| TNumeric (value : f64)
| TString (value : bytes)
| TTemplate (format : template_format) (cooked raw : bytes)
| TEOF.

(** tokens.rs:193-197 [impl Default for Token]. *)
Definition token_default : token := TEOF.

(** tokens.rs:3 derived [PartialEq] of [PunctuatorToken]. *)
Definition punctuator_eq_dec (a b : punctuator) : {a = b} + {a <> b}.
Proof. decide equality. Defined.
Definition peqb (a b : punctuator) : bool :=
  if punctuator_eq_dec a b then true else false.

(** tokenizer/mod.rs:4-23 [struct Hint] and its builder methods. *)
Record hint : Set := Hint { h_expression : bool; h_template : bool; h_strict : bool }.
Definition hint_default : hint := Hint false false false.
Definition set_expression (h : hint) (b : bool) : hint :=
  Hint b (h_template h) (h_strict h).
Definition set_template (h : hint) (b : bool) : hint :=
  Hint (h_expression h) b (h_strict h).

(** tokenizer/mod.rs:25-35 [struct Position]; [usize] fields are unbounded
    naturals (each is at most the source length, so they cannot overflow). *)
Record position : Set := Pos { offset : nat; line : nat; column : nat }.
Definition position_default : position := Pos 0 0 0.

(** tokenizer/mod.rs:37-41 [struct TokenRange]. *)
Record token_range : Set := Range { r_start : position; r_end : position }.
