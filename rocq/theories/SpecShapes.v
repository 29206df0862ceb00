(** Specification of the shape of a token: what is left of it when the names in a program,
    its numbers and the contents of its strings, templates and regular expressions are
    forgotten. *)
From Coq Require Import String List NArith Bool.
From Verif Require Import Base Tokens SpecTokens SpecTrivia SpecHints ParserCore.
Import ListNotations.

(** The words that have a meaning somewhere in the language. *)
Definition vocabulary : list string :=
  ["as"; "async"; "await"; "break"; "case"; "catch"; "class"; "const"; "continue"; "debugger"; "default";
   "delete"; "do"; "else"; "enum"; "export"; "extends"; "false"; "finally"; "for"; "from"; "function"; "get";
   "if"; "implements"; "import"; "in"; "instanceof"; "interface"; "let"; "new"; "null"; "of"; "package";
   "private"; "protected"; "public"; "return"; "set"; "static"; "super"; "switch"; "target"; "this"; "throw";
   "true"; "try"; "typeof"; "var"; "void"; "while"; "with"; "yield"]%string.

(** A name the programmer chose. *)
Definition chosen (name : bytes) : Prop := forall w, In w vocabulary -> name <> s2b w.

Definition same_shape (a b : token) : Prop :=
  match a, b with
  | TIdent m, TIdent n => m = n \/ (chosen m /\ chosen n)
  | TNumeric _, TNumeric _ | TString _, TString _ | TRegExp _ _, TRegExp _ _ => True
  | TTemplate f _ _, TTemplate f' _ _ => f = f'
  | _, _ => a = b
  end.

(** The same shape, and a line break in front of both or of none. *)
Definition shaped (a b : lookahead) : Prop := fst a = fst b /\ same_shape (snd a) (snd b).

(** [laid checks hs ps rest code]: the text [code] consists of the tokens [ps], each in front
    of its word and behind its trivia, and of [rest]; the tokenizer reads the word as the
    token under the hint from [hs]. *)
Inductive laid (checks : bool) : list hint -> list piece -> bytes -> bytes -> Prop :=
| ld_nil rest : laid checks [] [] rest rest
| ld_cons h hs g nl t w ps rest code :
    trivia g nl (w ++ code) -> significant_token t -> lexeme checks h w t code ->
    laid checks hs ps rest code ->
    laid checks (h :: hs) (Piece g (nl, t) w :: ps) rest (g ++ w ++ code).

(** ** Renaming *)

(** The text of a name without escapes. *)
Definition name_text (w : bytes) : Prop :=
  exists c v, w = c :: v /\ ident_char c /\ ~ digit c /\ Forall ident_char v.
(** The text of a string literal with the contents [v]. *)
Definition string_literal (w v : bytes) : Prop :=
  exists q nl, (q = 34%N \/ q = 39%N) /\ string_text q false v nl /\ w = q :: v ++ [q].
(** A number or a regular expression can go on with the letters of a name behind it. *)
Definition runs_on (t : token) : Prop :=
  match t with TNumeric _ | TRegExp _ _ => True | _ => False end.

(** [renamed past ps qs]: [qs] are the tokens [ps] of a program, behind the token [past], with
    some chosen names replaced by chosen names and some strings by strings, in the same trivia. *)
Inductive renamed : token -> list piece -> list piece -> Prop :=
| rn_nil past : renamed past [] []
| rn_same past p ps qs : renamed (snd (word_token p)) ps qs -> renamed past (p :: ps) (p :: qs)
| rn_name past g nl m m' ps qs :
    name_text m -> name_text m' -> chosen m -> chosen m' -> (g = [] -> ~ runs_on past) ->
    renamed (TIdent m) ps qs ->
    renamed past (Piece g (nl, TIdent m) m :: ps) (Piece g (nl, TIdent m') m' :: qs)
| rn_string past g nl v w v' w' ps qs :
    string_literal w v -> string_literal w' v' -> renamed (TString v) ps qs ->
    renamed past (Piece g (nl, TString v) w :: ps) (Piece g (nl, TString v') w' :: qs).
