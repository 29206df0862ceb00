(** Specification of what the parser accepts, in terms of the tokens it is given. *)
From Coq Require Import String List Bool.
From Verif Require Import Base Tokens ParserCore ParserBody SpecParser SpecGrammar SpecLanguage.
Import ListNotations.
Local Open Scope list_scope.

(** No trivia, and not the EOF token. *)
Definition real_tokens (a : tokens) : Prop :=
  Forall (fun p => match snd p with TWhitespace | TLineTerminator | TComment _ _ | TEOF => False | _ => True end) a.

(** The parser accepts the tokens [a], whatever blanks, comments and line terminators are
    between them, as long as the line breaks are those of [a] and, before the end, of [nl]. *)
Definition parser_accepts (a : tokens) (nl : bool) : Prop :=
  forall log r n, significant false (log ++ [end_of_input]) = a ++ [(nl, TEOF)] ->
    length log < r -> 20 * length log + 80 <= n -> parse_root_with feed r n log = Accepted.
