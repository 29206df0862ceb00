(** Descriptions of sequences of neighbouring tokens. *)
From Coq Require Import String List Bool.
From Verif Require Import Base Tokens ParserCore SpecGrammar SpecLanguage.
Import ListNotations.

(** A token that is one of the given terminals; such a token that is on the line of the
    token before it; any token that is none of the given terminals. *)
Inductive pattern : Set :=
| Is (ts : list term)
| SameLine (ts : list term)
| Not (ts : list term).

Definition shows (p : pattern) (la : lookahead) : Prop :=
  match p with
  | Is ts => one_of no_parameters ts (snd la) = true
  | SameLine ts => fst la = false /\ one_of no_parameters ts (snd la) = true
  | Not ts => one_of no_parameters ts (snd la) = false
  end.

(** Somewhere in [l] the patterns [ps] are met by neighbouring tokens. *)
Definition occurs (ps : list pattern) (l : tokens) : Prop :=
  exists before found after, l = before ++ found ++ after /\ Forall2 shows ps found.
(** The same, at the start of [l] or just behind one of [ts]. *)
Definition occurs_after (ts : list term) (ps : list pattern) (l : tokens) : Prop :=
  exists before found after, l = before ++ found ++ after /\ Forall2 shows ps found /\
    (before = [] \/ exists b x, before = b ++ [x] /\ one_of no_parameters ts (snd x) = true).
(** The same, but not just behind one of [ts]. *)
Definition occurs_except_after (ts : list term) (ps : list pattern) (l : tokens) : Prop :=
  exists before found after, l = before ++ found ++ after /\ Forall2 shows ps found /\
    (forall b x, before = b ++ [x] -> one_of no_parameters ts (snd x) = false).
