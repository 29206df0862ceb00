(** Well-bracketed token sequences. *)
From Coq Require Import List.
From Verif Require Import Base Tokens.
Import ListNotations.

(** The punctuators that come in pairs. *)
Definition bracket_pairs : list (punctuator * punctuator) :=
  [(ParenOpen, ParenClose); (SquareOpen, SquareClose); (CurlyOpen, CurlyClose)].

(** Tokens that neither open nor close anything. *)
Definition plain (t : token) : Prop :=
  match t with
  | TPunctuator p => ~ exists o c, In (o, c) bracket_pairs /\ (p = o \/ p = c)
  | TTemplate f _ _ => f = TF_NoSubstitution
  | _ => True
  end.

(** [balanced l]: every opening bracket is closed by the matching one; a template head
    is followed by middles and a tail, with balanced sequences between them. *)
Inductive balanced : list token -> Prop :=
| balanced_nil : balanced []
| balanced_plain t l : plain t -> balanced l -> balanced (t :: l)
| balanced_pair o c u v : In (o, c) bracket_pairs -> balanced u -> balanced v ->
    balanced (TPunctuator o :: u ++ TPunctuator c :: v)
| balanced_template a b u v : template_rest u -> balanced v ->
    balanced (TTemplate TF_Head a b :: u ++ v)
with template_rest : list token -> Prop :=
| rest_tail a b u : balanced u -> template_rest (u ++ [TTemplate TF_Tail a b])
| rest_middle a b u v : balanced u -> template_rest v ->
    template_rest (u ++ TTemplate TF_Middle a b :: v).
