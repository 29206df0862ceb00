(** Specification of how displayed expressions begin: [let] is a name, but [let [] at the
    beginning of a statement is read as a declaration. *)
From Coq Require Import String List NArith Bool.
From Verif Require Import Base Formatter SpecFormatter Nodes.
Import ListNotations.

(** The name an expression begins with. *)
Fixpoint first_name (e : expression) : option (bytes * option bytes) :=
  match e with
  | E_binding value raw => Some (value, raw)
  | E_member e _ | E_call e _ _ | E_conditional e _ _ | E_sequence e _ => first_name e
  | _ => None
  end.
(** It is not a [let] hidden in a raw text. *)
Definition let_unhidden (e : expression) : Prop :=
  forall value raw, first_name e = Some (value, raw) -> given value raw = s2b "let" -> value = s2b "let".

(** Items that begin with [let] and the punctuator [p]. *)
Definition begins_let (p : fpunct) (l : list item) : Prop := exists k, l = Word (s2b "let") :: Mark p :: k.

(** ** Texts *)

(** The number an expression begins with. *)
Fixpoint first_number (e : expression) : option bytes :=
  match e with
  | E_numeric s => Some s
  | E_member e _ | E_call e _ _ | E_conditional e _ _ | E_sequence e _ => first_number e
  | _ => None
  end.
(** Names without brackets and periods, numbers as std prints them. *)
Definition begins_well (e : expression) : Prop :=
  (forall value raw, first_name e = Some (value, raw) -> ~ In 91%N (given value raw) /\ ~ In 46%N (given value raw)) /\
  (forall s, first_number e = Some s -> number_text s).
