(** Specification of programs in which every semicolon is written, and of adding semicolons
    to a program. *)
From Coq Require Import String List Bool.
From Verif Require Import Base Tokens ParserCore SpecGrammar SpecLanguage.
Import ListNotations.
Local Open Scope string_scope.
Local Open Scope list_scope.

(** ** The language without automatic semicolon insertion

    [explicit g n i r]: under the parameters [g], the nonterminal [n] derives the tokens of
    [i] up to the rest [r], and wherever the grammar has a semicolon there is one. These
    are the rules of [derives] (SpecGrammar.v) without the one for inserted semicolons. *)
Inductive explicit : grammar_flags -> nt -> tokens -> tokens -> Prop :=
| e_production g n alpha i r : In alpha (prods n) -> explicit_seq g alpha i r -> explicit g n i r
with explicit_seq : grammar_flags -> list sym -> tokens -> tokens -> Prop :=
| e_end g i : explicit_seq g [] i i
| e_token g ts nl t i alpha r :
    one_of g ts t = true -> explicit_seq g alpha i r -> explicit_seq g (T ts :: alpha) ((nl, t) :: i) r
| e_nonterminal g n ch i m alpha r :
    explicit (changed g ch) n i m -> explicit_seq g alpha m r -> explicit_seq g (N n ch :: alpha) i r
| e_semicolon g b nl i alpha r :
    explicit_seq g alpha i r -> explicit_seq g (Semi b :: alpha) ((nl, TPunctuator Semicolon) :: i) r
| e_condition g c i alpha r :
    c g i = true -> explicit_seq g alpha i r -> explicit_seq g (When c :: alpha) i r.

Definition explicit_program (l : tokens) : Prop := explicit no_parameters NModule l [].

(** ** Adding semicolons

    [completed after_paren k i i']: [i'] are the tokens [i] with semicolons added, each on
    the line of the token before it: at most [k] in front of the first token and at most two
    in front of each other token, and only where one may be inserted: before [}], at the end
    of the source, after a line break and after [)]. *)
Definition closes_paren (t : token) : bool :=
  match t with TPunctuator ParenClose => true | _ => false end.
Inductive completed : bool -> nat -> tokens -> tokens -> Prop :=
| c_nil b k : completed b k [] []
| c_keep b k nl t i i' :
    completed (closes_paren t) 2 i i' -> completed b k ((nl, t) :: i) ((nl, t) :: i')
| c_add b k i i' :
    insertable b i = true -> completed b k i i' ->
    completed b (S k) i ((false, TPunctuator Semicolon) :: i').
Definition semicolons_added (i i' : tokens) : Prop := completed false 0 i i'.

(** ** Programs on one line *)
Definition one_line (i : tokens) : tokens := map (fun t => (false, snd t)) i.

(** [calm i]: the word [throw] is not there, and no line break follows [async] or [yield]
    directly. *)
Fixpoint calm (i : tokens) : bool :=
  match i with
  | [] => true
  | (_, t) :: j =>
    negb (one_of no_parameters [K "throw"] t) &&
    negb (one_of no_parameters [K "async"; K "yield"] t && fst (next j)) && calm j
  end.
