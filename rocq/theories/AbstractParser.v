(** The parser on a list of tokens.

    The token buffer, the hints and the flag stack of ParserCore.v are abstracted away:
    the input is the list of the tokens still to be consumed, followed by copies of an
    end token [e] without line breaks, and the grammar flags are an argument.  Replay.v
    shows that every run of the concrete parser is a run of this one on the list of
    the tokens it received. *)
From Coq Require Import String List Arith NArith Bool Lia.
From Verif Require Import Base Tokens ParserCore ParserBody.
Import ListNotations.

Definition input := list lookahead.

Inductive ares (A : Set) : Type :=
| AOk (a : A) (i : input)
| AErr (x : perr) (i : input)
| APanic (p : panic)
| AFuel (i : input).
Arguments AOk {A} a i.
Arguments AErr {A} x i.
Arguments APanic {A} p.
Arguments AFuel {A} i.

Definition abind {A B : Set} (r : ares A) (k : A -> input -> ares B) : ares B :=
  match r with
  | AOk a i => k a i
  | AErr x i => AErr x i
  | APanic p => APanic p
  | AFuel i => AFuel i
  end.

Section Abstract.
Variable e : token.

Definition cur (i : input) : lookahead := hd (false, e) i.
Definition tok (i : input) : token := snd (cur i).

(** The token after an identifier; nothing after other tokens. *)
Definition second (i : input) : option lookahead :=
  match tok i with TIdent _ => Some (cur (tl i)) | _ => None end.

Definition aact {A : Set} (a : act A) (g : grammar_flags) (i : input) : ares A :=
  match a in act A return ares A with
  | ATokenLine => AOk (cur i) i
  | APop => AOk (tok i) (tl i)
  | ALookahead => AOk (second i) i
  | AExpect => AOk tt i
  | AFlags => AOk g i
  end.

Definition acall := fn -> grammar_flags -> input -> ares (option unit).

Fixpoint ainterp {A : Set} (call : acall) (p : prog A) (g : grammar_flags) (i : input) : ares A :=
  match p in prog A return ares A with
  | Ret a => AOk a i
  | Bind p k => abind (ainterp call p g i) (fun a i' => ainterp call (k a) g i')
  | Act a => aact a g i
  | Throw x => AErr x i
  | Crash why => APanic (P_unreachable why)
  | With f v p => ainterp call p (set_flag g f v) i
  | Call f => call f g i
  end.

Fixpoint aexec (n : nat) (f : fn) (g : grammar_flags) (i : input) : ares (option unit) :=
  match n with
  | O => AFuel i
  | S n' => ainterp (aexec n') (body f) g i
  end.

(** ** The token tests, executed *)

Lemma take_if_eq {A : Set} call (same : token -> bool) (payload : token -> option A) why g i a :
  (same (tok i) = true -> payload (tok i) = Some a) ->
  ainterp call (take_if same payload why) g i =
  if same (tok i) then AOk (Some a) (tl i) else AOk None i.
Proof.
  intros H. unfold take_if, token_, pop_. cbn [ainterp abind aact]. fold (tok i).
  destruct (same (tok i)); [|reflexivity]. cbn [ainterp abind aact]. rewrite H; reflexivity.
Qed.

Definition eats (b : bool) (i : input) : ares (option unit) :=
  if b then AOk (Some tt) (tl i) else AOk None i.

Lemma punc_eq call p g i : ainterp call (punc p) g i = eats (is_punc p (tok i)) i.
Proof. apply take_if_eq. destruct (tok i); cbn; try discriminate. reflexivity. Qed.
Lemma numeric_eq call g i : ainterp call numeric g i = eats (is_numeric (tok i)) i.
Proof. apply take_if_eq. destruct (tok i); cbn; try discriminate. reflexivity. Qed.
Lemma string_eq call g i : ainterp call string_ g i = eats (is_string (tok i)) i.
Proof. apply take_if_eq. destruct (tok i); cbn; try discriminate. reflexivity. Qed.
Lemma regex_eq call g i : ainterp call regex g i = eats (is_regex (tok i)) i.
Proof. apply take_if_eq. destruct (tok i); cbn; try discriminate. reflexivity. Qed.
Lemma eof_eq call g i : ainterp call eof g i = eats (is_eof (tok i)) i.
Proof. apply take_if_eq. destruct (tok i); cbn; try discriminate. reflexivity. Qed.
Lemma keyword_eq call k g i : ainterp call (keyword k) g i = eats (is_keyword k (tok i)) i.
Proof. apply take_if_eq. destruct (tok i); cbn; try discriminate. reflexivity. Qed.
Lemma identifier_eq call g i : ainterp call identifier g i = eats (is_ident (tok i)) i.
Proof. apply take_if_eq. destruct (tok i); cbn; try discriminate. reflexivity. Qed.
Lemma binding_eq call g i : ainterp call binding_identifier g i = eats (is_binding_token g (tok i)) i.
Proof.
  unfold binding_identifier, get_flags. cbn [ainterp abind aact].
  apply take_if_eq. destruct (tok i); cbn; try discriminate. reflexivity.
Qed.

Definition template_format_of (t : token) : template_format :=
  match t with TTemplate f _ _ => f | _ => TF_Tail end.
Lemma template_eq call g i : ainterp call template g i =
  if is_template_start (tok i) then AOk (Some (template_format_of (tok i))) (tl i) else AOk None i.
Proof. apply take_if_eq. destruct (tok i); cbn; try discriminate. reflexivity. Qed.
Lemma template_tail_eq call g i : ainterp call template_tail g i =
  if is_template_end (tok i) then AOk (Some (template_format_of (tok i))) (tl i) else AOk None i.
Proof. apply take_if_eq. destruct (tok i); cbn; try discriminate. reflexivity. Qed.

(** Where a statement may end without a semicolon. *)
Definition asi (dowhile : bool) (i : input) : bool :=
  match tok i with
  | TPunctuator CurlyClose | TEOF => true
  | _ => dowhile || fst (cur i)
  end.
Lemma semicolon_inner_eq call b g i : ainterp call (semicolon_inner b) g i =
  if is_punc Semicolon (tok i) then AOk (Some tt) (tl i)
  else if asi b i then AOk (Some tt) i else AOk None i.
Proof.
  unfold semicolon_inner, pop_, expect_expression, asi. cbn [ainterp abind aact]. fold (tok i).
  destruct (tok i) as [p| | | | | | | | |]; cbn [is_punc];
    try (destruct (b || fst (cur i)); reflexivity); try reflexivity.
  destruct p; cbn; try reflexivity; destruct (b || fst (cur i)); reflexivity.
Qed.

End Abstract.
