(** What a parse costs: the calls of parse functions, the operations on the token buffer
    and the calls of the tokenizer, counted along the run of ParserCore.v. *)
From Coq Require Import String List Arith NArith Bool.
From Verif Require Import Base Tokens Tokenizer ParserCore ParserBody.
Import ListNotations.

Section Work.
Context {T : Type}.
Variable next : T -> hint -> tres (token * token_range * T).
Variable read_fuel : nat.

(** The calls of [next] in one run of the loop of [read_token]. *)
Fixpoint asks (n : nat) (t : T) (h : hint) : nat :=
  match n with
  | O => 0
  | S n' =>
    match next t h with
    | TPanic _ => 1
    | TOk (TWhitespace, _, t') | TOk (TLineTerminator, _, t') | TOk (TComment _ _, _, t') => 1 + asks n' t' h
    | TOk _ => 1
    end
  end.

(** The calls of [next] made by one operation of the parser. *)
Definition token_line_asks (s : pstate T) : nat :=
  if ps_count s =? 0 then asks read_fuel (ps_tok s) (ps_hint s) else 0.
Definition tokens_asked (A : Set) (a : act A) (s : pstate T) : nat :=
  match a with
  | ATokenLine => token_line_asks s
  | ALookahead =>
    token_line_asks s +
    match do_token_line next read_fuel s with
    | ROk (_, TIdent name) s1 =>
      if ps_count s1 <? 2 then
        asks read_fuel (ps_tok s1) (set_expression (ps_hint s1) (negb (is_binding_identifier (ps_flags s1) name)))
      else 0
    | _ => 0
    end
  | APop | AExpect | AFlags => 0
  end.

(** The sum over a run: [weight] for every operation, [entry] for every call of a parse
    function. A run ends where an error or a panic ends it. *)
Section Sum.
Variable weight : forall A : Set, act A -> pstate T -> nat.
Variable entry : nat.

Fixpoint effort (call : fn -> pstate T -> res T (option unit)) (call_effort : fn -> pstate T -> nat)
    {A : Set} (p : prog A) (s : pstate T) : nat :=
  match p with
  | Bind p k =>
    effort call call_effort p s +
    match interp next read_fuel call p s with
    | ROk a s' => effort call call_effort (k a) s'
    | _ => 0
    end
  | Act a => weight _ a s
  | With f v p => effort call call_effort p (push_flags f v s)
  | Call f => call_effort f s
  | Ret _ | Throw _ | Crash _ => 0
  end.

Fixpoint fn_effort (n : nat) (f : fn) (s : pstate T) : nat :=
  match n with
  | O => 0
  | S n' => entry + effort (exec next read_fuel body n') (fn_effort n') (body f) s
  end.

(** [parse_root] on the tokenizer [t] (with at most [n] nested calls). *)
Definition root_effort (n : nat) (t : T) : nat :=
  effort (exec next read_fuel body n) (fn_effort n) parse_module (pstate_init t).
End Sum.

(** Calls of parse functions and operations on the token buffer. *)
Definition operations : nat -> T -> nat := root_effort (fun _ _ _ => 1) 1.
(** Calls of the tokenizer. *)
Definition token_requests : nat -> T -> nat := root_effort tokens_asked 0.
End Work.
