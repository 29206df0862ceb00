(** Vocabulary for statements about the parser: what a tokenizer delivered, and the
    moments of a parse. *)
From Coq Require Import String List Arith NArith Bool.
From Verif Require Import Base Tokens Tokenizer ParserCore ParserBody.
Import ListNotations.

(** ** What a tokenizer delivered *)

(** [calls next t log t']: successive calls of the tokenizer, under some hints, returned
    the tokens and ranges [log] and moved the tokenizer from [t] to [t']. *)
Inductive calls {T : Type} (next : T -> hint -> tres (token * token_range * T))
  : T -> list (token * token_range) -> T -> Prop :=
| calls_nil t : calls next t [] t
| calls_cons t h tok rg t1 log t2 :
    next t h = TOk (tok, rg, t1) -> calls next t1 log t2 -> calls next t ((tok, rg) :: log) t2.

(** The tokens of a log that are not trivia, each with a flag that tells whether a line
    break lies between it and the one before: a line terminator, or a comment that starts
    and ends on different lines. [nl] is the flag so far. *)
Fixpoint significant (nl : bool) (log : list (token * token_range)) : list lookahead :=
  match log with
  | [] => []
  | (tok, rg) :: log' =>
    match tok with
    | TWhitespace => significant nl log'
    | TLineTerminator => significant true log'
    | TComment _ _ => significant (nl || negb (line (r_start rg) =? line (r_end rg))) log'
    | _ => (nl, tok) :: significant false log'
    end
  end.

(** The tokens received but not yet consumed: the current one and the one after it. *)
Definition waiting {T : Type} (s : pstate T) : list lookahead :=
  firstn (ps_count s)
    (if ps_index s =? 0 then [ps_slot0 s; ps_slot1 s] else [ps_slot1 s; ps_slot0 s]).

(** ** Moments of a parse *)
Section Moments.
Context {T : Type}.
Variable next : T -> hint -> tres (token * token_range * T).
Variable read_fuel : nat.

(** [visited n p s s']: running [p] from [s] (with at most [n] nested calls) passes
    through the state [s']. *)
Inductive visited : nat -> forall A : Set, prog A -> pstate T -> pstate T -> Prop :=
| v_start n (A : Set) (p : prog A) s : visited n A p s s
| v_end n (A : Set) (p : prog A) s a s' :
    interp next read_fuel (exec next read_fuel body n) p s = ROk a s' -> visited n A p s s'
| v_error n (A : Set) (p : prog A) s x s' :
    interp next read_fuel (exec next read_fuel body n) p s = RErr x s' -> visited n A p s s'
| v_first n (A B : Set) (p : prog A) (k : A -> prog B) s s' :
    visited n A p s s' -> visited n B (Bind p k) s s'
| v_then n (A B : Set) (p : prog A) (k : A -> prog B) s a s1 s' :
    interp next read_fuel (exec next read_fuel body n) p s = ROk a s1 ->
    visited n B (k a) s1 s' -> visited n B (Bind p k) s s'
| v_with n (A : Set) f v (p : prog A) s s' :
    visited n A p (push_flags f v s) s' -> visited n A (With f v p) s s'
| v_call n f s s' :
    visited n _ (body f) s s' -> visited (S n) _ (Call f) s s'.

(** The states a parse of the source in the tokenizer [t] passes through. *)
Definition during (t : T) (s : pstate T) : Prop :=
  exists n, visited n _ parse_module (pstate_init t) s.
End Moments.

(** ** A tokenizer that delivers given tokens, whatever the hints; EOF after the last. *)
Definition feed (l : list (token * token_range)) (_ : hint)
  : tres (token * token_range * list (token * token_range)) :=
  match l with
  | [] => TOk (TEOF, Range (Pos 0 0 0) (Pos 0 0 0), [])
  | (tok, rg) :: l' => TOk (tok, rg, l')
  end.
Definition end_of_input : token * token_range := (TEOF, Range (Pos 0 0 0) (Pos 0 0 0)).
