(** The properties of the parser (properties.jsonl, C23-C26 and C38), each followed by a
    case that meets its hypotheses. *)
From Coq Require Import String List Arith NArith Bool Lia.
From Verif Require Import Base Tokens Tokenizer ParserCore ParserBody SpecTokens SpecStream SpecParser.
From Verif Require Import PropertiesTokenizer ParserProps ParserProps2.
Import ListNotations.
Local Open Scope string_scope.

(** ** C23 Tokens reach the grammar in source order, none lost or duplicated *)
Theorem C23_token_order : forall T (next : T -> hint -> tres (token * token_range * T)) rf t s,
  during next rf t s ->
  length (waiting s) <= 2 /\
  exists log, calls next t log (ps_tok s) /\ significant false log = (ps_popped s ++ waiting s)%list.
Proof. exact (fun T next rf => @c23 T next rf). Qed.
Theorem C23_peek : forall T (next : T -> hint -> tres (token * token_range * T)) rf t s la s',
  during next rf t s -> do_token_line next rf s = ROk la s' ->
  ps_popped s' = ps_popped s /\ (exists new, waiting s' = (waiting s ++ new)%list) /\ exists r, waiting s' = la :: r.
Proof. exact (fun T next rf => @c23_peek T next rf). Qed.
Theorem C23_pop : forall T (next : T -> hint -> tres (token * token_range * T)) rf t s tok s',
  during next rf t s -> do_pop s = ROk tok s' ->
  exists ln, waiting s = (ln, tok) :: waiting s' /\ ps_popped s' = (ps_popped s ++ [(ln, tok)])%list.
Proof. exact (fun T next rf => @c23_pop T next rf). Qed.
Theorem C23_lookahead : forall T (next : T -> hint -> tres (token * token_range * T)) rf t s la s',
  during next rf t s -> do_lookahead next rf s = ROk la s' ->
  ps_popped s' = ps_popped s /\ (exists new, waiting s' = (waiting s ++ new)%list) /\
  match waiting s' with
  | (_, TIdent _) :: r => exists x, r = [x] /\ la = Some x
  | _ :: _ => la = None
  | [] => False
  end.
Proof. exact (fun T next rf => @c23_lookahead T next rf). Qed.
Print Assumptions C23_token_order.
Print Assumptions C23_peek.
Print Assumptions C23_pop.
Print Assumptions C23_lookahead.

(** A parse that stops at an error with two tokens waiting. *)
Example C23_case : exists s, during (next_token debug_build) 20 (start "x = y
 async function") s /\
  ps_popped s = [(false, TIdent (s2b "x")); (false, TPunctuator Eq_); (false, TIdent (s2b "y"))] /\
  waiting s = [(true, TIdent (s2b "async")); (false, TIdent (s2b "function"))].
Proof. eexists. split; [exists 60; eapply v_error; vm_compute; reflexivity|]. split; vm_compute; reflexivity. Qed.

(** ** C24 Grammar context is scoped *)
Theorem C24_scoped : forall T (next : T -> hint -> tres (token * token_range * T)) rf t s n f,
  during next rf t s ->
  match exec next rf body n f s with
  | ROk _ s' | RErr _ s' =>
    ps_flags s' = ps_flags s /\ ps_stack s' = ps_stack s /\
    h_template (ps_hint s') = h_template (ps_hint s)
  | _ => True
  end.
Proof. exact (fun T next rf => @c24 T next rf). Qed.
Print Assumptions C24_scoped.

(** A function that changes flags, matches and restores them. *)
Example C24_case : exists s', exec (next_token debug_build) 20 body 60 F_statement
    (pstate_init (start "{ `a${ {b} }c`; (function*(){}) }")) = ROk (Some tt) s' /\ length (ps_popped s') = 16.
Proof. eexists. split; vm_compute; reflexivity. Qed.

(** ** C25 The parser's own assertions never fire *)
Theorem C25_no_panic_of_its_own : forall T (next : T -> hint -> tres (token * token_range * T)) rf n t p,
  parse_root_with next rf n t = Panicked p ->
  exists log t' h, calls next t log t' /\ next t' h = TPanic p.
Proof. exact (fun T next rf => @c25 T next rf). Qed.
Theorem C25_no_unreachable : forall E rf n code p, utf8 code -> parse_root E rf n code = Panicked p ->
  exists hs l t h, run E (into_tokenizer code) hs l t /\ next_token E t h = TPanic p /\
    (forall w, p <> P_unreachable w).
Proof. exact c25_source. Qed.
Print Assumptions C25_no_panic_of_its_own.
Print Assumptions C25_no_unreachable.

Example C25_case : exists p, parse_root debug_build 20 200 (s2b "x = /a") = Panicked p.
Proof. eexists. vm_compute. reflexivity. Qed.

(** ** C26 Parsing terminates *)
Theorem C26_terminates : forall E code r n, utf8 code ->
  length code < r -> 20 * length code + 60 <= n -> parse_root E r n code <> OutOfFuel.
Proof. exact parse_root_terminates. Qed.
Print Assumptions C26_terminates.

Example C26_case : parse_root debug_build 13 300 (s2b "f(a)[b]; {}") = Accepted /\
  parse_root debug_build 13 300 (s2b "f(a)[b] ; {") = Rejected UnexpectedToken.
Proof. split; vm_compute; reflexivity. Qed.

(** ** C38 The outcome is determined by the source *)
Theorem C38_larger_budget : forall T (next : T -> hint -> tres (token * token_range * T)) n m a b t,
  n <= m -> a <= b -> parse_root_with next n a t <> OutOfFuel ->
  parse_root_with next m b t = parse_root_with next n a t.
Proof. exact (fun T next => @c38 T next). Qed.
Theorem C38_unique : forall T (next : T -> hint -> tres (token * token_range * T)) n m a b t,
  parse_root_with next n a t <> OutOfFuel -> parse_root_with next m b t <> OutOfFuel ->
  parse_root_with next m b t = parse_root_with next n a t.
Proof. exact (fun T next => @c38_unique T next). Qed.
Theorem C38_non_match : forall T (next : T -> hint -> tres (token * token_range * T)) rf t s n f s',
  during next rf t s -> exec next rf body n f s = ROk None s' ->
  ps_popped s' = ps_popped s /\ exists new, waiting s' = (waiting s ++ new)%list.
Proof. exact (fun T next rf => @c38_non_match T next rf). Qed.
Print Assumptions C38_larger_budget.
Print Assumptions C38_unique.
Print Assumptions C38_non_match.

(** A non-match that has read two tokens ahead. *)
Example C38_case : exists s', exec (next_token debug_build) 20 body 60 F_labelled
    (pstate_init (start "a b")) = ROk None s' /\
  ps_popped s' = [] /\ waiting s' = [(false, TIdent (s2b "a")); (false, TIdent (s2b "b"))].
Proof. eexists. split; [vm_compute; reflexivity|]. split; vm_compute; reflexivity. Qed.
