(** The properties of the parser that speak about the language it accepts
    (properties.jsonl, C27-C34 and C41), each followed by a case that meets its
    hypotheses. *)
From Coq Require Import String List Arith NArith Bool Lia.
From Verif Require Import Base Tokens Tokenizer ParserCore ParserBody SpecTokens SpecStream SpecParser SpecGrammar SpecBrackets SpecLanguage.
From Verif Require Import PropertiesTokenizer Coverage ParserGrammar ParserGrammar2 Restricted GrammarSound.
Import ListNotations.
Local Open Scope string_scope.

(** ** C27 Acceptance covers the whole source *)
Theorem C27_whole_source : forall E rf n code, utf8 code -> parse_root E rf n code = Accepted ->
  exists s hs log rg,
    during (next_token E) rf (into_tokenizer code) s /\ waiting s = [] /\
    run E (into_tokenizer code) hs (log ++ [(TEOF, rg)]) (ps_tok s) /\
    tiles code 0 (log ++ [(TEOF, rg)]) (length code) /\
    ~ In TEOF (map fst log) /\ offset (r_end rg) = length code /\
    ps_popped s = significant false (log ++ [(TEOF, rg)]).
Proof. exact c27. Qed.
Print Assumptions C27_whole_source.

Example C27_case : parse_root debug_build 30 400 (s2b "let {a} = f(`x${y}z`); // end
") = Accepted.
Proof. vm_compute. reflexivity. Qed.

(** ** C28 Accepted sources derive from the grammar *)
Theorem C28_accepted_source_is_a_program : forall E rf n code, utf8 code -> parse_root E rf n code = Accepted ->
  exists hs log t, run E (into_tokenizer code) hs log t /\ tiles code 0 log (length code) /\
    program (significant false log) /\ balanced (map snd (significant false log)).
Proof. exact c28_source. Qed.
Theorem C28_accepted_tokens_are_a_program : forall T (next : T -> hint -> tres (token * token_range * T)) rf n t,
  parse_root_with next rf n t = Accepted ->
  exists log t', calls next t log t' /\ program (significant false log).
Proof. exact (fun T next => @c28 T next). Qed.
Print Assumptions C28_accepted_source_is_a_program.
Print Assumptions C28_accepted_tokens_are_a_program.

Example C28_case : parse_root debug_build 60 600 (s2b "class A extends B { get x() { return 1 } }
export default function* () { yield* [...a] }") = Accepted.
Proof. vm_compute. reflexivity. Qed.

(** ** C29 Accepted sources are bracket-balanced *)
Theorem C29_balanced : forall T (next : T -> hint -> tres (token * token_range * T)) rf n t,
  parse_root_with next rf n t = Accepted ->
  exists log t', calls next t log t' /\ balanced (map snd (significant false log)).
Proof. exact (fun T next => @c29 T next). Qed.
Print Assumptions C29_balanced.

Example C29_case : parse_root debug_build 60 600 (s2b "f({a: [`x${ {} }y${(b)}z`]});") = Accepted /\
  parse_root debug_build 60 600 (s2b "f({a: [`x${ {} }y${(b)}z`]);") = Rejected UnexpectedToken.
Proof. vm_compute. split; reflexivity. Qed.

(** ** C30 Programs of the language are accepted *)
Theorem C30_token_sequences : forall log r n, length log < r -> 20 * length log + 80 <= n ->
  (parse_root_with feed r n log = Accepted <->
   exists rest, derives no_parameters NModule (significant false (log ++ [end_of_input])) rest) /\
  (parse_root_with feed r n log = Accepted \/ exists e, parse_root_with feed r n log = Rejected e).
Proof. exact feed_exact. Qed.
Print Assumptions C30_token_sequences.

Example C30_case : let log := map (fun t => (t, Range (Pos 0 0 0) (Pos 0 0 0)))
    [TIdent (s2b "a"); TPunctuator Slash; TRegExp (s2b "b") []; TPunctuator Semicolon] in
  parse_root_with feed 10 200 log = Accepted /\ parse_root_with feed 10 200 (tl log) = Rejected UnexpectedToken.
Proof. vm_compute. split; reflexivity. Qed.

(** ** C31 Automatic semicolon insertion *)
Theorem C31_semicolon : forall T (next : T -> hint -> tres (token * token_range * T)) rf t s n do_while r s',
  during next rf t s ->
  interp next rf (exec next rf body n) (semicolon_inner do_while) s = ROk r s' ->
  (exists la new, (waiting s ++ new)%list = la :: waiting s' /\ snd la = TPunctuator Semicolon /\
     r = Some tt /\ ps_popped s' = (ps_popped s ++ [la])%list) \/
  (exists la rest new, waiting s' = (waiting s ++ new)%list /\ waiting s' = la :: rest /\
     snd la <> TPunctuator Semicolon /\
     r = (if insertable do_while [la] then Some tt else None) /\ ps_popped s' = ps_popped s).
Proof. exact (fun T next => @c31 T next). Qed.
Theorem C31_no_error : forall T (next : T -> hint -> tres (token * token_range * T)) rf t s n do_while e s',
  during next rf t s ->
  interp next rf (exec next rf body n) (semicolon_inner do_while) s <> RErr e s'.
Proof. exact (fun T next => @c31_no_error T next). Qed.
Theorem C31_insertable : forall do_while nl tok, insertable do_while [(nl, tok)] = true <->
  tok = TPunctuator CurlyClose \/ tok = TEOF \/ nl = true \/ do_while = true.
Proof. exact insertable_iff. Qed.
Print Assumptions C31_semicolon.
Print Assumptions C31_no_error.
Print Assumptions C31_insertable.

Example C31_case :
  parse_root debug_build 20 200 (s2b "a
b") = Accepted /\ parse_root debug_build 20 200 (s2b "a b") = Rejected UnexpectedToken /\
  parse_root debug_build 20 200 (s2b "{a}") = Accepted /\ parse_root debug_build 40 400 (s2b "do a; while(b) c") = Accepted.
Proof. vm_compute. repeat split. Qed.

(** ** C32 Restricted productions *)
Theorem C32_statement : forall T (next : T -> hint -> tres (token * token_range * T)) rf t s n s' k nl w,
  during next rf t s -> exec next rf body n F_statement s = ROk (Some tt) s' ->
  In k restricted_words -> ps_popped s' = (ps_popped s ++ (nl, TIdent (s2b k)) :: w)%list ->
  no_operand_over_line w.
Proof. exact (fun T next => @c32_statement T next). Qed.
Theorem C32_statement_ends : forall T (next : T -> hint -> tres (token * token_range * T)) rf t s n r k nl tok more,
  during next rf t s -> exec next rf body n F_statement s = r -> In k restricted_words ->
  match r with
  | ROk None s' | RErr _ s' =>
    (ps_popped s' ++ waiting s')%list <> (ps_popped s ++ (nl, TIdent (s2b k)) :: (true, tok) :: more)%list
  | _ => True
  end.
Proof. exact c32_ends'. Qed.
Theorem C32_yield : forall T (next : T -> hint -> tres (token * token_range * T)) rf t s n s' nl w,
  during next rf t s -> exec next rf body n F_yield s = ROk (Some tt) s' ->
  ps_popped s' = (ps_popped s ++ (nl, TIdent (s2b "yield")) :: w)%list -> no_operand_over_line w.
Proof. exact (fun T next => @c32_yield T next). Qed.
Theorem C32_postfix : forall T (next : T -> hint -> tres (token * token_range * T)) rf t s n s' w nl tok,
  during next rf t s -> exec next rf body n F_update s = ROk (Some tt) s' ->
  ps_popped s' = (ps_popped s ++ w ++ [(nl, tok)])%list ->
  tok = TPunctuator PlusPlus \/ tok = TPunctuator MinusMinus -> nl = false.
Proof. exact (fun T next => @c32_update T next). Qed.
Print Assumptions C32_statement.
Print Assumptions C32_statement_ends.
Print Assumptions C32_yield.
Print Assumptions C32_postfix.

Example C32_case :
  let popped f code := match exec (next_token debug_build) 20 body 100 f (pstate_init (start code)) with
    ROk (Some _) s => Some (ps_popped s) | _ => None end in
  popped F_statement "return
a" = Some [(false, TIdent (s2b "return"))] /\
  popped F_statement "return a" = Some [(false, TIdent (s2b "return")); (false, TIdent (s2b "a"))] /\
  popped F_update "a++" = Some [(false, TIdent (s2b "a")); (false, TPunctuator PlusPlus)] /\
  popped F_update "a
++" = Some [(false, TIdent (s2b "a"))].
Proof. vm_compute. repeat split. Qed.

(** ** C33 Reserved words are never bound *)
Theorem C33_binding_identifier : forall T (next : T -> hint -> tres (token * token_range * T)) rf t s n p r s',
  In p [binding_identifier; reference_identifier; label_identifier] ->
  during next rf t s -> interp next rf (exec next rf body n) p s = ROk r s' ->
  exists la rest new, (waiting s ++ new)%list = la :: rest /\
  match r with
  | Some _ => exists name, snd la = TIdent name /\ bindable (ps_flags s) name = true /\
      waiting s' = rest /\ ps_popped s' = (ps_popped s ++ [la])%list
  | None => (forall name, snd la = TIdent name -> bindable (ps_flags s) name = false) /\
      waiting s' = la :: rest /\ ps_popped s' = ps_popped s
  end.
Proof. exact c33_all. Qed.
Theorem C33_reserved : forall g name, bindable g name = true -> forall w, In w reserved_words -> name <> s2b w.
Proof. exact bindable_not_reserved. Qed.
Print Assumptions C33_binding_identifier.
Print Assumptions C33_reserved.

Example C33_case :
  parse_root debug_build 20 200 (s2b "var enum_;") = Accepted /\
  parse_root debug_build 20 200 (s2b "var enum;") = Rejected UnexpectedToken /\
  parse_root debug_build 20 200 (s2b "break null;") = Rejected UnexpectedToken.
Proof. vm_compute. repeat split. Qed.

(** ** C34 Operator precedence never affects acceptance *)
Theorem C34_precedence : forall T (next : T -> hint -> tres (token * token_range * T)) rf,
  (forall t h h', next t h = next t h') ->
  forall t s n m p q, during next rf t s ->
  match exec next rf body n (F_fancy p) s, exec next rf body m (F_fancy q) s with
  | ROk (Some _) s1, ROk (Some _) s2 => ps_popped s1 = ps_popped s2
  | ROk (Some _) _, ROk None _ | ROk (Some _) _, RErr _ _ => False
  | ROk None _, ROk (Some _) _ | RErr _ _, ROk (Some _) _ => False
  | _, _ => True
  end.
Proof. exact (fun T next rf => @c34 T next rf). Qed.
Print Assumptions C34_precedence.

Example C34_case : let log := map (fun t => (t, Range (Pos 0 0 0) (Pos 0 0 0)))
    [TIdent (s2b "a"); TPunctuator Plus; TIdent (s2b "b"); TPunctuator StarStar; TIdent (s2b "c"); TPunctuator BarBar; TIdent (s2b "d")] in
  match exec feed 10 body 100 (F_fancy 0) (pstate_init log), exec feed 10 body 100 (F_fancy 11) (pstate_init log) with
  | ROk (Some _) s1, ROk (Some _) s2 => length (ps_popped s1) = 7 /\ ps_popped s2 = ps_popped s1
  | _, _ => False
  end.
Proof. vm_compute. split; reflexivity. Qed.

(** ** C41 Errors are never premature *)
Theorem C41_rejected_prefix : forall T (next : T -> hint -> tres (token * token_range * T)) rf n t e,
  parse_root_with next rf n t = Rejected e ->
  exists log t', calls next t log t' /\ ~ begins (significant false log).
Proof. exact (fun T next => @c41 T next). Qed.
Print Assumptions C41_rejected_prefix.

Example C41_case : parse_root debug_build 30 400 (s2b "for (let x of y) { x = (1, }") = Rejected UnexpectedToken.
Proof. vm_compute. reflexivity. Qed.
