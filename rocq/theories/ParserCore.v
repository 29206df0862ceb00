(** Model of src/parser/mod.rs: the parser state, its token buffer, the grammar
    flags, and the primitive operations on which every parse function is built.

    Parse functions are values of the type [prog]: a small language of the
    primitives of [impl Parser] (peek, pop, look ahead, expect an expression, read
    the flags, run a block under a changed flag) plus sequencing, failure and calls
    to named parse functions.  [interp] gives such a program its meaning on a
    concrete parser state; the programs themselves are in ParserBody.v.  The model
    is generic in the tokenizer, as [Parser<'code, T: Tokenizer<'code>>] is.

    Rust call-stack depth is not modelled. *)
From Coq Require Import String List Arith NArith Bool.
From Verif Require Import Base Tokens.
Import ListNotations.

(** mod.rs:133-146 [enum Flag]. *)
Inductive flag : Set :=
| FIn | FYield | FAwait | FReturn | FDefault | FModule | FStrict | FNoop | FTemplate.

(** mod.rs:148-159 [struct GrammarFlags]. *)
Record grammar_flags : Set := GFlags {
  allow_in : bool;
  allow_yield : bool;
  allow_await : bool;
  allow_return : bool;
  allow_default : bool;
  is_module : bool;
  is_strict : bool;
  expect_template : bool
}.
Definition flags_default : grammar_flags :=
  GFlags false false false false false false false false.

(** mod.rs:240-253, the effect of [push_flags] on [self.flags]. *)
Definition set_flag (g : grammar_flags) (f : flag) (v : bool) : grammar_flags :=
  let '(GFlags i y a r d m s t) := g in
  match f with
  | FIn => GFlags v y a r d m s t
  | FYield => GFlags i v a r d m s t
  | FAwait => GFlags i y v r d m s t
  | FReturn => GFlags i y a v d m s t
  | FDefault => GFlags i y a r v m s t
  | FModule => GFlags i y a r d v s t
  | FStrict => GFlags i y a r d m v t
  | FTemplate => GFlags i y a r d m s v
  | FNoop => g
  end.

Definition kw (s : string) (name : bytes) : bool := beqb name (s2b s).

(** mod.rs:548-551. *)
Definition reserved_keywords : list string :=
  ["break"; "case"; "catch"; "class"; "const"; "continue"; "debugger"; "default"; "delete";
   "do"; "else"; "export"; "extends"; "finally"; "for"; "function"; "if"; "import"; "in";
   "instanceof"; "new"; "return"; "super"; "switch"; "this"; "throw"; "try"; "typeof";
   "var"; "void"; "while"; "with"; "yield"]%string.
(** mod.rs:560. *)
Definition future_strict_keywords : list string :=
  ["implements"; "package"; "protected"; "interface"; "private"; "public"]%string.

(** mod.rs:538-567 [is_binding_identifier]; the match arms in order. *)
Definition is_binding_identifier (g : grammar_flags) (s : bytes) : bool :=
  if kw "yield" s && negb (allow_yield g) then false
  else if kw "await" s && negb (allow_await g) then false
  else if existsb (fun k => kw k s) reserved_keywords then false
  else if (kw "let" s || kw "static" s) && is_strict g then false
  else if kw "enum" s then false
  else if existsb (fun k => kw k s) future_strict_keywords && is_strict g then false
  else if kw "null" s || kw "true" s || kw "false" s then false
  else true.

(** Parse errors: [ParseError] of utils.rs:29-30, or a [bail!] with its text. *)
Inductive perr : Set := UnexpectedToken | Bail (msg : string).

(** mod.rs:126-130 [struct LookaheadResult]. *)
Definition lookahead : Set := (bool * token)%type.

(** The names of the parse functions that are called recursively.  Names starting
    with [F_] are Rust functions; names starting with [L_] are Rust loops. *)
Inductive method_kind : Set := MGet | MSet | MNone.
(** classes.rs:186-192 [struct MethodHead]; the constant field [is_ident] is dropped. *)
Record method_head : Set := MethodHead { mh_kind : method_kind; mh_generator : bool; mh_async : bool }.

Inductive for_kind : Set := ForVar | ForLexical.

Inductive fn : Set :=
(* file.rs *)
| F_script_item | F_module_item | L_script | L_module
(* expressions.rs *)
| F_expression | L_expression
| F_assignment | F_reify_arrow | F_reify_assignment
| F_yield | F_conditional
| F_fancy (precedence : nat) | L_fancy (precedence : nat) (allow_in_ : bool)
| F_exponential | F_unary | F_delete | F_void | F_typeof | F_plus | F_minus | F_tilde
| F_exclam | F_await | F_update
| F_left_hand (allow_call : bool) | L_left_hand (allow_call : bool)
| F_call_arguments | L_call_arguments
| F_meta_property | F_primary
| F_array_literal | L_array_literal | F_object_literal | L_object_literal
| F_object_property | F_array_item
| F_template_literal | L_template_literal
| F_cover_parenthesized | L_cover_parenthesized
(* statements.rs *)
| F_statement | F_statement_list_item | L_statement_list
| F_block | F_variable_statement | L_variable_statement | F_var_declarator
| F_binding_pattern | F_object_binding_pattern | L_object_binding_pattern
| F_binding_property | F_property_name | F_computed_property_name
| F_array_binding_pattern | L_array_binding_pattern
| F_binding_rest_element | F_binding_element | F_initializer
| F_expression_statement | F_if | F_breakable | F_iteration | F_do_while | F_while
| F_for | L_for_declarators (k : for_kind)
| F_switch | L_switch (has_default : bool) | F_default_clause | F_case_clause
| F_return | F_with | F_labelled | F_throw | F_try
(* declarations.rs *)
| F_declaration | F_let_declaration | F_const_declaration
| L_lexical_declarators (initializer_required : bool)
| F_lexical_declarator (initializer_required : bool)
(* functions.rs *)
| F_function_declaration | F_function_expression | F_function_params | L_function_params
(* classes.rs *)
| F_class_declaration | F_class_heritage | F_class_body | L_class_body | F_class_item
| F_method_tail (head : method_head)
(* module.rs *)
| F_import_declaration | L_import_specifiers | F_export_declaration | L_export_specifiers.

(** ** The language of parse functions *)

(** The primitives of [impl Parser] (mod.rs). *)
Inductive act : Set -> Type :=
| ATokenLine : act lookahead                (** [token_and_line], mod.rs:278-289 *)
| APop : act token                          (** [pop], mod.rs:264-276 *)
| ALookahead : act (option lookahead)       (** [ident_lookahead], mod.rs:299-319 *)
| AExpect : act unit                        (** [expect_expression], mod.rs:186-188 *)
| AFlags : act grammar_flags                (** reading [self.flags] *).

Inductive prog : Set -> Type :=
| Ret {A : Set} (a : A) : prog A
| Bind {A B : Set} (p : prog A) (k : A -> prog B) : prog B
| Act {A : Set} (a : act A) : prog A
| Throw {A : Set} (e : perr) : prog A              (** [return Err(..)], propagated by every [?] *)
| Crash {A : Set} (why : string) : prog A          (** [unreachable!()] *)
| With {A : Set} (f : flag) (v : bool) (p : prog A) : prog A
    (** a block run through a [ParserProxy] of [with]/[without] (mod.rs:79-124, 223-258):
        [push_flags] before, [pop_flags] when the proxy is dropped, on [Ok] and [Err] alike *)
| Call (f : fn) : prog (option unit).

Notation "'do_' x <- p ;; q" := (Bind p (fun x => q))
  (at level 200, x name, p at level 100, q at level 200, right associativity).
Notation "'run_' p ;; q" := (Bind p (fun _ => q))
  (at level 200, p at level 100, q at level 200, right associativity).

(** utils.rs:58-69 [eat_value!]: [None] becomes a parse error. *)
Notation "'eat_' p ;; q" :=
  (Bind p (fun r_ => match r_ with Some _ => q | None => Throw UnexpectedToken end))
  (at level 200, p at level 100, q at level 200, right associativity).
Notation "'eat_as_' x <- p ;; q" :=
  (Bind p (fun r_ => match r_ with Some x => q | None => Throw UnexpectedToken end))
  (at level 200, x name, p at level 100, q at level 200, right associativity).
(** utils.rs:73-84 [try_value!]: [None] makes the enclosing function return [Ok(None)]. *)
Notation "'try_' p ;; q" :=
  (Bind p (fun r_ => match r_ with Some _ => q | None => Ret None end))
  (at level 200, p at level 100, q at level 200, right associativity).
Notation "'try_as_' x <- p ;; q" :=
  (Bind p (fun r_ => match r_ with Some x => q | None => Ret None end))
  (at level 200, x name, p at level 100, q at level 200, right associativity).
(** utils.rs:88-99 [opt_value!] with the value dropped, followed by more code. *)
Notation "'opt_' p ;; q" := (Bind p (fun _ => q))
  (at level 200, p at level 100, q at level 200, right associativity).
(** [if let TokenResult::Some(_) = p { a } else { b }]. *)
Notation "'if_some_' p 'then_' a 'else_' b" :=
  (Bind p (fun r_ => match r_ with Some _ => a | None => b end))
  (at level 200, p at level 100, a at level 200, b at level 200).

(** [Ok(TokenResult::Some(()))]. *)
Notation done_ := (Ret (Some tt)).

(** utils.rs:40-54 [try_sequence!]. *)
Fixpoint try_sequence (l : list (prog (option unit))) : prog (option unit) :=
  match l with
  | [] => Ret None
  | p :: l' => Bind p (fun r => match r with Some v => Ret (Some v) | None => try_sequence l' end)
  end.

(** mod.rs:260-262 [token]. *)
Definition token_ : prog token := do_ lt <- Act ATokenLine ;; Ret (snd lt).

(** mod.rs:291-293 [no_line_terminator]. *)
Definition no_line_terminator : prog bool :=
  do_ lt <- Act ATokenLine ;; Ret (negb (fst lt)).

Definition expect_expression : prog unit := Act AExpect.
Definition pop_ : prog token := Act APop.
Definition ident_lookahead : prog (option lookahead) := Act ALookahead.
Definition get_flags : prog grammar_flags := Act AFlags.

(** mod.rs:196-221 [semicolon_inner]. *)
Definition semicolon_inner (was_do_while : bool) : prog (option unit) :=
  do_ lt <- Act ATokenLine ;;
  match snd lt with
  | TPunctuator Semicolon => run_ pop_ ;; done_
  | TPunctuator CurlyClose => run_ expect_expression ;; done_
  | TEOF => run_ expect_expression ;; done_
  | _ => if was_do_while || fst lt then run_ expect_expression ;; done_
         else Ret None
  end.
(** mod.rs:190-195. *)
Definition semicolon : prog (option unit) := semicolon_inner false.
Definition semicolon_dowhile : prog (option unit) := semicolon_inner true.

(** The shape shared by mod.rs:321-504: test the current token, and if it matches
    pop it and match again, with [unreachable!()] if the second match fails.  The
    popped token's payload is returned as [A]. *)
Definition take_if {A : Set} (same : token -> bool) (payload : token -> option A) (why : string)
  : prog (option A) :=
  do_ t <- token_ ;;
  if same t then
    do_ t' <- pop_ ;;
    match payload t' with
    | Some a => Ret (Some a)
    | None => Crash why
    end
  else Ret None.

(** mod.rs:321-338 [punc]. *)
Definition is_punc (p : punctuator) (t : token) : bool :=
  match t with TPunctuator q => peqb q p | _ => false end.
Definition punc (p : punctuator) : prog (option unit) :=
  take_if (is_punc p)
          (fun t => match t with TPunctuator _ => Some tt | _ => None end) "already matched punc".

(** mod.rs:340-355 [numeric]. *)
Definition is_numeric (t : token) : bool := match t with TNumeric _ => true | _ => false end.
Definition numeric : prog (option unit) :=
  take_if is_numeric
          (fun t => match t with TNumeric _ => Some tt | _ => None end) "already matched number".

(** mod.rs:357-372 [string]. *)
Definition is_string (t : token) : bool := match t with TString _ => true | _ => false end.
Definition string_ : prog (option unit) :=
  take_if is_string
          (fun t => match t with TString _ => Some tt | _ => None end) "already matched string".

(** mod.rs:374-389 [regex]. *)
Definition is_regex (t : token) : bool := match t with TRegExp _ _ => true | _ => false end.
Definition regex : prog (option unit) :=
  take_if is_regex
          (fun t => match t with TRegExp _ _ => Some tt | _ => None end) "already matched string".

(** mod.rs:391-407 [template]. *)
Definition is_template_start (t : token) : bool :=
  match t with
  | TTemplate TF_NoSubstitution _ _ | TTemplate TF_Head _ _ => true
  | _ => false
  end.
Definition template : prog (option template_format) :=
  take_if is_template_start
          (fun t => match t with TTemplate f _ _ => Some f | _ => None end) "already matched template".

(** mod.rs:408-424 [template_tail]. *)
Definition is_template_end (t : token) : bool :=
  match t with
  | TTemplate TF_Middle _ _ | TTemplate TF_Tail _ _ => true
  | _ => false
  end.
Definition template_tail : prog (option template_format) :=
  take_if is_template_end
          (fun t => match t with TTemplate f _ _ => Some f | _ => None end) "already matched template".

Definition ident_payload (t : token) : option unit :=
  match t with TIdent _ => Some tt | _ => None end.

(** mod.rs:426-443 [binding_identifier]. *)
Definition is_binding_token (g : grammar_flags) (t : token) : bool :=
  match t with TIdent name => is_binding_identifier g name | _ => false end.
Definition binding_identifier : prog (option unit) :=
  do_ g <- get_flags ;;
  take_if (is_binding_token g) ident_payload "already matched ident".
(** mod.rs:445-451. *)
Definition reference_identifier : prog (option unit) := binding_identifier.
Definition label_identifier : prog (option unit) := binding_identifier.

(** mod.rs:453-470 [keyword]. *)
Definition is_keyword (k : string) (t : token) : bool :=
  match t with TIdent name => kw k name | _ => false end.
Definition keyword (k : string) : prog (option unit) :=
  take_if (is_keyword k) ident_payload "already matched keyword".

(** mod.rs:472-487 [identifier]. *)
Definition is_ident (t : token) : bool := match t with TIdent _ => true | _ => false end.
Definition identifier : prog (option unit) :=
  take_if is_ident ident_payload "already matched identifier".

(** mod.rs:489-504 [eof]. *)
Definition is_eof (t : token) : bool := match t with TEOF => true | _ => false end.
Definition eof : prog (option unit) :=
  take_if is_eof
          (fun t => match t with TEOF => Some tt | _ => None end) "already matched keyword".

(** ** Meaning on a concrete parser state *)

Section Interp.

(** mod.rs:161-183: the parser is generic in its tokenizer [T]; [next] is
    [Tokenizer::next_token]. *)
Context {T : Type}.
Variable next : T -> hint -> tres (token * token_range * T).

(** mod.rs:161-173 [struct Parser].  [tokens[0]], [tokens[1]] are two fields.  The
    last two fields are ghosts, absent from the code and read by no operation: every
    non-trivia token received from the tokenizer, and every token handed out by
    [pop], in order. *)
Record pstate : Type := PState {
  ps_tok : T;
  ps_hint : hint;
  ps_flags : grammar_flags;
  ps_stack : list grammar_flags;
  ps_slot0 : lookahead;
  ps_slot1 : lookahead;
  ps_index : nat;
  ps_count : nat;
  ps_read : list lookahead;
  ps_popped : list lookahead
}.

(** mod.rs:54-63, the initial parser state. *)
Definition pstate_init (t : T) : pstate :=
  PState t hint_default flags_default [] (false, token_default) (false, token_default) 0 0 [] [].

(** The outcome of running a parse function. [RFuel] is not an outcome of the code:
    it says that the recursion budget of the model was too small, and in which state. *)
Inductive res (A : Set) : Type :=
| ROk (a : A) (s : pstate)
| RErr (e : perr) (s : pstate)
| RPanic (p : panic)
| RFuel (s : pstate).
Arguments ROk {A} a s.
Arguments RErr {A} e s.
Arguments RPanic {A} p.
Arguments RFuel {A} s.

Inductive read_res : Type :=
| RdOk (la : lookahead) (t : T)
| RdPanic (p : panic)
| RdFuel.

(** mod.rs:507-536 [read_token], with [out.line] as [ln] and at most [n] turns of
    the loop.  The caller's [hint.expression] becomes [false]; the callers below do
    that update. *)
Fixpoint read_token (n : nat) (t : T) (h : hint) (ln : bool) : read_res :=
  match n with
  | O => RdFuel
  | S n' =>
    match next t h with
    | TPanic p => RdPanic p
    | TOk (tok, pos, t') =>
      match tok with
      | TWhitespace => read_token n' t' h ln
      | TLineTerminator => read_token n' t' h true
      | TComment _ _ =>
        read_token n' t' h
          (if Nat.eqb (line (r_start pos)) (line (r_end pos)) then ln else true)
      | _ => RdOk (ln, tok) t'
      end
    end
  end.

(** The budget of every [read_token] loop. *)
Variable read_fuel : nat.

Definition slot (s : pstate) (i : nat) : lookahead :=
  if Nat.eqb i 0 then ps_slot0 s else ps_slot1 s.

(** mod.rs:278-289 [token_and_line]: fills slot 0 when the buffer is empty. *)
Definition do_token_line (s : pstate) : res lookahead :=
  if Nat.eqb (ps_count s) 0 then
    match read_token read_fuel (ps_tok s) (ps_hint s) false with
    | RdOk la t' =>
      ROk la (PState t' (set_expression (ps_hint s) false) (ps_flags s) (ps_stack s)
                     la (ps_slot1 s) 0 1 (ps_read s ++ [la]) (ps_popped s))
    | RdPanic p => RPanic p
    | RdFuel => RFuel s
    end
  else ROk (slot s (ps_index s)) s.

(** mod.rs:264-276 [pop].  [self.count] is a [u8]: decrementing zero panics in a
    debug build and wraps in a release build; the model makes both an explicit
    [P_underflow_count], which the proofs exclude. *)
Definition do_pop (s : pstate) : res token :=
  let la := slot s (ps_index s) in
  let cleared := (fst la, TEOF) in
  let s0 := if Nat.eqb (ps_index s) 0 then cleared else ps_slot0 s in
  let s1 := if Nat.eqb (ps_index s) 0 then ps_slot1 s else cleared in
  match ps_count s with
  | O => RPanic P_underflow_count
  | S c =>
    ROk (snd la)
        (PState (ps_tok s) (ps_hint s) (ps_flags s) (ps_stack s)
                s0 s1 ((ps_index s + 1) mod 2) c (ps_read s) (ps_popped s ++ [la]))
  end.

(** mod.rs:299-319 [ident_lookahead].  The second token is read with a copy of the
    hint, so [self.hint] is unchanged by that read. *)
Definition do_lookahead (s : pstate) : res (option lookahead) :=
  match do_token_line s with
  | ROk cur s1 =>
    let look_index := (ps_index s1 + 1) mod 2 in
    if Nat.ltb (ps_count s1) 2 then
      match snd cur with
      | TIdent name =>
        let h := set_expression (ps_hint s1) (negb (is_binding_identifier (ps_flags s1) name)) in
        match read_token read_fuel (ps_tok s1) h false with
        | RdOk la t' =>
          let s0' := if Nat.eqb look_index 0 then la else ps_slot0 s1 in
          let s1' := if Nat.eqb look_index 0 then ps_slot1 s1 else la in
          ROk (Some la)
              (PState t' (ps_hint s1) (ps_flags s1) (ps_stack s1) s0' s1'
                      (ps_index s1) (ps_count s1 + 1) (ps_read s1 ++ [la]) (ps_popped s1))
        | RdPanic p => RPanic p
        | RdFuel => RFuel s1
        end
      | _ => ROk None s1
      end
    else ROk (Some (slot s1 look_index)) s1
  | RErr e s1 => RErr e s1
  | RPanic p => RPanic p
  | RFuel s1 => RFuel s1
  end.

(** mod.rs:186-188 [expect_expression]. *)
Definition do_expect (s : pstate) : pstate :=
  PState (ps_tok s) (set_expression (ps_hint s) true) (ps_flags s) (ps_stack s)
         (ps_slot0 s) (ps_slot1 s) (ps_index s) (ps_count s) (ps_read s) (ps_popped s).

(** mod.rs:235-254 [push_flags]. *)
Definition push_flags (f : flag) (v : bool) (s : pstate) : pstate :=
  PState (ps_tok s)
         (match f with FTemplate => set_template (ps_hint s) v | _ => ps_hint s end)
         (set_flag (ps_flags s) f v) (ps_flags s :: ps_stack s)
         (ps_slot0 s) (ps_slot1 s) (ps_index s) (ps_count s) (ps_read s) (ps_popped s).

(** mod.rs:255-258 [pop_flags]; [None] is the [unwrap] panic. *)
Definition pop_flags (s : pstate) : option pstate :=
  match ps_stack s with
  | [] => None
  | g :: st =>
    Some (PState (ps_tok s) (set_template (ps_hint s) (expect_template g)) g st
                 (ps_slot0 s) (ps_slot1 s) (ps_index s) (ps_count s) (ps_read s) (ps_popped s))
  end.

Definition do_act {A : Set} (a : act A) (s : pstate) : res A :=
  match a in act A return res A with
  | ATokenLine => do_token_line s
  | APop => do_pop s
  | ALookahead => do_lookahead s
  | AExpect => ROk tt (do_expect s)
  | AFlags => ROk (ps_flags s) s
  end.

(** The meaning of a program, given the meaning of the functions it calls. *)
Fixpoint interp {A : Set} (call : fn -> pstate -> res (option unit)) (p : prog A) (s : pstate)
  : res A :=
  match p in prog A return res A with
  | Ret a => ROk a s
  | Bind p k =>
    match interp call p s with
    | ROk a s' => interp call (k a) s'
    | RErr e s' => RErr e s'
    | RPanic q => RPanic q
    | RFuel s' => RFuel s'
    end
  | Act a => do_act a s
  | Throw e => RErr e s
  | Crash why => RPanic (P_unreachable why)
  | With f v p =>
    match interp call p (push_flags f v s) with
    | ROk a s' =>
      match pop_flags s' with Some s'' => ROk a s'' | None => RPanic P_flags_stack end
    | RErr e s' =>
      match pop_flags s' with Some s'' => RErr e s'' | None => RPanic P_flags_stack end
    | RPanic q => RPanic q
    | RFuel s' => RFuel s'
    end
  | Call f => call f s
  end.

(** Running a named parse function with a bound on the depth of calls. *)
Variable body : fn -> prog (option unit).

Fixpoint exec (n : nat) (f : fn) (s : pstate) : res (option unit) :=
  match n with
  | O => RFuel s
  | S n' => interp (exec n') (body f) s
  end.

End Interp.

Arguments pstate T : clear implicits.
Arguments res T A : clear implicits.
Arguments ROk {T A} a s.
Arguments RErr {T A} e s.
Arguments RPanic {T A} p.
Arguments RFuel {T A} s.
Arguments RdOk {T} la t.
Arguments RdPanic {T} p.
Arguments RdFuel {T}.
