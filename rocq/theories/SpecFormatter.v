(** Specification of the formatter of syntax trees: what a use of it prints, as a list of
    items, and how items are laid out as text. The settings are a scope here that is handed
    down to the uses under a lock, instead of being changed and restored. *)
From Coq Require Import String List NArith Bool Arith.
From Verif Require Import Base Tokens SpecTokens SpecHints Formatter.
Import ListNotations.

(** ** Items *)
Inductive item : Set :=
| Word (w : bytes)                  (* a keyword or an identifier *)
| Mark (p : fpunct)
| Number (s : bytes)
| Quoted (s : bytes)                (* in single quotes *)
| Slashed (value flags : bytes)     (* a regular expression *)
| Verbatim (s : bytes).             (* a part of a template, JSX names and text *)

(** Where a raw text is given it is used. *)
Definition given (value : bytes) (raw : option bytes) : bytes :=
  match raw with Some raw => raw | None => value end.
Definition item_of (p : print) : item :=
  match p with
  | P_keyword k => Word (fkeyword_text k)
  | P_punctuator p => Mark p
  | P_identifier name raw => Word (given name raw)
  | P_string value raw | P_jsx_string value raw => Quoted (given value raw)
  | P_number s => Number s
  | P_regexp value flags => Slashed value flags
  | P_verbatim value raw => Verbatim (given value raw)
  end.

(** ** Layout: one space between a word and a word or number behind it, none elsewhere *)
Definition item_text (i : item) : bytes :=
  match i with
  | Word w => w
  | Mark p => fpunct_text p
  | Number s => s
  | Quoted s => s2b "'" ++ s ++ s2b "'"
  | Slashed value flags => s2b "/" ++ value ++ s2b "/" ++ flags
  | Verbatim s => s
  end.
Definition spaced_item (after_word : bool) (i : item) : bytes :=
  match i with
  | Word _ | Number _ => if after_word then s2b " " else []
  | _ => []
  end.
Definition word_last (after_word : bool) (i : item) : bool :=
  match i with Word _ => true | Verbatim _ => after_word | _ => false end.
Fixpoint layout (after_word : bool) (l : list item) : bytes :=
  match l with
  | [] => []
  | i :: l' => spaced_item after_word i ++ item_text i ++ layout (word_last after_word i) l'
  end.

(** ** What a use prints *)
Record scope : Set := Scope { s_prec : precedence; s_in : bool; s_orphan : bool }.
Definition scope_of (f : formatter) : scope := Scope (f_prec f) (f_in f) (f_orphan f).

(** The brackets a lock puts around what is printed under it: parentheses around an
    expression of a lower precedence than required, or one that begins as the restriction
    in force forbids; braces around an [if] without [else] where that is not allowed. *)
Definition parens : option (fpunct * fpunct) := Some (Fp_ParenL, Fp_ParenR).
Definition curlies : option (fpunct * fpunct) := Some (Fp_CurlyL, Fp_CurlyR).
Definition squares : option (fpunct * fpunct) := Some (Fp_SquareL, Fp_SquareR).
Definition forbidden (r : option restriction) : list sequence :=
  match r with
  | None => []
  | Some R_ExportDefault => [S_Declaration]
  | Some R_ExpressionStatement => [S_Declaration; S_Curly; S_LetSquare; S_Let]
  | Some R_ForInit => [S_LetSquare]
  | Some R_ForOfInit => [S_Let; S_LetSquare]
  | Some R_ConciseBody => [S_Curly]
  end.
Definition sequence_eq_dec (a b : sequence) : {a = b} + {a <> b}.
Proof. decide equality. Defined.
Definition brackets (l : lock) (s : scope) (r : option restriction) : option (fpunct * fpunct) :=
  match l with
  | L_precedence p => if rank p <? rank (s_prec s) then parens else None
  | L_lookahead_wrap_parens q => if in_dec sequence_eq_dec q (forbidden r) then parens else None
  | L_in_wrap_parens => if s_in s then parens else None
  | L_wrap_parens => parens
  | L_wrap_curly => curlies
  | L_wrap_square => squares
  | L_wrap_orphan_if => if s_orphan s then curlies else None
  | L_require_precedence _ | L_restrict_lookahead _ | L_allow_in | L_disallow_in | L_disallow_orphan_if => None
  end.
(** The scope between brackets, and of a lock without brackets. *)
Definition between (b : fpunct * fpunct) (s : scope) : scope :=
  match fst b with Fp_ParenL => Scope Pr_Normal true false | _ => Scope (s_prec s) true false end.
Definition within (l : lock) (s : scope) : scope :=
  match l with
  | L_require_precedence p => Scope p (s_in s) (s_orphan s)
  | L_allow_in => Scope (s_prec s) true (s_orphan s)
  | L_disallow_in => Scope (s_prec s) false (s_orphan s)
  | L_disallow_orphan_if => Scope (s_prec s) (s_in s) true
  | _ => s
  end.
(** A restriction is in force up to the first item that is not verbatim text. *)
Definition after_item (i : item) (r : option restriction) : option restriction :=
  match i with Verbatim _ => r | _ => None end.
Fixpoint prints (s : scope) (r : option restriction) (u : uses) : list item * option restriction :=
  match u with
  | Done => ([], r)
  | Print p k =>
    let '(rest, r') := prints s (after_item (item_of p) r) k in (item_of p :: rest, r')
  | Hold l body k =>
    match brackets l s r with
    | Some b =>
      let '(inner, _) := prints (between b s) None body in
      let '(rest, r') := prints s None k in
      (Mark (fst b) :: inner ++ Mark (snd b) :: rest, r')
    | None =>
      let '(inner, r1) := prints (within l s)
        match l with L_restrict_lookahead x => Some x | _ => r end body in
      let '(rest, r') := prints s
        match l, r1 with L_restrict_lookahead _, Some _ => r | _, _ => r1 end k in
      (inner ++ rest, r')
    end
  end.
(** All that is displayed. *)
Definition displayed (u : uses) : list item := fst (prints (Scope Pr_Normal true false) None u).

(** ** Balanced brackets *)
Inductive pair_of_brackets : fpunct -> fpunct -> Prop :=
| pb_paren : pair_of_brackets Fp_ParenL Fp_ParenR
| pb_curly : pair_of_brackets Fp_CurlyL Fp_CurlyR
| pb_square : pair_of_brackets Fp_SquareL Fp_SquareR.
Definition a_bracket (i : item) : Prop :=
  match i with
  | Mark (Fp_ParenL | Fp_ParenR | Fp_CurlyL | Fp_CurlyR | Fp_SquareL | Fp_SquareR) => True
  | _ => False
  end.
Inductive balanced : list item -> Prop :=
| bal_nil : balanced []
| bal_item i l : ~ a_bracket i -> balanced l -> balanced (i :: l)
| bal_pair o c l l' : pair_of_brackets o c -> balanced l -> balanced l' -> balanced (Mark o :: l ++ Mark c :: l').
(** A use that leaves brackets to locks. *)
Fixpoint no_bare_brackets (u : uses) : Prop :=
  match u with
  | Done => True
  | Print p k => ~ a_bracket (item_of p) /\ no_bare_brackets k
  | Hold _ body k => no_bare_brackets body /\ no_bare_brackets k
  end.

(** The brackets in a text, and that they nest. *)
Definition bracket_byte (c : N) : bool := existsb (N.eqb c) (s2b "()[]{}").
Inductive nested : bytes -> Prop :=
| nest_nil : nested []
| nest_pair o c l l' : In (o, c) [(40, 41); (91, 93); (123, 125)]%N -> nested l -> nested l' -> nested (o :: l ++ c :: l').
(** A use that prints no brackets besides those of locks. *)
Fixpoint quiet (u : uses) : Prop :=
  match u with
  | Done => True
  | Print p k => Forall (fun c => bracket_byte c = false) (item_text (item_of p)) /\ quiet k
  | Hold _ body k => quiet body /\ quiet k
  end.

(** ** Items and tokens *)

(** Texts of non-negative finite numbers as std prints them: no exponent, no superfluous zero
    in front. *)
Inductive number_text : bytes -> Prop :=
| nt_zero : number_text [48%N]
| nt_integer d ds : (49 <= d <= 57)%N -> Forall digit ds -> number_text (d :: ds)
| nt_zero_fraction f fs : Forall digit (f :: fs) -> number_text (48%N :: 46%N :: f :: fs)
| nt_fraction d ds f fs : (49 <= d <= 57)%N -> Forall digit ds -> Forall digit (f :: fs) -> number_text (d :: ds ++ 46%N :: f :: fs).

(** The item spells the token. *)
Inductive spells : item -> token -> Prop :=
| sp_word c w : ident_char c -> ~ digit c -> Forall ident_char w -> spells (Word (c :: w)) (TIdent (c :: w))
| sp_mark p q : fpunct_text p = spelling q -> spells (Mark p) (TPunctuator q)
| sp_number s n : number_text s -> spells (Number s) (TNumeric n)
| sp_quoted s nl : utf8 s -> string_text 39 false s nl -> spells (Quoted s) (TString s)
| sp_slashed v fl : utf8 v -> regex_body v -> v <> [] -> ~ begins (s2b "*") v -> Forall lower fl -> spells (Slashed v fl) (TRegExp v fl).

(** The item [i] and the text [t] of the next one do not run together: a number with a name
    or number or, without a fraction, a period; a regular expression with a name; a
    punctuator with one that continues it, a period with a digit, a slash with a slash, a star or an equals sign. *)
Definition apart (i : item) (t : bytes) : Prop :=
  match i with
  | Word _ | Quoted _ | Verbatim _ => True
  | Number s => ~ head_is ident_char t /\ (~ In 46%N s -> ~ head_is (eq 46%N) t)
  | Slashed _ _ => ~ head_is lower t
  | Mark p => head_is (fun c =>
      (forall q, q <> LAngleExclamDashDash -> ~ begins (fpunct_text p ++ [c]) (spelling q)) /\
      (p = Fp_Period -> ~ digit c) /\
      (p = Fp_Slash -> c <> 47%N /\ c <> 42%N)) t \/ t = []
  end.
Fixpoint all_apart (l : list item) : Prop :=
  match l with
  | i :: (j :: _) as l' => apart i (item_text j) /\ all_apart l'
  | _ => True
  end.

(** Every slash is at a place where the tokens in front tell which kind it is. *)
Fixpoint slashes_settled (past ts : list token) : Prop :=
  match ts with
  | [] => True
  | t :: ts' =>
    (divides t -> mentions_yield past = false /\ after_operand (rev past) = true) /\
    (regular_expression t -> mentions_yield past = false /\ before_operand (rev past) = true) /\
    slashes_settled (past ++ [t]) ts'
  end.
