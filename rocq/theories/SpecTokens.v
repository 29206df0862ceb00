(** Specification of tokens, independent of the scanning functions of Tokenizer.v:
    which text is which token, where it ends, and which texts cannot be tokenized.
    Only the data types of Base.v and Tokens.v are used. *)
From Coq Require Import String List NArith ZArith Bool Floats.SpecFloat.
From Verif Require Import Base Tokens.
Import ListNotations.
Local Open Scope N_scope.

(** ** Characters *)

(** The blanks skipped between tokens: tab, vertical tab, form feed, space. *)
Definition blank (b : N) : Prop := b = 9 \/ b = 11 \/ b = 12 \/ b = 32.
Definition blanks (w : bytes) : Prop := Forall blank w.

Definition digit (b : N) : Prop := 48 <= b <= 57.
Definition lower (b : N) : Prop := 97 <= b <= 122.
Definition upper (b : N) : Prop := 65 <= b <= 90.
Definition ident_char (b : N) : Prop :=
  lower b \/ upper b \/ digit b \/ b = 36 (* $ *) \/ b = 95 (* _ *).
Definition hex_digit (b : N) : Prop :=
  digit b \/ 97 <= b <= 102 \/ 65 <= b <= 70.

(** [begins p s]: the text [s] begins with [p]. *)
Definition begins (p s : bytes) : Prop := exists r, s = p ++ r.
(** The first character of [s], if any, satisfies [P]. *)
Definition head_is (P : N -> Prop) (s : bytes) : Prop := exists b r, s = b :: r /\ P b.

(** The four line terminators LF, CR, U+2028, U+2029 in UTF-8. *)
Definition line_terminators : list bytes := [[10]; [13]; [226; 128; 168]; [226; 128; 169]].
Definition at_line_terminator (s : bytes) : Prop :=
  exists t, In t line_terminators /\ begins t s.

(** No-break space and byte order mark. *)
Definition nbsp : bytes := [194; 160].
Definition bom : bytes := [239; 187; 191].

(** [p] occurs nowhere in [s]. *)
Definition absent (p s : bytes) : Prop := forall a b, s <> a ++ p ++ b.
(** [s] ends with [p] and contains no other occurrence of [p]. *)
Definition ends_at_first (p s : bytes) : Prop :=
  (exists a, s = a ++ p) /\ forall a b, s = a ++ p ++ b -> b = [].

(** ** Punctuators *)
Definition spelling (p : punctuator) : bytes := s2b
  match p with
  | CurlyOpen => "{" | CurlyClose => "}" | ParenOpen => "(" | ParenClose => ")"
  | SquareOpen => "[" | SquareClose => "]" | Semicolon => ";" | Comma => ","
  | Tilde => "~" | Question => "?" | Colon => ":" | Period => "." | Ellipsis => "..."
  | LAngle => "<" | LAngleEq => "<=" | LAngleAngle => "<<" | LAngleAngleEq => "<<="
  | LAngleExclamDashDash => "<!--"
  | RAngle => ">" | RAngleEq => ">=" | RAngleAngle => ">>" | RAngleAngleEq => ">>="
  | RAngleAngleAngle => ">>>" | RAngleAngleAngleEq => ">>>="
  | Exclam => "!" | ExclamEq => "!=" | ExclamEqEq => "!=="
  | Eq_ => "=" | Arrow => "=>" | EqEq => "==" | EqEqEq => "==="
  | Plus => "+" | PlusEq => "+=" | PlusPlus => "++"
  | Minus => "-" | MinusEq => "-=" | MinusMinus => "--" | MinusMinusAngle => "-->"
  | Percent => "%" | PercentEq => "%="
  | Star => "*" | StarEq => "*=" | StarStar => "**" | StarStarEq => "**="
  | Slash => "/" | SlashEq => "/="
  | Amp => "&" | AmpAmp => "&&" | AmpEq => "&="
  | Bar => "|" | BarBar => "||" | BarEq => "|="
  | Caret => "^" | CaretEq => "^="
  end%string.

(** [p] is the longest punctuator, other than [<!--], with which the text begins. *)
Definition longest_punctuator (p : punctuator) (s : bytes) : Prop :=
  p <> LAngleExclamDashDash /\ begins (spelling p) s /\
  forall q, q <> LAngleExclamDashDash -> begins (spelling q) s ->
            (length (spelling q) <= length (spelling p))%nat.

(** The punctuators whose reading depends on the hint. *)
Definition hinted (p : punctuator) : Prop := p = Slash \/ p = SlashEq \/ p = CurlyClose.

(** ** Comments *)

(** [v], followed by [r], is the whole text of a line comment. *)
Definition line_comment_text (v r : bytes) : Prop :=
  (r = [] \/ at_line_terminator r) /\
  forall a b, v = a ++ b -> b <> [] -> ~ at_line_terminator (b ++ r).

Definition block_comment_text (v : bytes) : Prop := ends_at_first (s2b "*/") (v ++ s2b "*/").

(** ** Regular expressions *)

(** The inside of a class [...]: characters other than backslash and [']'], and
    escapes. *)
Inductive regex_class : bytes -> Prop :=
| rc_nil : regex_class []
| rc_char c v : c <> 92 -> c <> 93 -> regex_class v -> regex_class (c :: v)
| rc_escape c v : regex_class v -> regex_class (92 :: c :: v).
(** A body: characters other than backslash, slash and ['['], escapes, classes. *)
Inductive regex_body : bytes -> Prop :=
| rb_nil : regex_body []
| rb_char c v : c <> 92 -> c <> 47 -> c <> 91 -> regex_body v -> regex_body (c :: v)
| rb_escape c v : regex_body v -> regex_body (92 :: c :: v)
| rb_class u v : regex_class u -> regex_body v -> regex_body (91 :: u ++ 93 :: v).

(** ** Templates *)

(** The text of a template chunk: no backtick, no ['${']. *)
Definition template_text (v : bytes) : Prop := absent (s2b "`") v /\ absent (s2b "${") v.

(** ** Strings *)

Definition simple_escape (c : N) : Prop := In c (34 :: s2b "'\bfnrtv0").
Definition at_ls_ps (s : bytes) : Prop := begins [226; 128; 168] s \/ begins [226; 128; 169] s.

(** [string_text q nl v nl']: [v] can stand between two quotes [q].  [nl] and [nl']
    say whether a bare line feed is tolerated before and after [v]: it is once an
    escaped carriage return has been seen. *)
Inductive string_text (q : N) : bool -> bytes -> bool -> Prop :=
| st_nil nl : string_text q nl [] nl
| st_char nl c v nl' :
    c <> 92 -> c <> q -> c <> 13 -> (c = 10 -> nl = true) -> ~ at_ls_ps (c :: v) ->
    string_text q nl v nl' -> string_text q nl (c :: v) nl'
| st_escape nl c v nl' :
    simple_escape c \/ c = 10 -> string_text q nl v nl' -> string_text q nl (92 :: c :: v) nl'
| st_escape_cr nl v nl' :
    string_text q true v nl' -> string_text q nl (92 :: 13 :: v) nl'
| st_escape_ls_ps nl v nl' :
    at_ls_ps (226 :: v) -> string_text q nl v nl' -> string_text q nl (92 :: 226 :: v) nl'
| st_escape_x nl a v nl' :              (* \x and one arbitrary byte *)
    string_text q nl v nl' -> string_text q nl (92 :: 120 :: a :: v) nl'
| st_escape_u nl a b c v nl' :          (* \u and three arbitrary bytes *)
    a <> 123 -> string_text q nl v nl' -> string_text q nl (92 :: 117 :: a :: b :: c :: v) nl'
| st_escape_u_long nl u v nl' :         (* \u{ up to the next } *)
    Forall (fun x => x <> 125) u ->
    string_text q nl (125 :: v) nl' -> string_text q nl (92 :: 117 :: 123 :: u ++ 125 :: v) nl'.

(** An escape cut short by the end of the source. *)
Inductive cut_escape : bytes -> Prop :=
| ce_none : cut_escape []
| ce_backslash : cut_escape [92]
| ce_x : cut_escape [92; 120]
| ce_u w : (length w <= 2)%nat -> ~ begins [123] w -> cut_escape (92 :: 117 :: w)
| ce_u_long u : Forall (fun x => x <> 125) u -> cut_escape (92 :: 117 :: 123 :: u).

(** The text after an opening quote runs to the end of the source without being
    closed. *)
Definition string_open (q : N) (s : bytes) : Prop :=
  exists v r nl, s = v ++ r /\ string_text q false v nl /\ cut_escape r.

(** What makes a string literal panic: a bare line break, ['\1'] to ['\9'], or an
    unknown escape. *)
Definition string_error_here (nl : bool) (s : bytes) : Prop :=
  begins [13] s \/ (begins [10] s /\ nl = false) \/ at_ls_ps s \/
  exists c r, s = 92 :: c :: r /\ ~ simple_escape c /\ c <> 10 /\ c <> 13 /\ c <> 120 /\ c <> 117
              /\ ~ at_ls_ps (c :: r).
Definition string_error (q : N) (s : bytes) : Prop :=
  exists v r nl, s = v ++ r /\ string_text q false v nl /\ ~ begins [q] r /\ string_error_here nl r.

(** ** Numbers *)

(** The exponent part [x] of a number, in front of [r]: a letter [e] or [E], a sign
    or none, and all the digits that follow.  Absent if the text does not go on with
    [e] or [E], or is that letter alone. *)
Definition exp_letter (b : N) : Prop := b = 101 \/ b = 69.
Definition sign_char (b : N) : Prop := b = 43 \/ b = 45.
Inductive exponent_part : bytes -> bytes -> Prop :=
| ep_none r : ~ head_is exp_letter r \/ length r = 1%nat -> exponent_part [] r
| ep_unsigned c ds r :
    exp_letter c -> Forall digit ds -> ~ head_is digit r -> ~ head_is sign_char (ds ++ r) ->
    ds ++ r <> [] -> exponent_part (c :: ds) r
| ep_signed c sg ds r :
    exp_letter c -> sign_char sg -> Forall digit ds -> ~ head_is digit r ->
    exponent_part (c :: sg :: ds) r.

(** The number written by a string of digits. *)
Definition digits_value (base : N) (ds : bytes) : N :=
  fold_left (fun acc d => acc * base + (d - 48)) ds 0.

(** The digits of an exponent part, and whether their value fits in an [i32]. *)
Definition exponent_digits (x : bytes) : bytes :=
  match x with
  | _ :: s :: ds => if (s =? 43) || (s =? 45) then ds else s :: ds
  | _ => []
  end.
Definition exponent_fits (x : bytes) : Prop :=
  digits_value 10 (exponent_digits x) < 2147483648.

(** The exponent a text denotes. *)
Definition exponent_value (x : bytes) : Z :=
  match x with
  | _ :: s :: _ =>
    ((if (s =? 45)%N then -1 else 1) * Z.of_N (digits_value 10 (exponent_digits x)))%Z
  | _ => 0%Z
  end.

(** [decimal_text m x r]: the mantissa [m] and the exponent part [x] make up the
    decimal literal in front of [r]. *)
Inductive decimal_text : bytes -> bytes -> bytes -> Prop :=
| dt_integer d ds x r :                              (* 12 or 12e3 *)
    49 <= d <= 57 -> Forall digit ds -> ~ head_is digit (x ++ r) -> ~ head_is (eq 46) (x ++ r) ->
    exponent_part x r -> decimal_text (d :: ds) x r
| dt_fraction d ds fs x r :                          (* 12. or 12.5 or 12.5e3 *)
    49 <= d <= 57 -> Forall digit ds -> Forall digit fs -> ~ head_is digit (x ++ r) ->
    exponent_part x r -> decimal_text (d :: ds ++ 46 :: fs) x r
| dt_dot f fs x r :                                  (* .5 or .5e3 *)
    Forall digit (f :: fs) -> ~ head_is digit (x ++ r) ->
    exponent_part x r -> decimal_text (46 :: f :: fs) x r
| dt_zero_dot fs x r :                               (* 0. or 0.5 or 0.5e3 *)
    Forall digit fs -> ~ head_is digit (x ++ r) -> fs ++ x ++ r <> [] ->
    exponent_part x r -> decimal_text (48 :: 46 :: fs) x r
| dt_zero r :                                        (* 0, whatever follows *)
    (length r <= 1)%nat \/ ~ head_is (fun b => In b (s2b "xXoObB.")) r ->
    decimal_text [48] [] r.

Definition octal_digit (b : N) : Prop := 48 <= b <= 55.
Definition binary_digit (b : N) : Prop := 48 <= b <= 49.

(** What may stand in the place of the first digit after [0x], [0o], [0b]: any ASCII
    character; with overflow checks, none below ['0']. *)
Definition first_digit (checks : bool) (d : N) : Prop :=
  d < 128 /\ (checks = true -> 48 <= d).

(** The prefixes, digits and refused digits of the three radixes. *)
Inductive radix : Set := Hex | Octal | Binary.
Definition radix_letter (x : radix) (b : N) : Prop :=
  match x with
  | Hex => b = 120 \/ b = 88 | Octal => b = 111 \/ b = 79 | Binary => b = 98 \/ b = 66
  end.
Definition radix_digit (x : radix) (b : N) : Prop :=
  match x with Hex => hex_digit b | Octal => octal_digit b | Binary => binary_digit b end.
Definition radix_refused (x : radix) (b : N) : Prop :=
  match x with Hex => False | Octal => 56 <= b <= 57 | Binary => 50 <= b <= 57 end.

Definition radix_base (x : radix) : N := match x with Hex => 16 | Octal => 8 | Binary => 2 end.
(** The value of a digit, for [a]-[f] and [A]-[F] too. *)
Definition digit_value (c : N) : N :=
  if c <? 65 then c - 48 else if c <? 97 then c - 55 else c - 87.
(** The number a string of digits denotes. *)
Definition denotes (base : N) (ds : bytes) : N :=
  fold_left (fun acc c => acc * base + digit_value c) ds 0.
(** What the tokenizer takes for the value of a digit after the first: [a] and [A]
    count as 0, not as 10. *)
Definition digit_as_read (c : N) : N :=
  if c <? 65 then c - 48 else if c <? 97 then c - 65 else c - 97.
(** What it takes for the value of the digits [d :: ds]: the first digit is the
    distance of its code from that of ['0']. *)
Definition denotes_as_read (base : N) (d : N) (ds : bytes) : N :=
  fold_left (fun acc c => acc * base + digit_as_read c) ds (d - 48).

(** The binary64 number [x] is the integer [z]. *)
Definition is_integer (x : f64) (z : Z) : Prop :=
  match x with
  | S754_zero _ => z = 0%Z
  | S754_finite s m e =>
    (exists k, 0 <= k /\ 0 <= e + k /\ (if s then - Zpos m else Zpos m) * 2 ^ (e + k) = z * 2 ^ k)%Z
  | _ => False
  end.

(** ** Tokens *)

(** A byte in front of which no token can be read: the tokenizer answers with an
    empty identifier and does not advance. *)
Definition unsupported (s : bytes) : Prop :=
  head_is (fun b => ~ ident_char b /\ ~ blank b /\ b <> 34 /\ b <> 39 /\ b <> 96 /\
                    forall p, ~ head_is (eq b) (spelling p)) s /\
  ~ at_line_terminator s /\ ~ begins nbsp s /\ ~ begins bom s.

(** [lexeme checks h w t r]: under hint [h], the text [w], followed by [r], is the
    token [t].  The value of a number is left open here.  [checks] says whether the
    build checks integer overflow. *)
Inductive lexeme (checks : bool) (h : hint) : bytes -> token -> bytes -> Prop :=
| lx_eof : lexeme checks h [] TEOF []
| lx_line_terminator t r : In t line_terminators -> lexeme checks h t TLineTerminator r
| lx_punctuator p r :
    longest_punctuator p (spelling p ++ r) -> ~ hinted p ->
    (p = Period -> ~ head_is digit r) ->
    lexeme checks h (spelling p) (TPunctuator p) r
| lx_slash r :
    h_expression h = false -> ~ head_is (fun b => b = 47 \/ b = 42 \/ b = 61) r ->
    lexeme checks h (s2b "/") (TPunctuator Slash) r
| lx_slash_eq r :
    h_expression h = false -> lexeme checks h (s2b "/=") (TPunctuator SlashEq) r
| lx_curly_close r :
    h_template h = false -> lexeme checks h (s2b "}") (TPunctuator CurlyClose) r
| lx_line_comment v r :
    line_comment_text v r -> lexeme checks h (s2b "//" ++ v) (TComment CF_Line v) r
| lx_block_comment v r :
    block_comment_text v -> lexeme checks h (s2b "/*" ++ v ++ s2b "*/") (TComment CF_Block v) r
| lx_regex p fl r :
    h_expression h = true -> regex_body p -> p <> [] -> ~ begins (s2b "*") p ->
    Forall lower fl -> ~ head_is lower r ->
    lexeme checks h (s2b "/" ++ p ++ s2b "/" ++ fl) (TRegExp p fl) r
| lx_template_whole v r :
    template_text v -> lexeme checks h (s2b "`" ++ v ++ s2b "`") (TTemplate TF_NoSubstitution v v) r
| lx_template_head v r :
    template_text v -> lexeme checks h (s2b "`" ++ v ++ s2b "${") (TTemplate TF_Head v v) r
| lx_template_middle v r :
    h_template h = true -> template_text v ->
    lexeme checks h (s2b "}" ++ v ++ s2b "${") (TTemplate TF_Middle v v) r
| lx_template_tail v r :
    h_template h = true -> template_text v ->
    lexeme checks h (s2b "}" ++ v ++ s2b "`") (TTemplate TF_Tail v v) r
| lx_ident c v r :
    ident_char c -> ~ digit c -> Forall ident_char v -> ~ head_is ident_char r ->
    lexeme checks h (c :: v) (TIdent (c :: v)) r
| lx_ident_empty r : unsupported r -> lexeme checks h [] (TIdent []) r
| lx_string q v nl r :
    q = 34 \/ q = 39 -> string_text q false v nl -> lexeme checks h (q :: v ++ [q]) (TString v) r
| lx_string_empty q v :
    q = 34 \/ q = 39 -> string_open q v -> lexeme checks h [] (TString []) (q :: v)
| lx_decimal m x r n :
    decimal_text m x r -> (checks = true -> exponent_fits x) ->
    lexeme checks h (m ++ x) (TNumeric n) r
| lx_radix k l d ds r n :
    radix_letter k l -> first_digit checks d -> Forall (radix_digit k) ds ->
    ~ head_is (radix_digit k) r -> ~ head_is (radix_refused k) r ->
    lexeme checks h (48 :: l :: d :: ds) (TNumeric n) r.

(** Equal, except possibly for the value of a number. *)
Definition same_token (a b : token) : Prop :=
  match a, b with TNumeric _, TNumeric _ => True | _, _ => a = b end.

(** [lex_error checks h s]: the tokenizer gives up (panics) at [s]. *)
Inductive lex_error (checks : bool) (h : hint) : bytes -> Prop :=
| le_block_comment v : absent (s2b "*/") v -> lex_error checks h (s2b "/*" ++ v)
| le_regex v :
    h_expression h = true -> ~ head_is (fun b => b = 47 \/ b = 42) v ->
    (forall p r, v = p ++ s2b "/" ++ r -> ~ regex_body p) -> lex_error checks h (s2b "/" ++ v)
| le_template v : template_text v -> lex_error checks h (s2b "`" ++ v)
| le_template_rest v :
    h_template h = true -> template_text v -> lex_error checks h (s2b "}" ++ v)
| le_string q v : q = 34 \/ q = 39 -> string_error q v -> lex_error checks h (q :: v)
| le_exponent m x r :
    checks = true -> decimal_text m x r -> ~ exponent_fits x -> lex_error checks h (m ++ x ++ r)
| le_first_digit k l d r :
    radix_letter k l -> ~ first_digit checks d -> lex_error checks h (48 :: l :: d :: r)
| le_digit k l d ds r :
    radix_letter k l -> first_digit checks d -> Forall (radix_digit k) ds ->
    head_is (radix_refused k) r -> lex_error checks h (48 :: l :: d :: ds ++ r)
| le_nbsp r : lex_error checks h (nbsp ++ r)
| le_bom r : lex_error checks h (bom ++ r).
