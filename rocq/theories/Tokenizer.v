(** Model of src/tokenizer/slice.rs (the tokenizer behind [IntoTokenizer for
    &str]), function by function.

    Conventions.  [code] is the [&str] argument as a byte list.  A Rust function
    that fills an out-parameter [token] and returns a size is modelled as
    returning the pair; a panic is [TPanic].  Indexing [bytes[i]] is [at_]; every
    such access in the Rust is guarded by a length test that is kept here.
    [for (i, &b) in bytes.iter().enumerate().skip(k)] becomes a [Fixpoint] over
    [skipn k bytes] that carries [i]. *)
From Coq Require Import String List NArith ZArith Bool.
From Verif Require Import Base Tokens.
Import ListNotations.
Local Open Scope N_scope.

(** Byte literals. *)
Notation bTab := 9 (only parsing).
Notation bLF := 10 (only parsing).
Notation bVT := 11 (only parsing).
Notation bFF := 12 (only parsing).
Notation bCR := 13 (only parsing).
Notation bSP := 32 (only parsing).
Notation bBang := 33 (only parsing).
Notation bDQuote := 34 (only parsing).
Notation bDollar := 36 (only parsing).
Notation bPercent := 37 (only parsing).
Notation bAmp := 38 (only parsing).
Notation bSQuote := 39 (only parsing).
Notation bLParen := 40 (only parsing).
Notation bRParen := 41 (only parsing).
Notation bStar := 42 (only parsing).
Notation bPlus := 43 (only parsing).
Notation bComma := 44 (only parsing).
Notation bMinus := 45 (only parsing).
Notation bDot := 46 (only parsing).
Notation bSlash := 47 (only parsing).
Notation b0 := 48 (only parsing).
Notation b1 := 49 (only parsing).
Notation b2 := 50 (only parsing).
Notation b7 := 55 (only parsing).
Notation b8 := 56 (only parsing).
Notation b9 := 57 (only parsing).
Notation bColon := 58 (only parsing).
Notation bSemi := 59 (only parsing).
Notation bLt := 60 (only parsing).
Notation bEq := 61 (only parsing).
Notation bGt := 62 (only parsing).
Notation bQuestion := 63 (only parsing).
Notation bA := 65 (only parsing).
Notation bB := 66 (only parsing).
Notation bE := 69 (only parsing).
Notation bF := 70 (only parsing).
Notation bO := 79 (only parsing).
Notation bX := 88 (only parsing).
Notation bZ := 90 (only parsing).
Notation bLSquare := 91 (only parsing).
Notation bBackslash := 92 (only parsing).
Notation bRSquare := 93 (only parsing).
Notation bCaret := 94 (only parsing).
Notation bUnderscore := 95 (only parsing).
Notation bTick := 96 (only parsing).
Notation ba := 97 (only parsing).
Notation bb := 98 (only parsing).
Notation be := 101 (only parsing).
Notation bf := 102 (only parsing).
Notation bn := 110 (only parsing).
Notation bo := 111 (only parsing).
Notation br := 114 (only parsing).
Notation bt := 116 (only parsing).
Notation bu := 117 (only parsing).
Notation bv := 118 (only parsing).
Notation bx := 120 (only parsing).
Notation bz := 122 (only parsing).
Notation bLCurly := 123 (only parsing).
Notation bBar := 124 (only parsing).
Notation bRCurly := 125 (only parsing).
Notation bTilde := 126 (only parsing).

(** slice.rs:8-11, the UTF-8 encodings of the four statics. *)
Definition NS_LS : bytes := [226; 128; 168].
Definition NS_PS : bytes := [226; 128; 169].
Definition WS_NBSP : bytes := [194; 160].
Definition WS_ZWNBSP : bytes := [239; 187; 191].

(** slice.rs:13-17 [struct SliceTokenizer]. *)
Record slice_tokenizer : Set := SliceTokenizer { st_code : bytes; st_pos : position }.

(** slice.rs:99-108 [into_tokenizer]. *)
Definition into_tokenizer (code : bytes) : slice_tokenizer :=
  SliceTokenizer code position_default.

(** slice.rs:30, the four one-byte blanks. *)
Definition is_blank_byte (b : N) : bool :=
  (b =? bTab) || (b =? bVT) || (b =? bFF) || (b =? bSP).

(** slice.rs:28-41, the loop of [eat_whitespace].  [rest] is [code[index..]]; the
    slice [code[index..]] in the guards starts at a lead byte ([0xEF] or [0xC2]),
    hence on a char boundary, so its boundary test is omitted. *)
Fixpoint eat_whitespace_loop (rest : bytes) (index : nat) : nat :=
  match rest with
  | [] => index
  | b :: rest' =>
    if is_blank_byte b then eat_whitespace_loop rest' (S index)
    else if (b =? 239) && starts_with WS_ZWNBSP rest then eat_whitespace_loop rest' (S index)
    else if (b =? 194) && starts_with WS_NBSP rest then eat_whitespace_loop rest' (S index)
    else index
  end.

(** slice.rs:25-45 [eat_whitespace]. *)
Definition eat_whitespace (code : bytes) (pos : position) : tres position :=
  tdo rest <- slice_from code (offset pos) ;;
  let index := eat_whitespace_loop rest (offset pos) in
  TOk (Pos index (line pos) (column pos + (index - offset pos))).

(** slice.rs:51-75, the loop of [increment_position] over code points. *)
Fixpoint increment_position_loop (cs : list N) (saw_cr : bool) (ln col : nat) : nat * nat :=
  match cs with
  | [] => (ln, col)
  | c :: cs' =>
    if c =? bCR then increment_position_loop cs' true (S ln) 0
    else if c =? bLF then
      if saw_cr then increment_position_loop cs' false ln col
      else increment_position_loop cs' false (S ln) 0
    else if (c =? 8232) || (c =? 8233) then increment_position_loop cs' false (S ln) 0
    else increment_position_loop cs' false ln (S col)
  end.

(** slice.rs:47-76 [increment_position]. *)
Definition increment_position (code : bytes) (size : nat) (pos : position) : tres position :=
  tdo consumed <- slice code 0 size ;;
  let '(ln, col) := increment_position_loop (chars consumed) false (line pos) (column pos) in
  TOk (Pos (offset pos + size) ln col).

(** slice.rs:363, identifier bytes. *)
Definition is_ident_byte (b : N) : bool :=
  in_range ba bz b || in_range bA bZ b || in_range b0 b9 b
  || (b =? bDollar) || (b =? bUnderscore).

(** slice.rs:361-372, the loop of [tok_ident]. *)
Fixpoint tok_ident_loop (rest : bytes) (i : nat) : nat :=
  match rest with
  | [] => i
  | b :: rest' => if is_ident_byte b then tok_ident_loop rest' (S i) else i
  end.

(** slice.rs:355-379 [tok_ident]. *)
Definition tok_ident (code : bytes) : tres (token * nat) :=
  let end_ := tok_ident_loop code 0 in
  tdo name <- slice code 0 end_ ;;
  TOk (TIdent name, end_).

(** Where the scan of a template chunk stops: at the [{] of a [${], at a
    backtick, or nowhere. *)
Inductive template_stop : Set := StopCurly (i : nat) | StopTick (i : nat) | StopNone.

(** slice.rs:386-404 and 652-670, the (identical) loops of [tok_template_head]
    and [tok_curly_close]. *)
Fixpoint template_loop (rest : bytes) (i : nat) (break_curly : bool) : template_stop :=
  match rest with
  | [] => StopNone
  | b :: rest' =>
    if (b =? bLCurly) && break_curly then StopCurly i
    else if b =? bTick then StopTick i
    else if b =? bDollar then template_loop rest' (S i) true
    else template_loop rest' (S i) false
  end.

(** slice.rs:381-408 [tok_template_head]. *)
Definition tok_template_head (code : bytes) : tres (token * nat) :=
  match template_loop (skipn 1 code) 1 false with
  | StopCurly i =>
    tdo v <- slice code 1 (i - 1) ;; TOk (TTemplate TF_Head v v, i + 1)%nat
  | StopTick i =>
    tdo v <- slice code 1 i ;; TOk (TTemplate TF_NoSubstitution v v, i + 1)%nat
  | StopNone => TPanic (P_unimplemented "template string")
  end.

(** slice.rs:647-677 [tok_curly_close]. *)
Definition tok_curly_close (code : bytes) (h : hint) : tres (token * nat) :=
  if h_template h then
    match template_loop (skipn 1 code) 1 false with
    | StopCurly i =>
      tdo v <- slice code 1 (i - 1) ;; TOk (TTemplate TF_Middle v v, i + 1)%nat
    | StopTick i =>
      tdo v <- slice code 1 i ;; TOk (TTemplate TF_Tail v v, i + 1)%nat
    | StopNone => TPanic (P_unimplemented "template tail")
    end
  else TOk (TPunctuator CurlyClose, 1%nat).

(** ** Numbers *)

(** slice.rs:805-829 [parse_int_literal].  Returns the value and the number of
    bytes read, starting from [i] bytes already read with value [value]. *)
Fixpoint parse_int_literal_loop (rest : bytes) (value : f64) (i : nat) : f64 * nat :=
  match rest with
  | [] => (value, i)
  | b :: rest' =>
    if b =? b0 then
      if f64_eqb value f64_zero then (value, i)
      else parse_int_literal_loop rest' (f64_mul value (f64_of_Z 10)) (S i)
    else if in_range b1 b9 b then
      parse_int_literal_loop rest'
        (f64_add (f64_mul value (f64_of_Z 10)) (f64_of_u8 (b - b0))) (S i)
    else (value, i)
  end.
Definition parse_int_literal (bs : bytes) : f64 * nat :=
  parse_int_literal_loop bs f64_zero 0.

(** slice.rs:830-847 [parse_decimal_digits]. *)
Fixpoint parse_decimal_digits_loop (rest : bytes) (value factor : f64) (i : nat) : f64 * nat :=
  match rest with
  | [] => (value, i)
  | b :: rest' =>
    if in_range b0 b9 b then
      parse_decimal_digits_loop rest'
        (f64_add value (f64_mul factor (f64_of_u8 (b - b0))))
        (f64_div factor (f64_of_Z 10)) (S i)
    else (value, i)
  end.
Definition parse_decimal_digits (bs : bytes) : f64 * nat :=
  parse_decimal_digits_loop bs f64_zero f64_tenth 0.

(** slice.rs:864-878, the loop of [parse_exponent]; [i32] arithmetic panics or
    wraps according to the build. *)
Fixpoint parse_exponent_loop (E : env) (rest : bytes) (value : Z) (i : nat) : tres (Z * nat) :=
  match rest with
  | [] => TOk (value, i)
  | b :: rest' =>
    if in_range b0 b9 b then
      let val := Z.of_N (b - b0) in
      if negb (Z.eqb val 0) || negb (Z.eqb value 0) then
        tdo v1 <- i32 E (value * 10)%Z ;;
        tdo v2 <- i32 E (v1 + val)%Z ;;
        parse_exponent_loop E rest' v2 (S i)
      else parse_exponent_loop E rest' value (S i)
    else TOk (value, i)
  end.

(** slice.rs:849-881 [parse_exponent]. *)
Definition parse_exponent (E : env) (bs : bytes) : tres (Z * nat) :=
  let b := if Nat.leb 2 (length bs) then at_ bs 0 else 0 in
  if (b =? be) || (b =? bE) then
    let '(off, sign) :=
      if at_ bs 1 =? bPlus then (2%nat, 1%Z)
      else if at_ bs 1 =? bMinus then (2%nat, (-1)%Z)
      else (1%nat, 1%Z) in
    tdo (value, i) <- parse_exponent_loop E (skipn off bs) 0 off ;;
    tdo v <- i32 E (sign * value)%Z ;;
    TOk (v, i)
  else TOk (0%Z, 0%nat).

(** The three-line pattern of slice.rs:344-349, 422-426 and 529-533: read an
    exponent at [off] and scale [val] by [10f64.powi(exp)]. *)
Definition apply_exponent (E : env) (code : bytes) (val : f64) (off : nat) : tres (f64 * nat) :=
  tdo (exp, num) <- parse_exponent E (skipn off code) ;;
  if Nat.eqb num 0 then TOk (val, off)
  else TOk (f64_mul val (powi10 E exp), (off + num)%nat).

(** slice.rs:334-353 [tok_fractional]. *)
Definition tok_fractional (E : env) (code : bytes) : tres (token * nat) :=
  let '(frac, num) := parse_decimal_digits (skipn 1 code) in
  let val := f64_add f64_zero frac in
  tdo (val, off) <- apply_exponent E code val (1 + num) ;;
  tdo _ <- slice code 0 off ;;
  TOk (TNumeric val, off).

(** slice.rs:410-430 [tok_num]. *)
Definition tok_num (E : env) (code : bytes) : tres (token * nat) :=
  let '(val, off) := parse_int_literal code in
  let '(val, off) :=
    if Nat.ltb off (length code) && (at_ code off =? bDot) then
      let '(frac, num) := parse_decimal_digits (skipn (off + 1) code) in
      (f64_add val frac, (off + (num + 1))%nat)
    else (val, off) in
  tdo (val, off) <- apply_exponent E code val off ;;
  tdo _ <- slice code 0 off ;;
  TOk (TNumeric val, off).

(** slice.rs:443-463, the digit loop of a [0x] literal.  The offsets subtracted
    from letters are the code's ([v - b'a'], not [v - b'a' + 10]). *)
Fixpoint hex_loop (rest : bytes) (val : f64) (i : nat) : f64 * nat :=
  match rest with
  | [] => (val, i)
  | v :: rest' =>
    if in_range b0 b9 v then
      hex_loop rest' (f64_add (f64_mul val (f64_of_Z 16)) (f64_of_u8 (v - b0))) (S i)
    else if in_range ba bf v then
      hex_loop rest' (f64_add (f64_mul val (f64_of_Z 16)) (f64_of_u8 (v - ba))) (S i)
    else if in_range bA bF v then
      hex_loop rest' (f64_add (f64_mul val (f64_of_Z 16)) (f64_of_u8 (v - bA))) (S i)
    else (val, i)
  end.

(** slice.rs:472-487, the digit loop of a [0o] literal. *)
Fixpoint octal_loop (rest : bytes) (val : f64) (i : nat) : tres (f64 * nat) :=
  match rest with
  | [] => TOk (val, i)
  | v :: rest' =>
    if in_range b0 b7 v then
      octal_loop rest' (f64_add (f64_mul val (f64_of_Z 8)) (f64_of_u8 (v - b0))) (S i)
    else if (v =? b8) || (v =? b9) then TPanic (P_unimplemented "invalid number error")
    else TOk (val, i)
  end.

(** slice.rs:496-511, the digit loop of a [0b] literal. *)
Fixpoint binary_loop (rest : bytes) (val : f64) (i : nat) : tres (f64 * nat) :=
  match rest with
  | [] => TOk (val, i)
  | v :: rest' =>
    if in_range b0 b1 v then
      binary_loop rest' (f64_add (f64_mul val (f64_of_Z 2)) (f64_of_u8 (v - b0))) (S i)
    else if in_range b2 b9 v then TPanic (P_unimplemented "invalid number error")
    else TOk (val, i)
  end.

(** slice.rs:432-545 [tok_zero_num]. *)
Definition tok_zero_num (E : env) (code : bytes) : tres (token * nat) :=
  let b := if Nat.ltb 2 (length code) then at_ code 1 else 0 in
  if (b =? bx) || (b =? bX) then
    tdo d <- u8_sub E (at_ code 2) b0 ;;
    let '(val, i) := hex_loop (skipn 3 code) (f64_of_u8 d) 3 in
    tdo _ <- slice code 0 i ;;
    TOk (TNumeric val, i)
  else if (b =? bo) || (b =? bO) then
    tdo d <- u8_sub E (at_ code 2) b0 ;;
    tdo (val, i) <- octal_loop (skipn 3 code) (f64_of_u8 d) 3 ;;
    tdo _ <- slice code 0 i ;;
    TOk (TNumeric val, i)
  else if (b =? bb) || (b =? bB) then
    tdo d <- u8_sub E (at_ code 2) b0 ;;
    tdo (val, i) <- binary_loop (skipn 3 code) (f64_of_u8 d) 3 ;;
    tdo _ <- slice code 0 i ;;
    TOk (TNumeric val, i)
  else if b =? bDot then
    let '(frac, num) := parse_decimal_digits (skipn 2 code) in
    let '(val, off) :=
      if Nat.eqb num 0 then (f64_zero, 2%nat)
      else (f64_add f64_zero frac, (2 + num)%nat) in
    tdo (val, off) <- apply_exponent E code val off ;;
    tdo _ <- slice code 0 off ;;
    TOk (TNumeric val, off)
  else
    tdo (_, num) <- parse_exponent E code ;;
    tdo _ <- slice code 0 (num + 1) ;;
    TOk (TNumeric f64_zero, (num + 1)%nat).

(** ** Comments, regular expressions and division *)

(** slice.rs:555-567, the scan of a line comment.  [None] is the code's
    [end == 0] (no terminator found).  [code[i..]] is [rest]. *)
Fixpoint line_comment_loop (rest : bytes) (i : nat) : option nat :=
  match rest with
  | [] => None
  | b :: rest' =>
    if (b =? bCR) || (b =? bLF) then Some i
    else if (b =? 226) && (starts_with NS_LS rest || starts_with NS_PS rest) then Some i
    else line_comment_loop rest' (S i)
  end.

(** slice.rs:575-589, the scan of a block comment; [Some i] is the index of the
    closing slash. *)
Fixpoint block_comment_loop (rest : bytes) (i : nat) (break_slash : bool) : option nat :=
  match rest with
  | [] => None
  | b :: rest' =>
    if (b =? bSlash) && break_slash then Some i
    else if b =? bStar then block_comment_loop rest' (S i) true
    else block_comment_loop rest' (S i) false
  end.

(** slice.rs:595-618, the scan of a regular expression body; [None] is the code's
    [end == index + 1] (no closing slash found). *)
Fixpoint regex_loop (rest : bytes) (i : nat) (in_escape in_class : bool) : option nat :=
  match rest with
  | [] => None
  | b :: rest' =>
    if in_escape then regex_loop rest' (S i) false in_class
    else if b =? bBackslash then regex_loop rest' (S i) true in_class
    else if (b =? bSlash) && negb in_class then Some i
    else if (b =? bLSquare) && negb in_class then regex_loop rest' (S i) false true
    else if (b =? bRSquare) && in_class then regex_loop rest' (S i) false false
    else regex_loop rest' (S i) false in_class
  end.

(** slice.rs:624-631, the scan of the flags.  The code iterates over chars; a
    char in ['a'...'z'] is exactly one byte in that range. *)
Fixpoint regex_flags_loop (rest : bytes) (i : nat) : nat :=
  match rest with
  | [] => i
  | b :: rest' => if in_range ba bz b then regex_flags_loop rest' (S i) else i
  end.

(** slice.rs:547-645 [tok_slash]. *)
Definition tok_slash (code : bytes) (h : hint) : tres (token * nat) :=
  let len := length code in
  if Nat.ltb 1 len && (at_ code 1 =? bSlash) then
    let end_ := match line_comment_loop (skipn 2 code) 2 with
                | Some i => i
                | None => len
                end in
    tdo v <- slice code 2 end_ ;;
    TOk (TComment CF_Line v, end_)
  else if Nat.ltb 1 len && (at_ code 1 =? bStar) then
    match block_comment_loop (skipn 2 code) 2 false with
    | Some i => tdo v <- slice code 2 (i - 1) ;; TOk (TComment CF_Block v, i + 1)%nat
    | None => TPanic (P_unimplemented "unterminated block comment")
    end
  else if h_expression h then
    match regex_loop (skipn 1 code) 1 false false with
    | None => TPanic (P_unimplemented "unterminated regex")
    | Some end_ =>
      tdo rest <- slice_from code (end_ + 1) ;;
      let flag_end := regex_flags_loop rest (end_ + 1) in
      tdo pattern <- slice code 1 end_ ;;
      tdo flags <- slice code (end_ + 1) flag_end ;;
      TOk (TRegExp pattern flags, flag_end)
    end
  else if Nat.ltb 1 len && (at_ code 1 =? bEq) then TOk (TPunctuator SlashEq, 2%nat)
  else TOk (TPunctuator Slash, 1%nat).

(** ** Strings *)

(** slice.rs:688-692, the scanner variables of [tok_str].  [in_escape] is an
    [i32] in the code; here it is unbounded (it would need two thousand million
    bytes inside one [\u{...}] escape to overflow). *)
Record str_state : Set := StrState {
  in_escape : nat;
  in_hex_escape : bool;
  in_unicode_escape : bool;
  in_long_unicode_escape : bool;
  ignore_nl : bool
}.

Definition str_state_init : str_state := StrState 0 false false false false.

(** What one iteration of the loop does. *)
Inductive str_step_result : Set :=
| StrContinue (s : str_state)  (** go on with the next byte *)
| StrClose                     (** [break] at the closing quote *)
| StrPanic (p : panic).

Definition starts_ls_or_ps (rest : bytes) : bool :=
  starts_with NS_PS rest || starts_with NS_LS rest.

(** slice.rs:761-790, the second half of the loop body, with [in_escape = 0]. *)
Definition str_plain (t b : N) (rest : bytes) (s : str_state) : str_step_result :=
  if b =? bBackslash then
    StrContinue (StrState 1 (in_hex_escape s) (in_unicode_escape s)
                          (in_long_unicode_escape s) (ignore_nl s))
  else if (b =? bDQuote) && (t =? bDQuote) then StrClose
  else if (b =? bSQuote) && (t =? bSQuote) then StrClose
  else if (b =? bLF) && ignore_nl s then StrContinue s
  else if (b =? bCR) || (b =? bLF) then StrPanic (P_panic "string with newlines")
  else if (b =? 226) && starts_ls_or_ps rest then StrPanic (P_panic "string with newlines")
  else StrContinue s.

(** slice.rs:735-759, the middle of the loop body. *)
Definition str_middle (t b : N) (rest : bytes) (s : str_state) : str_step_result :=
  let s1 :=
    if in_hex_escape s && Nat.eqb (in_escape s) 3
    then StrState 0 false (in_unicode_escape s) (in_long_unicode_escape s) (ignore_nl s)
    else s in
  let s2 :=
    if in_unicode_escape s1 then
      let long := in_long_unicode_escape s1 || (Nat.eqb (in_escape s1) 2 && (b =? bLCurly)) in
      let s' :=
        if negb long && Nat.eqb (in_escape s1) 5
        then StrState 0 (in_hex_escape s1) false long (ignore_nl s1)
        else StrState (in_escape s1) (in_hex_escape s1) (in_unicode_escape s1) long (ignore_nl s1) in
      if in_long_unicode_escape s' && (b =? bRCurly)
      then StrState 0 (in_hex_escape s') false false (ignore_nl s')
      else s'
    else s1 in
  if Nat.eqb (in_escape s2) 0 then str_plain t b rest s2
  else StrContinue (StrState (S (in_escape s2)) (in_hex_escape s2) (in_unicode_escape s2)
                             (in_long_unicode_escape s2) (ignore_nl s2)).

(** slice.rs:717-719 and 713-716: the one-character escapes. *)
Definition is_simple_escape (b : N) : bool :=
  (b =? bSQuote) || (b =? bDQuote) || (b =? bBackslash) || (b =? bb) || (b =? bf)
  || (b =? bn) || (b =? br) || (b =? bt) || (b =? bv) || (b =? b0).

(** slice.rs:695-791, the whole loop body for byte [b]; [rest] is [code[i..]]. *)
Definition str_step (t b : N) (rest : bytes) (s : str_state) : str_step_result :=
  if Nat.eqb (in_escape s) 1 then
    let done_ nl := StrContinue (StrState 0 (in_hex_escape s) (in_unicode_escape s)
                                          (in_long_unicode_escape s) nl) in
    if b =? bCR then done_ true
    else if b =? bLF then done_ (ignore_nl s)
    else if (b =? 226) && starts_ls_or_ps rest then done_ (ignore_nl s)
    else if is_simple_escape b then done_ (ignore_nl s)
    else if b =? bx then
      str_middle t b rest (StrState 1 true (in_unicode_escape s)
                                    (in_long_unicode_escape s) (ignore_nl s))
    else if b =? bu then
      str_middle t b rest (StrState 1 (in_hex_escape s) true
                                    (in_long_unicode_escape s) (ignore_nl s))
    else if in_range b1 b9 b then StrPanic (P_panic "numbers not allowed")
    else StrPanic (P_unimplemented "totally bad escapes")
  else str_middle t b rest s.

(** slice.rs:695-791, the loop: [Some i] is the index of the closing quote. *)
Fixpoint str_loop (t : N) (rest : bytes) (i : nat) (s : str_state) : tres (option nat) :=
  match rest with
  | [] => TOk None
  | b :: rest' =>
    match str_step t b rest s with
    | StrContinue s' => str_loop t rest' (S i) s'
    | StrClose => TOk (Some i)
    | StrPanic p => TPanic p
    end
  end.

(** slice.rs:679-802 [tok_str].  [pieces] holds one piece when the closing quote
    was found and none otherwise, so the decoded value is that piece or empty. *)
Definition tok_str (t : N) (code : bytes) : tres (token * nat) :=
  tdo r <- str_loop t (skipn 1 code) 1 str_state_init ;;
  match r with
  | Some i =>
    tdo piece <- slice code 1 i ;;
    tdo _ <- slice code 0 (i + 1) ;;
    TOk (TString piece, i + 1)%nat
  | None => TOk (TString [], 0%nat)
  end.

(** ** Dispatch *)

(** slice.rs:110-113 [punc]. *)
Definition punc_tok (p : punctuator) (size : nat) : tres (token * nat) :=
  TOk (TPunctuator p, size).

(** [len > i && bytes[i] == c], the test used throughout slice.rs:161-292. *)
Definition byte_is (code : bytes) (i : nat) (c : N) : bool :=
  Nat.ltb i (length code) && (at_ code i =? c).

(** slice.rs:141-332 [read_next]. *)
Definition read_next (E : env) (code : bytes) (h : hint) : tres (token * nat) :=
  if Nat.eqb (length code) 0 then TOk (TEOF, 0%nat)
  else
  let b := at_ code 0 in
  if b =? bLCurly then punc_tok CurlyOpen 1
  else if b =? bLParen then punc_tok ParenOpen 1
  else if b =? bRParen then punc_tok ParenClose 1
  else if b =? bLSquare then punc_tok SquareOpen 1
  else if b =? bRSquare then punc_tok SquareClose 1
  else if b =? bSemi then punc_tok Semicolon 1
  else if b =? bComma then punc_tok Comma 1
  else if b =? bQuestion then punc_tok Question 1
  else if b =? bColon then punc_tok Colon 1
  else if b =? bTilde then punc_tok Tilde 1
  else if b =? bDot then
    if byte_is code 2 bDot && (at_ code 1 =? bDot) then punc_tok Ellipsis 3
    else if Nat.ltb 1 (length code) && in_range b0 b9 (at_ code 1) then tok_fractional E code
    else punc_tok Period 1
  else if b =? bLt then
    if byte_is code 1 bLt then
      if byte_is code 2 bEq then punc_tok LAngleAngleEq 3 else punc_tok LAngleAngle 2
    else if byte_is code 1 bEq then punc_tok LAngleEq 2
    else punc_tok LAngle 1
  else if b =? bGt then
    if byte_is code 1 bGt then
      if byte_is code 2 bGt then
        if byte_is code 3 bEq then punc_tok RAngleAngleAngleEq 4
        else punc_tok RAngleAngleAngle 3
      else if byte_is code 2 bEq then punc_tok RAngleAngleEq 3
      else punc_tok RAngleAngle 2
    else if byte_is code 1 bEq then punc_tok RAngleEq 2
    else punc_tok RAngle 1
  else if b =? bEq then
    if byte_is code 1 bEq then
      if byte_is code 2 bEq then punc_tok EqEqEq 3 else punc_tok EqEq 2
    else if byte_is code 1 bGt then punc_tok Arrow 2
    else punc_tok Eq_ 1
  else if b =? bBang then
    if byte_is code 1 bEq then
      if byte_is code 2 bEq then punc_tok ExclamEqEq 3 else punc_tok ExclamEq 2
    else punc_tok Exclam 1
  else if b =? bPlus then
    if byte_is code 1 bPlus then punc_tok PlusPlus 2
    else if byte_is code 1 bEq then punc_tok PlusEq 2
    else punc_tok Plus 1
  else if b =? bMinus then
    if byte_is code 1 bMinus then
      if byte_is code 2 bGt then punc_tok MinusMinusAngle 3 else punc_tok MinusMinus 2
    else if byte_is code 1 bEq then punc_tok MinusEq 2
    else punc_tok Minus 1
  else if b =? bAmp then
    if byte_is code 1 bAmp then punc_tok AmpAmp 2
    else if byte_is code 1 bEq then punc_tok AmpEq 2
    else punc_tok Amp 1
  else if b =? bBar then
    if byte_is code 1 bBar then punc_tok BarBar 2
    else if byte_is code 1 bEq then punc_tok BarEq 2
    else punc_tok Bar 1
  else if b =? bCaret then
    if byte_is code 1 bEq then punc_tok CaretEq 2 else punc_tok Caret 1
  else if b =? bPercent then
    if byte_is code 1 bEq then punc_tok PercentEq 2 else punc_tok Percent 1
  else if b =? bStar then
    if byte_is code 1 bStar then
      if byte_is code 2 bEq then punc_tok StarStarEq 3 else punc_tok StarStar 2
    else if byte_is code 1 bEq then punc_tok StarEq 2
    else punc_tok Star 1
  else if b =? bSlash then tok_slash code h
  else if b =? bRCurly then tok_curly_close code h
  else if (b =? bSQuote) || (b =? bDQuote) then tok_str b code
  else if b =? b0 then tok_zero_num E code
  else if in_range b1 b9 b then tok_num E code
  else if b =? bTick then tok_template_head code
  else if is_blank_byte b then TPanic (P_unreachable "read_next")
  else if (b =? 239) && starts_with WS_ZWNBSP code then TPanic (P_unreachable "read_next")
  else if (b =? 194) && starts_with WS_NBSP code then TPanic (P_unreachable "read_next")
  else if (b =? bLF) || (b =? bCR) then TOk (TLineTerminator, 1%nat)
  else if (b =? 226) && (starts_with NS_PS code || starts_with NS_LS code) then
    TOk (TLineTerminator, 3%nat)
  else tok_ident code.

(** slice.rs:78-97 [next_token]: the token, its range and the advanced tokenizer. *)
Definition next_token (E : env) (t : slice_tokenizer) (h : hint)
  : tres (token * token_range * slice_tokenizer) :=
  tdo start <- eat_whitespace (st_code t) (st_pos t) ;;
  tdo s <- slice_from (st_code t) (offset start) ;;
  tdo (tok, size) <- read_next E s h ;;
  tdo end_ <- increment_position s size start ;;
  TOk (tok, Range start end_, SliceTokenizer (st_code t) end_).
