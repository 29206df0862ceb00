(** Specification of token streams: positions, spellings and the tiling of a source
    by token ranges.  Of Tokenizer.v, only the API (the type of tokenizers, [next_token])
    is used. *)
From Coq Require Import String List Arith NArith Bool.
From Verif Require Import Base Tokens SpecTokens Tokenizer.
Import ListNotations.

(** ** Positions *)

(** Code points that end a line: LF, CR, U+2028, U+2029. *)
Definition is_break (c : N) : Prop := In c [10; 13; 8232; 8233]%N.

(** The number of line breaks in a text, CR LF counting once. *)
Fixpoint line_breaks (cs : list N) : nat :=
  match cs with
  | [] => 0
  | c :: r =>
    if N.eqb c 13 then
      match r with
      | d :: r' => if N.eqb d 10 then S (line_breaks r') else S (line_breaks r)
      | [] => 1
      end
    else if in_dec N.eq_dec c [10; 8232; 8233]%N then S (line_breaks r)
    else line_breaks r
  end.

(** [advance cs l c l' c']: walking over the code points [cs] from line [l], column
    [c] ends on line [l'], column [c']; columns count code points after the last
    line break. *)
Inductive advance (cs : list N) (l c : nat) : nat -> nat -> Prop :=
| adv_same_line : Forall (fun x => ~ is_break x) cs -> advance cs l c l (c + length cs)
| adv_new_line a b d :
    cs = a ++ b :: d -> is_break b -> Forall (fun x => ~ is_break x) d ->
    advance cs l c (l + line_breaks cs) (length d).

(** ** Spelling *)

(** [spells t w]: the text [w] is a spelling of the token [t]. *)
Definition spells (t : token) (w : bytes) : Prop :=
  match t with
  | TPunctuator p => w = spelling p
  | TComment CF_Line v => w = s2b "//" ++ v
  | TComment CF_Block v => w = s2b "/*" ++ v ++ s2b "*/"
  | TComment _ _ => False
  | TWhitespace => False
  | TLineTerminator => In w line_terminators
  | TRegExp p fl => w = s2b "/" ++ p ++ s2b "/" ++ fl
  | TIdent n => w = n
  | TNumeric _ =>
    (head_is digit w \/ exists d v, w = 46%N :: d :: v /\ digit d) /\ Forall (fun b => (b < 128)%N) w
  | TString v => (exists q, (q = 34 \/ q = 39)%N /\ w = q :: v ++ [q]) \/ (v = [] /\ w = [])
  | TTemplate f c r =>
    c = r /\
    w = match f with
        | TF_NoSubstitution => s2b "`" ++ r ++ s2b "`"
        | TF_Head => s2b "`" ++ r ++ s2b "${"
        | TF_Middle => s2b "}" ++ r ++ s2b "${"
        | TF_Tail => s2b "}" ++ r ++ s2b "`"
        end
  | TEOF => w = []
  end.

(** ** Tiling *)

(** [tiles code o l e]: from offset [o] to offset [e], the source consists of the
    texts of the tokens [l], each in its range, with only blanks between them. *)
Inductive tiles (code : bytes) : nat -> list (token * token_range) -> nat -> Prop :=
| tiles_nil o : o <= length code -> tiles code o [] o
| tiles_cons o t g w rest s e l z :
    skipn o code = g ++ w ++ rest -> blanks g -> spells t w ->
    offset s = o + length g -> offset e = offset s + length w ->
    tiles code (offset e) l z ->
    tiles code o ((t, Range s e) :: l) z.

(** ** Calls *)

(** [stands t u]: the tokenizer [t] is in front of the text [u], on a char boundary of
    its source. *)
Definition stands (t : slice_tokenizer) (u : bytes) : Prop :=
  exists a, st_code t = a ++ u /\ offset (st_pos t) = length a /\ utf8 u.

(** [run E t hs l t']: calling [next_token] with the hints [hs], one after the other,
    gives the tokens and ranges [l] without a panic and leaves the tokenizer [t']. *)
Inductive run (E : env) : slice_tokenizer -> list hint -> list (token * token_range) -> slice_tokenizer -> Prop :=
| run_nil t : run E t [] [] t
| run_cons t h hs tok rg t1 l t2 :
    next_token E t h = TOk (tok, rg, t1) -> run E t1 hs l t2 ->
    run E t (h :: hs) ((tok, rg) :: l) t2.

(** [reads E t h g w r tok]: in front of [g ++ w ++ r], the call with hint [h] skips the
    blanks [g] and returns the token [tok] for the text [w]. *)
Definition reads (E : env) (t : slice_tokenizer) (h : hint) (g w : bytes) (tok : token) (r : bytes) : Prop :=
  exists rg t', next_token E t h = TOk (tok, rg, t') /\
    offset (r_start rg) = offset (st_pos t) + length g /\
    offset (r_end rg) = offset (r_start rg) + length w /\
    st_pos t' = r_end rg /\ st_code t' = st_code t /\ stands t' r.
Definition panics (E : env) (t : slice_tokenizer) (h : hint) : Prop :=
  exists p, next_token E t h = TPanic p.

(** The same token, its range shifted by [k] bytes. *)
Definition shifted (k : nat) (a b : token * token_range) : Prop :=
  fst a = fst b /\ offset (r_start (snd a)) = k + offset (r_start (snd b)) /\
  offset (r_end (snd a)) = k + offset (r_end (snd b)).
