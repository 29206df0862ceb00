(** Neighbouring tokens of a program, by a computed approximation.

    A list of patterns is an automaton: its states are the numbers of patterns met so far.
    For each nonterminal a table lists between which states a sequence of tokens that
    derives from it can lead, and what is known about the tokens that follow. *)
From Coq Require Import String List Arith NArith Bool Lia.
From Verif Require Import Base Tokens ParserCore SpecGrammar SpecLanguage GrammarRules GrammarFacts SpecWindows.
Import ListNotations.

Definition head_code (h : method_head) : nat :=
  let '(MethodHead kind generator async) := h in
  4 * (match kind with MNone => 0 | MGet => 1 | MSet => 2 end) + 2 * Nat.b2n generator + Nat.b2n async.
Definition code (n : nt) : nat :=
  match n with
  | NModule => 0
  | NModuleItems => 1
  | NModuleItem => 2
  | NScriptItem => 3
  | NImport => 4
  | NImportNames => 5
  | NImportFrom => 6
  | NImportSpecifiers => 7
  | NImportSpecifier => 8
  | NExport => 9
  | NExportSpecifiers => 10
  | NExportSpecifier => 11
  | NStatementList => 12
  | NStatementListItem => 13
  | NStatement => 14
  | NBlock => 15
  | NDeclaration => 16
  | NLexical x => 17 + 1 * (Nat.b2n x)
  | NLexicalTail x => 19 + 1 * (Nat.b2n x)
  | NLet => 21
  | NConst => 22
  | NVariableStatement => 23
  | NVariableTail => 24
  | NVariable => 25
  | NIf => 26
  | NBreakable => 27
  | NIteration => 28
  | NDoWhile => 29
  | NWhile => 30
  | NFor => 31
  | NForVariables x => 32 + 1 * (match x with ForVar => 0 | ForLexical => 1 end)
  | NForConstants => 34
  | NForMore x => 35 + 1 * (match x with ForVar => 0 | ForLexical => 1 end)
  | NForBinding => 37
  | NOptExpression => 38
  | NSwitch => 39
  | NClauses x => 40 + 1 * (Nat.b2n x)
  | NCaseClause => 42
  | NDefaultClause => 43
  | NReturn => 44
  | NBreak => 45
  | NContinue => 46
  | NWith => 47
  | NLabelled => 48
  | NThrow => 49
  | NTry => 50
  | NFinally => 51
  | NDebugger => 52
  | NExpressionStatement => 53
  | NPattern => 54
  | NObjectPattern => 55
  | NPatternProperties => 56
  | NPatternProperty => 57
  | NPropertyName => 58
  | NComputedName => 59
  | NArrayPattern => 60
  | NPatternElements => 61
  | NRestElement => 62
  | NPatternElement => 63
  | NPatternOrName => 64
  | NInitializer => 65
  | NFunctionDeclaration => 66
  | NFunctionDeclarationRest x y => 67 + 1 * (Nat.b2n y) + 2 * (Nat.b2n x)
  | NFunctionExpression => 71
  | NFunctionRest x y => 72 + 1 * (Nat.b2n y) + 2 * (Nat.b2n x)
  | NParameters => 76
  | NParameterList => 77
  | NParameterNext => 78
  | NClass => 79
  | NHeritage => 80
  | NClassBody => 81
  | NClassItems => 82
  | NClassItem => 83
  | NMethodHead x => 84 + 1 * (head_code x)
  | NMethodName x y => 96 + 1 * (head_code y) + 12 * (Nat.b2n x)
  | NMethodTail x => 120 + 1 * (head_code x)
  | NExpression => 132
  | NExpressionTail => 133
  | NAssignment => 134
  | NArrowBody => 135
  | NYield => 136
  | NConditional => 137
  | NBinary => 138
  | NBinaryTail => 139
  | NUnary => 140
  | NUpdate => 141
  | NLeftHand x => 142 + 1 * (Nat.b2n x)
  | NLeftHandTail x => 144 + 1 * (Nat.b2n x)
  | NArguments => 146
  | NArgumentList => 147
  | NPlainArgumentList => 148
  | NPrimary => 149
  | NArray => 150
  | NElements => 151
  | NElement => 152
  | NObject => 153
  | NProperties => 154
  | NProperty => 155
  | NTemplate => 156
  | NTemplateRest => 157
  | NParenthesized => 158
  | NParenthesizedBody => 159
  | NParenthesizedTail => 160
  end.
Definition all_nts : list nt :=
  [ NModule; NModuleItems; NModuleItem; NScriptItem; NImport; NImportNames;
    NImportFrom; NImportSpecifiers; NImportSpecifier; NExport; NExportSpecifiers; NExportSpecifier;
    NStatementList; NStatementListItem; NStatement; NBlock; NDeclaration; NLexical false;
    NLexical true; NLexicalTail false; NLexicalTail true; NLet; NConst; NVariableStatement;
    NVariableTail; NVariable; NIf; NBreakable; NIteration; NDoWhile;
    NWhile; NFor; NForVariables ForVar; NForVariables ForLexical; NForConstants; NForMore ForVar;
    NForMore ForLexical; NForBinding; NOptExpression; NSwitch; NClauses false; NClauses true;
    NCaseClause; NDefaultClause; NReturn; NBreak; NContinue; NWith;
    NLabelled; NThrow; NTry; NFinally; NDebugger; NExpressionStatement;
    NPattern; NObjectPattern; NPatternProperties; NPatternProperty; NPropertyName; NComputedName;
    NArrayPattern; NPatternElements; NRestElement; NPatternElement; NPatternOrName; NInitializer;
    NFunctionDeclaration; NFunctionDeclarationRest false false; NFunctionDeclarationRest false true; NFunctionDeclarationRest true false; NFunctionDeclarationRest true true; NFunctionExpression;
    NFunctionRest false false; NFunctionRest false true; NFunctionRest true false; NFunctionRest true true; NParameters; NParameterList;
    NParameterNext; NClass; NHeritage; NClassBody; NClassItems; NClassItem;
    NMethodHead (MethodHead MNone false false); NMethodHead (MethodHead MNone false true); NMethodHead (MethodHead MNone true false); NMethodHead (MethodHead MNone true true); NMethodHead (MethodHead MGet false false); NMethodHead (MethodHead MGet false true);
    NMethodHead (MethodHead MGet true false); NMethodHead (MethodHead MGet true true); NMethodHead (MethodHead MSet false false); NMethodHead (MethodHead MSet false true); NMethodHead (MethodHead MSet true false); NMethodHead (MethodHead MSet true true);
    NMethodName false (MethodHead MNone false false); NMethodName false (MethodHead MNone false true); NMethodName false (MethodHead MNone true false); NMethodName false (MethodHead MNone true true); NMethodName false (MethodHead MGet false false); NMethodName false (MethodHead MGet false true);
    NMethodName false (MethodHead MGet true false); NMethodName false (MethodHead MGet true true); NMethodName false (MethodHead MSet false false); NMethodName false (MethodHead MSet false true); NMethodName false (MethodHead MSet true false); NMethodName false (MethodHead MSet true true);
    NMethodName true (MethodHead MNone false false); NMethodName true (MethodHead MNone false true); NMethodName true (MethodHead MNone true false); NMethodName true (MethodHead MNone true true); NMethodName true (MethodHead MGet false false); NMethodName true (MethodHead MGet false true);
    NMethodName true (MethodHead MGet true false); NMethodName true (MethodHead MGet true true); NMethodName true (MethodHead MSet false false); NMethodName true (MethodHead MSet false true); NMethodName true (MethodHead MSet true false); NMethodName true (MethodHead MSet true true);
    NMethodTail (MethodHead MNone false false); NMethodTail (MethodHead MNone false true); NMethodTail (MethodHead MNone true false); NMethodTail (MethodHead MNone true true); NMethodTail (MethodHead MGet false false); NMethodTail (MethodHead MGet false true);
    NMethodTail (MethodHead MGet true false); NMethodTail (MethodHead MGet true true); NMethodTail (MethodHead MSet false false); NMethodTail (MethodHead MSet false true); NMethodTail (MethodHead MSet true false); NMethodTail (MethodHead MSet true true);
    NExpression; NExpressionTail; NAssignment; NArrowBody; NYield; NConditional;
    NBinary; NBinaryTail; NUnary; NUpdate; NLeftHand false; NLeftHand true;
    NLeftHandTail false; NLeftHandTail true; NArguments; NArgumentList; NPlainArgumentList; NPrimary;
    NArray; NElements; NElement; NObject; NProperties; NProperty;
    NTemplate; NTemplateRest; NParenthesized; NParenthesizedBody; NParenthesizedTail ].
Lemma all_nts_all n : In n all_nts.
Proof. apply (nth_error_In _ (code n)). all_prods n; reflexivity. Qed.

(** ** Terminals that meet *)
Inductive kind : Set := KPunc | KName | KNum | KStr | KRegEx | KTpl (f : nat) | KEof.
Definition kind_of (t : term) : kind :=
  match t with
  | P _ => KPunc | K _ | Name | NameExcept _ | Bind => KName | Num => KNum | Str => KStr | RegEx => KRegEx
  | TplWhole => KTpl 0 | TplHead => KTpl 1 | TplMiddle => KTpl 2 | TplTail => KTpl 3 | Eof => KEof
  end.
Definition token_kind (t : token) : option kind :=
  match t with
  | TPunctuator _ => Some KPunc | TIdent _ => Some KName | TNumeric _ => Some KNum | TString _ => Some KStr | TRegExp _ _ => Some KRegEx
  | TTemplate TF_NoSubstitution _ _ => Some (KTpl 0) | TTemplate TF_Head _ _ => Some (KTpl 1)
  | TTemplate TF_Middle _ _ => Some (KTpl 2) | TTemplate TF_Tail _ _ => Some (KTpl 3)
  | TEOF => Some KEof
  | _ => None
  end.
Definition kind_eqb (a b : kind) : bool :=
  match a, b with
  | KPunc, KPunc | KName, KName | KNum, KNum | KStr, KStr | KRegEx, KRegEx | KEof, KEof => true
  | KTpl x, KTpl y => Nat.eqb x y
  | _, _ => false
  end.
Lemma matches_kind g t tok : matches g t tok = true -> token_kind tok = Some (kind_of t).
Proof. destruct t, tok as [| | | | | | | |[]|]; cbn; try discriminate; reflexivity. Qed.
Lemma kind_eqb_refl k : kind_eqb k k = true.
Proof. destruct k; try reflexivity. cbn. apply Nat.eqb_refl. Qed.

(** A token may match both. *)
Definition meet (t u : term) : bool :=
  kind_eqb (kind_of t) (kind_of u) &&
  match t, u with
  | P p, P q => if punctuator_eq_dec p q then true else false
  | K w, K v => beqb (s2b w) (s2b v)
  | K w, Bind | Bind, K w => negb (word_in reserved_words (s2b w))
  | _, _ => true
  end.
(** Every token that matches [t] matches [u]. *)
Definition within (t u : term) : bool :=
  match t, u with
  | P p, P q => if punctuator_eq_dec p q then true else false
  | K w, K v => beqb (s2b w) (s2b v)
  | (K _ | Name | NameExcept _ | Bind), Name => true
  | Num, Num | Str, Str | RegEx, RegEx | TplWhole, TplWhole | TplHead, TplHead | TplMiddle, TplMiddle | TplTail, TplTail | Eof, Eof => true
  | _, _ => false
  end.
Lemma meet_sound g g' t u tok : matches g t tok = true -> matches g' u tok = true -> meet t u = true.
Proof.
  intros A B. unfold meet. assert (E : kind_of t = kind_of u).
  { apply matches_kind in A. apply matches_kind in B. congruence. }
  rewrite E, kind_eqb_refl. cbn [andb].
  destruct t; try reflexivity; destruct u; try reflexivity; destruct tok; cbn in A, B; try discriminate.
  - destruct (punctuator_eq_dec p p1); [|discriminate]. destruct (punctuator_eq_dec p0 p1); [|discriminate]. subst.
    destruct (punctuator_eq_dec p1 p1); congruence.
  - apply ByteFacts.beqb_eq in A. apply ByteFacts.beqb_eq in B. rewrite <- A, <- B. apply ByteFacts.beqb_eq. reflexivity.
  - apply ByteFacts.beqb_eq in A. rewrite <- A. unfold bindable in B. destruct (negb (word_in reserved_words name)); [reflexivity|discriminate].
  - apply ByteFacts.beqb_eq in B. rewrite <- B. unfold bindable in A. destruct (negb (word_in reserved_words name)); [reflexivity|discriminate].
Qed.
Lemma within_sound g g' t u tok : within t u = true -> matches g t tok = true -> matches g' u tok = true.
Proof.
  destruct t; try discriminate; destruct u; try discriminate; cbn [within]; intros W A;
  try (destruct tok as [| | | | | | | |[]|]; cbn in A; try discriminate; reflexivity).
  - destruct (punctuator_eq_dec p p0); [subst|discriminate]. destruct tok; exact A.
  - apply ByteFacts.beqb_eq in W. destruct tok; cbn in *; try discriminate. rewrite <- W. exact A.
Qed.

(** ** What is known about the tokens that follow *)
Inductive word_promise : Set := Anything | NoLabel | NoColon | NoAsync | NoFunctionBehind | NoFunction.
Record promise : Set := Promise {
  after_semicolon : bool;     (** a semicolon was inserted here, so that none is next *)
  words : word_promise        (** no label starts here; no colon is next; no [async] is next;
                                  no identifier with a [function] behind it is next; no [function] is next *)
}.
Definition nothing : promise := Promise false Anything.
Definition label (i : tokens) : bool := pair [Name] false [P Colon] no_parameters i.
Definition colon (i : tokens) : bool := one_of no_parameters [P Colon] (snd (next i)).
Definition promised (p : promise) (i : tokens) : Prop :=
  (after_semicolon p = true -> insertable false i = true /\ snd (next i) <> TPunctuator Semicolon) /\
  match words p with
  | Anything => True
  | NoLabel => label i = false
  | NoColon => colon i = false
  | NoAsync => forall g, one_of g [K "async"] (snd (next i)) = false
  | NoFunctionBehind => exists g, pair [Bind] false [K "function"] g i = false /\ one_of g [Bind] (snd (next i)) = true
  | NoFunction => forall g, one_of g [K "function"] (snd (next i)) = false
  end.
Lemma promised_nothing i : promised nothing i.
Proof. split; [discriminate|exact I]. Qed.

(** The promise after a token that matches [u]; whether there can be one. *)
Definition after (p : promise) (u : term) : promise :=
  Promise false (match words p, kind_of u with NoLabel, KName => NoColon | NoFunctionBehind, _ => NoFunction | _, _ => Anything end).
Definition possible (p : promise) (u : term) : bool :=
  negb (after_semicolon p && match u with P Semicolon => true | _ => false end) &&
  match words p, u with
  | NoColon, P Colon => false
  | NoAsync, K w => negb (beqb (s2b w) (s2b "async"))
  | NoFunction, K w => negb (beqb (s2b w) (s2b "function"))
  | _, _ => true
  end.
Lemma after_sound g p u nl t i : matches g u t = true -> promised p ((nl, t) :: i) -> promised (after p u) i.
Proof.
  intros M [_ H]. split; [discriminate|]. unfold after. cbn [words]. destruct (words p); try exact I.
  - apply matches_kind in M. destruct (kind_of u); try exact I. destruct t as [| | | | | | | |[]|]; try discriminate M.
    unfold label, pair in H. cbn in H. unfold colon. cbn. rewrite andb_true_r in H. exact H.
  - destruct H as (g' & H1 & H2). assert (one_of no_parameters [K "function"] (snd (next i)) = false) as X.
    { unfold pair in H1. rewrite H2 in H1. cbn [andb tl] in H1. rewrite andb_true_r in H1. exact H1. }
    intros g0. exact X.
Qed.
Lemma beqb_via a b c : beqb a b = true -> beqb a c = false -> beqb b c = false.
Proof. intros H. apply ByteFacts.beqb_eq in H. subst. auto. Qed.
Lemma possible_sound g p u nl t i : matches g u t = true -> promised p ((nl, t) :: i) -> possible p u = true.
Proof.
  intros M [Hs H]. unfold possible.
  assert (negb (after_semicolon p && match u with P Semicolon => true | _ => false end) = true) as ->.
  { apply negb_true_iff, not_true_iff_false. intros X. apply andb_true_iff in X. destruct X as [X Y]. apply (proj2 (Hs X)).
    destruct u as [[]| | | | | | | | | | | |]; try discriminate Y. destruct t as [[]| | | | | | | | |]; try discriminate M. reflexivity. }
  cbn [andb]. clear Hs. destruct (words p); try reflexivity; destruct u; try reflexivity.
  - destruct p0; try reflexivity.
    destruct t; try discriminate M. cbn in M. destruct p0; try discriminate M. discriminate H.
  - specialize (H no_parameters). destruct t; try discriminate M. cbn [matches] in M. unfold one_of in H. cbn [next hd snd existsb matches] in H. rewrite orb_false_r in H.
    rewrite (beqb_via _ _ _ M H). reflexivity.
  - specialize (H no_parameters). destruct t; try discriminate M. cbn [matches] in M. unfold one_of in H. cbn [next hd snd existsb matches] in H. rewrite orb_false_r in H.
    rewrite (beqb_via _ _ _ M H). reflexivity.
Qed.

Definition may (p : promise) (t : term) (pat : pattern) : bool :=
  match pat with
  | Is us => existsb (fun v => meet t v && possible p v) us
  | SameLine us => existsb (fun v => meet t v && possible p v) us && (negb (after_semicolon p) || meet t (P CurlyClose) || meet t Eof)
  | Not us => negb (existsb (within t) us)
  end.
Lemma may_sound g u pat p nl t i : matches g u t = true -> shows pat (nl, t) -> promised p ((nl, t) :: i) -> may p u pat = true.
Proof.
  intros M S H0. pose proof (proj1 H0) as H. destruct pat as [us|us|us]; cbn [may shows fst snd] in *.
  - unfold one_of in S. apply existsb_exists in S. destruct S as (v & I' & M'). apply existsb_exists. exists v. split; [exact I'|].
    apply andb_true_iff. split; [eapply meet_sound; eassumption|eapply possible_sound; eassumption].
  - destruct S as (-> & S). unfold one_of in S. apply existsb_exists in S. destruct S as (v & I' & M').
    apply andb_true_iff. split; [apply existsb_exists; exists v; split; [exact I'|apply andb_true_iff; split; [eapply meet_sound; eassumption|eapply possible_sound; eassumption]]|].
    destruct (after_semicolon p); [|reflexivity]. destruct (H eq_refl) as [H' _]. clear H. rename H' into H. unfold insertable in H. cbn in H.
    destruct t as [[]| | | | | | | | |]; try discriminate H.
    + rewrite (meet_sound g g u (P CurlyClose) (TPunctuator CurlyClose) M eq_refl). reflexivity.
    + rewrite (meet_sound g g u Eof TEOF M eq_refl). apply orb_true_r.
  - apply negb_true_iff. apply not_true_iff_false. intros K. apply existsb_exists in K. destruct K as (v & I' & V).
    pose proof (within_sound g no_parameters _ _ _ V M) as X. unfold one_of in S.
    rewrite <- not_true_iff_false in S. apply S. apply existsb_exists. exists v. auto.
Qed.

(** ** The automaton *)
Definition config := (nat * promise)%type.
Definition table := list (list (list config)).

Section Automaton.
Variable W : list pattern.
Notation k := (length W).

Definition step (a : nat) (la : lookahead) (b : nat) : Prop :=
  (a = b /\ (a = 0 \/ a = k)) \/ exists pat, nth_error W a = Some pat /\ shows pat la /\ b = S a.
Inductive path : nat -> tokens -> nat -> Prop :=
| path_nil a : path a [] a
| path_cons a la b w c : step a la b -> path b w c -> path a (la :: w) c.

Definition moves_at (p : promise) (u : term) (a : nat) : list nat :=
  (if (a =? 0) || (a =? k) then [a] else []) ++
  match nth_error W a with
  | Some pat => if may p u pat then [S a] else []
  | None => []
  end.
Definition moves (p : promise) (ts : list term) (a : nat) : list config :=
  flat_map (fun u => if possible p u then map (fun b => (b, after p u)) (moves_at p u a) else []) ts.

Definition word_code (l : word_promise) : nat :=
  match l with Anything => 0 | NoLabel => 1 | NoColon => 2 | NoAsync => 3 | NoFunctionBehind => 4 | NoFunction => 5 end.
Definition index (c : config) : nat :=
  12 * fst c + 6 * Nat.b2n (after_semicolon (snd c)) + word_code (words (snd c)).
(** Promises that are of no use to [n] are forgotten. *)
Definition weaken (n : nt) (p : promise) : promise :=
  match words p, n with
  | NoAsync, NFunctionDeclaration => p
  | (NoAsync | NoFunctionBehind), _ => Promise (after_semicolon p) Anything
  | _, _ => p
  end.
Definition kept (n : nt) (p : promise) : bool := word_code (words (weaken n p)) =? word_code (words p).
Definition lookup (tbl : table) (n : nt) (c : config) : list config :=
  nth (index (fst c, weaken n (snd c))) (nth (code n) tbl []) [].
Definition config_eqb (c d : config) : bool :=
  (fst c =? fst d) && Bool.eqb (after_semicolon (snd c)) (after_semicolon (snd d)) &&
  (word_code (words (snd c)) =? word_code (words (snd d))).
Definition mem (c : config) (l : list config) : bool := existsb (config_eqb c) l.
Fixpoint distinct (l : list config) : list config :=
  match l with [] => [] | c :: l' => if mem c l' then distinct l' else c :: distinct l' end.

Definition run_sym (tbl : table) (s : sym) (c : config) : list config :=
  let '(a, p) := c in
  match s with
  | T ts => distinct (moves p ts a)
  | N n _ => lookup tbl n c
  | Semi d => (a, Promise (negb d || after_semicolon p) (words p)) :: moves p [P Semicolon] a
  | When _ => [c]
  end.
Definition run_seq (tbl : table) (alpha : list sym) (cs : list config) : list config :=
  fold_left (fun cs s => distinct (flat_map (run_sym tbl s) cs)) alpha cs.
(** A list of statements ends where no label starts; the functions among the declarations
    are not async; a variable is not followed by [function]. *)
Definition learn (n : nt) (alpha : list sym) (p : promise) : promise :=
  match n, alpha with
  | (NStatementList | NModuleItems), [When _] => Promise (after_semicolon p) NoLabel
  | NDeclaration, When _ :: _ => match words p with NoFunction => p | _ => Promise (after_semicolon p) NoAsync end
  | NPrimary, [When _; T _] => Promise (after_semicolon p) NoFunctionBehind
  | _, _ => p
  end.
Definition run (tbl : table) (n : nt) (alpha : list sym) (c : config) : list config :=
  run_seq tbl alpha [(fst c, learn n alpha (snd c))].

Definition promises : list promise :=
  flat_map (fun b => map (Promise b) [Anything; NoLabel; NoColon; NoAsync; NoFunctionBehind; NoFunction]) [false; true].
Definition configs : list config := flat_map (fun a => map (fun p => (a, p)) promises) (seq 0 (S k)).
Fixpoint replace {A : Type} (m : nat) (x : A) (l : list A) : list A :=
  match l, m with
  | [], _ => []
  | _ :: l', O => x :: l'
  | y :: l', S m' => y :: replace m' x l'
  end.
Definition improve (tbl : table) : table :=
  fold_right (fun n tbl =>
    replace (code n) (map (fun c => if kept n (snd c) then distinct (flat_map (fun alpha => run tbl n alpha c) (prods n)) else []) configs) tbl)
    tbl all_nts.
Fixpoint improved (m : nat) (tbl : table) : table := match m with O => tbl | S m' => improved m' (improve tbl) end.
Definition closed (tbl : table) : bool :=
  forallb (fun n => forallb (fun c => negb (kept n (snd c)) || forallb (fun alpha =>
    forallb (fun d => mem d (lookup tbl n c)) (run tbl n alpha c)) (prods n)) configs) all_nts.
Definition rounds : nat := 5.
Definition approximation : table := improved rounds (map (fun _ => []) all_nts).
Definition excluded_by (tbl : table) : bool :=
  closed tbl && forallb (fun d => negb (fst d =? k)) (lookup tbl NModule (0, nothing)).
Definition excluded : bool := excluded_by approximation.

Lemma mem_in c l : mem c l = true <-> In c l.
Proof.
  unfold mem. rewrite existsb_exists. split.
  - intros ([a [s l']] & I & E). destruct c as [b [s2 l2]]. unfold config_eqb in E. cbn in E. apply andb_true_iff in E. destruct E as [E1 E2].
    apply andb_true_iff in E1. destruct E1 as [E1 E3]. apply Nat.eqb_eq in E1. apply eqb_prop in E3. apply Nat.eqb_eq in E2. subst.
    destruct l', l2; try discriminate E2; exact I.
  - intros I. exists c. split; [exact I|]. unfold config_eqb. rewrite !Nat.eqb_refl, eqb_reflx. reflexivity.
Qed.
Lemma distinct_in c l : In c l -> In c (distinct l).
Proof.
  induction l as [|x l IH]; [auto|]. intros [->|I]; cbn [distinct].
  - destruct (mem c l) eqn:M; [|left; reflexivity]. apply IH. apply mem_in, M.
  - destruct (mem x l); [|right]; auto.
Qed.
Lemma in_configs a p : a <= k -> In (a, p) configs.
Proof.
  intros H. unfold configs. apply in_flat_map. exists a. split; [apply in_seq; lia|]. apply in_map. destruct p as [[] []]; cbn; tauto.
Qed.

Lemma step_bound a la b : a <= k -> step a la b -> b <= k.
Proof.
  intros H [(-> & _)|(pat & E & _ & ->)]; [exact H|]. assert (a < k) by (apply nth_error_Some; congruence). lia.
Qed.
Lemma path_bound a w b : path a w b -> a <= k -> b <= k.
Proof. induction 1; intros B; [exact B|]. apply IHpath. eapply step_bound; eassumption. Qed.
Lemma path_app a u v b : path a (u ++ v) b -> exists c, path a u c /\ path c v b.
Proof.
  revert a. induction u as [|x u IH]; intros a H; [exists a; split; [constructor|exact H]|].
  inversion H as [|? ? b0 ? ? St Pa]; subst. destruct (IH _ Pa) as (c & P1 & P2). exists c. split; [econstructor; eassumption|exact P2].
Qed.
Lemma moves_sound g ts nl t i a p b : one_of g ts t = true -> promised p ((nl, t) :: i) -> step a (nl, t) b ->
  exists q, In (b, q) (moves p ts a) /\ promised q i.
Proof.
  intros O Pr St. unfold one_of in O. apply existsb_exists in O. destruct O as (u & Iu & M). exists (after p u).
  split; [|eapply after_sound; eassumption]. unfold moves. apply in_flat_map. exists u. split; [exact Iu|].
  rewrite (possible_sound _ _ _ _ _ _ M Pr). apply in_map_iff. exists b. split; [reflexivity|]. unfold moves_at. apply in_or_app.
  destruct St as [(<- & E)|(pat & E & Sh & ->)].
  - left. destruct E as [->| ->]; [left; reflexivity|]. rewrite Nat.eqb_refl, orb_true_r. left. reflexivity.
  - right. rewrite E, (may_sound g u pat p nl t i M Sh Pr). left. reflexivity.
Qed.

Lemma derives_prefix :
  (forall g n i r, derives g n i r -> exists w, i = w ++ r) /\
  (forall g alpha i r, derives_seq g alpha i r -> exists w, i = w ++ r).
Proof.
  apply derives_both; intros.
  - assumption.
  - exists []. reflexivity.
  - match goal with X : exists _, _ |- _ => destruct X as (w & ->) end. exists ((nl, t) :: w). reflexivity.
  - repeat match goal with X : exists _, _ |- _ => destruct X as (? & ->) end. rewrite app_assoc. eexists. reflexivity.
  - match goal with X : exists _, _ |- _ => destruct X as (w & ->) end. exists ((nl, TPunctuator Semicolon) :: w). reflexivity.
  - assumption.
  - assumption.
Qed.

Lemma learn_sound g n alpha i r p : In alpha (prods n) -> derives_seq g alpha i r -> promised p i -> promised (learn n alpha p) i.
Proof.
  intros Ia D Pp. destruct n; try exact Pp.
  - cbn [prods In] in Ia. destruct Ia as [<-|[<-|[]]]; [exact Pp|]. split; [exact (proj1 Pp)|]. cbn [words learn].
    inversion D; subst. unfold no_item, both, no_pair in *.
    match goal with H : _ && _ = true |- _ => apply andb_true_iff in H; destruct H as [H _]; apply andb_true_iff in H; destruct H as [_ H]; apply negb_true_iff in H; exact H end.
  - cbn [prods In] in Ia. destruct Ia as [<-|[<-|[]]]; [exact Pp|]. split; [exact (proj1 Pp)|]. cbn [words learn].
    inversion D; subst. unfold no_item, both, no_pair in *.
    match goal with H : _ && _ = true |- _ => apply andb_true_iff in H; destruct H as [_ H]; apply negb_true_iff in H; exact H end.
  - cbn [prods In] in Ia. destruct Ia as [<-|[<-|[<-|[<-|[]]]]]; try exact Pp.
    enough (promised (Promise (after_semicolon p) NoAsync) i) by (cbn [learn]; destruct (words p); assumption).
    split; [exact (proj1 Pp)|]. cbn [words].
    inversion D; subst. unfold no in *. intros g'.
    match goal with H : negb _ = true |- _ => apply negb_true_iff in H; exact H end.
  - cbn [prods In] in Ia. destruct Ia as [<-|[<-|Ia]]; [exact Pp| |repeat destruct Ia as [<-|Ia]; try exact Pp; destruct Ia].
    split; [exact (proj1 Pp)|]. cbn [words learn]. inversion D; subst.
    match goal with H : derives_seq _ [T _] _ _ |- _ => inversion H; subst end. unfold no_pair in *. exists g.
    match goal with H : negb _ = true |- _ => apply negb_true_iff in H; split; [exact H|] end. assumption.
Qed.

Lemma weaken_cases n p : weaken n p = p \/ weaken n p = Promise (after_semicolon p) Anything.
Proof. destruct p as [s []]; auto; destruct n; auto. Qed.
Lemma weaken_sound n p i : promised p i -> promised (weaken n p) i.
Proof. intros H. destruct (weaken_cases n p) as [-> | ->]; [exact H|]. split; [exact (proj1 H)|exact Logic.I]. Qed.
Lemma weaken_kept n p : kept n (weaken n p) = true /\ weaken n (weaken n p) = weaken n p.
Proof.
  assert (X : weaken n (weaken n p) = weaken n p) by (destruct (weaken_cases n p) as [E|E]; rewrite E; [exact E|reflexivity]).
  split; [|exact X]. unfold kept. rewrite X. apply Nat.eqb_refl.
Qed.

Lemma approximates tbl : closed tbl = true ->
  (forall g n i r, derives g n i r -> forall a p b w, a <= k -> promised p i -> i = w ++ r -> path a w b ->
     exists q, In (b, q) (lookup tbl n (a, p)) /\ promised q r) /\
  (forall g alpha i r, derives_seq g alpha i r -> forall cs a p b w, In (a, p) cs -> a <= k -> promised p i -> i = w ++ r -> path a w b ->
     exists q, In (b, q) (run_seq tbl alpha cs) /\ promised q r).
Proof.
  intros C. apply derives_both.
  - intros g n alpha i r Ia D IH a p0 b w B Pr0 Ew Pa. pose proof (weaken_sound n p0 i Pr0) as Pr.
    destruct (weaken_kept n p0) as [K F]. unfold lookup. cbn [fst snd]. revert Pr K F. generalize (weaken n p0). intros p Pr K F.
    destruct (IH [(a, learn n alpha p)] a (learn n alpha p) b w (or_introl eq_refl) B) as (q & I & Pq);
      [eapply learn_sound; eassumption|exact Ew|exact Pa|]. exists q. split; [|exact Pq].
    unfold closed in C. rewrite forallb_forall in C. specialize (C n (all_nts_all n)). rewrite forallb_forall in C.
    specialize (C (a, p) (in_configs a p B)). cbn [snd] in C. rewrite K in C. cbn [negb orb] in C.
    rewrite forallb_forall in C. specialize (C alpha Ia). rewrite forallb_forall in C.
    unfold lookup in C. cbn [fst snd] in C. rewrite F in C. apply mem_in. apply C. exact I.
  - intros g i cs a p b w I B Pr Ew Pa. assert (w = []) as ->.
    { destruct w; [reflexivity|]. apply (f_equal (@length _)) in Ew. rewrite app_length in Ew. cbn in Ew. lia. }
    inversion Pa; subst. exists p. auto.
  - intros g ts nl t i alpha r O D IH cs a p b w I B Pr Ew Pa. destruct (proj2 derives_prefix _ _ _ _ D) as (w' & Ei).
    assert (w = (nl, t) :: w') as ->. { apply (app_inv_tail r). rewrite <- Ew. cbn. rewrite <- Ei. reflexivity. }
    inversion Pa as [|? ? c ? ? St Pa']; subst. destruct (moves_sound _ _ _ _ _ _ _ _ O Pr St) as (q & Iq & Pq).
    cbn [run_seq fold_left]. eapply (IH _ c q b w'); [|eapply step_bound; eassumption|exact Pq|reflexivity|exact Pa'].
    apply distinct_in, in_flat_map. exists (a, p). split; [exact I|]. apply distinct_in, Iq.
  - intros g n ch i m alpha r D1 IH1 D2 IH2 cs a p b w I B Pr Ew Pa.
    destruct (proj1 derives_prefix _ _ _ _ D1) as (w1 & E1). destruct (proj2 derives_prefix _ _ _ _ D2) as (w2 & E2).
    assert (w = w1 ++ w2) as ->. { apply (app_inv_tail r). rewrite <- Ew, <- app_assoc, <- E2. exact E1. }
    apply path_app in Pa. destruct Pa as (c & Pa1 & Pa2). destruct (IH1 a p c w1 B Pr E1 Pa1) as (q & Iq & Pq).
    cbn [run_seq fold_left]. eapply (IH2 _ c q b w2); [|eapply path_bound; eassumption|exact Pq|exact E2|exact Pa2].
    apply distinct_in, in_flat_map. exists (a, p). split; [exact I|exact Iq].
  - intros g d nl i alpha r D IH cs a p b w I B Pr Ew Pa. destruct (proj2 derives_prefix _ _ _ _ D) as (w' & Ei).
    assert (w = (nl, TPunctuator Semicolon) :: w') as ->. { apply (app_inv_tail r). rewrite <- Ew. cbn. rewrite <- Ei. reflexivity. }
    inversion Pa as [|? ? c ? ? St Pa']; subst. 
    destruct (moves_sound g [P Semicolon] nl (TPunctuator Semicolon) _ _ _ _ eq_refl Pr St) as (q & Iq & Pq).
    cbn [run_seq fold_left]. eapply (IH _ c q b w'); [|eapply step_bound; eassumption|exact Pq|reflexivity|exact Pa'].
    apply distinct_in, in_flat_map. exists (a, p). split; [exact I|right; exact Iq].
  - intros g d i alpha r Ns Ins D IH cs a p b w I B Pr Ew Pa. cbn [run_seq fold_left].
    eapply (IH _ a (Promise (negb d || after_semicolon p) (words p)) b w); [|exact B| |exact Ew|exact Pa].
    + apply distinct_in, in_flat_map. exists (a, p). split; [exact I|left; reflexivity].
    + destruct Pr as [Pr1 Pr2]. split; [|exact Pr2]. cbn [after_semicolon]. intros Q. destruct d; [exact (Pr1 Q)|split; [exact Ins|exact Ns]].
  - intros g c i alpha r _ D IH cs a p b w I B Pr Ew Pa. cbn [run_seq fold_left].
    eapply (IH _ a p b w); [|exact B|exact Pr|exact Ew|exact Pa].
    apply distinct_in, in_flat_map. exists (a, p). split; [exact I|left; reflexivity].
Qed.

Lemma path_found found ps i : Forall2 shows ps found -> i + length ps <= k -> (forall j, j < length ps -> nth_error W (i + j) = nth_error ps j) ->
  forall after b, path (i + length ps) after b -> path i (found ++ after) b.
Proof.
  intros H. revert i. induction H as [|pat la ps found Sh _ IH]; intros i L Nth after b Pa; cbn [app length] in *.
  - rewrite Nat.add_0_r in Pa. exact Pa.
  - econstructor.
    + right. exists pat. split; [|split; [exact Sh|reflexivity]]. specialize (Nth 0). rewrite Nat.add_0_r in Nth. apply Nth. lia.
    + apply IH; [lia| |replace (S i + length ps) with (i + S (length ps)) by lia; exact Pa].
      intros j J. replace (S i + j) with (i + S j) by lia. apply (Nth (S j)). lia.
Qed.
Lemma path_stay a w : a = 0 \/ a = k -> path a w a.
Proof. intros H. induction w; [constructor|]. econstructor; [left; split; [reflexivity|exact H]|assumption]. Qed.
Lemma path_then a u b v c : path a u b -> path b v c -> path a (u ++ v) c.
Proof. induction 1; cbn; [auto|]. intros. econstructor; [eassumption|auto]. Qed.
Lemma occurs_path l : occurs W l -> path 0 l k.
Proof.
  intros (before & found & after & -> & F). apply path_then with 0; [apply path_stay; auto|].
  apply (path_found found W 0 F); [lia|reflexivity|]. apply path_stay. auto.
Qed.

Theorem excluded_by_sound tbl l : excluded_by tbl = true -> program l -> ~ occurs W l.
Proof.
  intros E D O. unfold excluded_by in E. apply andb_true_iff in E. destruct E as [C E].
  destruct (proj1 (approximates _ C) _ _ _ _ D 0 nothing k l (Nat.le_0_l _)) as (q & I & _); [apply promised_nothing|symmetry; apply app_nil_r|apply occurs_path, O|].
  rewrite forallb_forall in E. specialize (E _ I). cbn [fst] in E. rewrite Nat.eqb_refl in E. discriminate.
Qed.
Theorem excluded_sound l : excluded = true -> program l -> ~ occurs W l.
Proof. exact (excluded_by_sound approximation l). Qed.
End Automaton.

(** ** What stands before *)
Lemma program_semicolon l : program l -> program ((false, TPunctuator Semicolon) :: l).
Proof.
  unfold program. intros D. inversion D as [? ? alpha ? ? Ia Ds]; subst. destruct Ia as [<-|[]].
  eapply by_production; [left; reflexivity|]. inversion Ds as [| |? ? ? ? m ? ? Di De| | |]; subst.
  eapply d_nonterminal; [|exact De]. eapply by_production; [left; reflexivity|].
  apply d_nonterminal with l; [|eapply d_nonterminal; [exact Di|constructor]].
  eapply by_production; [left; reflexivity|]. apply d_nonterminal with l; [|constructor].
  eapply by_production; [right; left; reflexivity|]. constructor; [reflexivity|]. apply d_nonterminal with l; [|constructor].
  eapply by_production; [right; left; reflexivity|]. constructor; [reflexivity|constructor].
Qed.

Theorem never_after W ts l : existsb (fun t => matches no_parameters t (TPunctuator Semicolon)) ts = true ->
  excluded (Is ts :: W) = true -> program l -> ~ occurs_after ts W l.
Proof.
  intros S E D (before & found & after & -> & F & B). eapply excluded_sound; [exact E|apply program_semicolon, D|].
  destruct B as [->|(b & x & -> & O)].
  - exists [], ((false, TPunctuator Semicolon) :: found), after. split; [reflexivity|]. constructor; [exact S|exact F].
  - exists ((false, TPunctuator Semicolon) :: b), (x :: found), after. split; [cbn; rewrite <- app_assoc; reflexivity|].
    constructor; [exact O|exact F].
Qed.
Theorem never_except_after W ts l : existsb (fun t => matches no_parameters t (TPunctuator Semicolon)) ts = false ->
  excluded (Not ts :: W) = true -> program l -> ~ occurs_except_after ts W l.
Proof.
  intros S E D (before & found & after & -> & F & B). eapply excluded_sound; [exact E|apply program_semicolon, D|].
  destruct (rev before) as [|x b] eqn:R.
  - apply (f_equal (@rev _)) in R. rewrite rev_involutive in R. subst before.
    exists [], ((false, TPunctuator Semicolon) :: found), after. split; [reflexivity|]. constructor; [exact S|exact F].
  - apply (f_equal (@rev _)) in R. rewrite rev_involutive in R. cbn [rev] in R. subst before.
    exists ((false, TPunctuator Semicolon) :: rev b), (x :: found), after. split; [cbn; rewrite <- app_assoc; reflexivity|].
    constructor; [apply (B _ _ eq_refl)|exact F].
Qed.
