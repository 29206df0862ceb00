(** The work of the abstract parser: counting its primitives and calls, and the bound
    that WorkExec.v proves of it: every token consumed is paid for once. *)
From Coq Require Import String List Arith NArith ZArith Bool Lia.
From Verif Require Import Base Tokens ParserCore ParserBody AbstractParser ParserExec ParserTerminates.
Import ListNotations.

Definition acost := fn -> grammar_flags -> input -> nat.

(** Primitives executed and parse functions called. *)
Fixpoint awork (e : token) (call : acall) (cost : acost) {A : Set} (p : prog A) (g : grammar_flags) (i : input) : nat :=
  match p with
  | Bind p k => awork e call cost p g i +
      match ainterp e call p g i with AOk a i' => awork e call cost (k a) g i' | _ => 0 end
  | Act _ => 1
  | With f v p => awork e call cost p (set_flag g f v) i
  | Call f => cost f g i
  | _ => 0
  end.

Fixpoint awork_fn (e : token) (n : nat) (f : fn) (g : grammar_flags) (i : input) : nat :=
  match n with
  | O => 0
  | S n' => S (awork e (aexec e n') (awork_fn e n') (body f) g i)
  end.

(** ** Symbolic execution *)
Definition wc {A : Set} (e : token) (call : acall) (cost : acost) (p : prog A) (g : grammar_flags) (i : input)
  (m : nat) (Q : ares A -> nat -> Prop) : Prop := Q (ainterp e call p g i) (m + awork e call cost p g i).

Definition kontc {A B : Set} (e : token) (call : acall) (cost : acost) (k : A -> prog B) (g : grammar_flags)
  (Q : ares B -> nat -> Prop) (r : ares A) (m : nat) : Prop :=
  match r with
  | AOk a i => wc e call cost (k a) g i m Q
  | AErr x i => Q (AErr x i) m
  | APanic w => Q (APanic w) m
  | AFuel i => Q (AFuel i) m
  end.

Section Rules.
Context (e : token) (call : acall) (cost : acost).
Notation wp := (wc e call cost).

Lemma wc_ret {A : Set} (a : A) g i m (Q : _ -> _ -> Prop) : Q (AOk a i) m -> wp (Ret a) g i m Q.
Proof. unfold wc. cbn. rewrite Nat.add_0_r. exact (fun H => H). Qed.
Lemma wc_bind {A B : Set} (p : prog A) (k : A -> prog B) g i m (Q : _ -> _ -> Prop) :
  wp p g i m (kontc e call cost k g Q) -> wp (Bind p k) g i m Q.
Proof.
  unfold wc, kontc. cbn [ainterp awork]. destruct (ainterp e call p g i); cbn [abind]; unfold wc;
    rewrite ?Nat.add_0_r, ?Nat.add_assoc; exact (fun H => H).
Qed.
Lemma wc_throw {A : Set} x g i m (Q : _ -> _ -> Prop) : Q (AErr x i) m -> wp (Throw x : prog A) g i m Q.
Proof. unfold wc. cbn. rewrite Nat.add_0_r. exact (fun H => H). Qed.
Lemma wc_crash {A : Set} w g i m (Q : _ -> _ -> Prop) : Q (APanic (P_unreachable w)) m -> wp (Crash w : prog A) g i m Q.
Proof. unfold wc. cbn. rewrite Nat.add_0_r. exact (fun H => H). Qed.
Lemma wc_with {A : Set} f v (p : prog A) g i m (Q : _ -> _ -> Prop) :
  wp p (set_flag g f v) i m Q -> wp (With f v p) g i m Q.
Proof. exact (fun H => H). Qed.
Lemma wc_call f g i m (Q : _ -> _ -> Prop) : Q (call f g i) (m + cost f g i) -> wp (Call f) g i m Q.
Proof. exact (fun H => H). Qed.
Lemma wc_token g i m (Q : _ -> _ -> Prop) : Q (AOk (tok e i) i) (m + 1) -> wp token_ g i m Q.
Proof. exact (fun H => H). Qed.
Lemma wc_noline g i m (Q : _ -> _ -> Prop) : Q (AOk (negb (fst (cur e i))) i) (m + 1) -> wp no_line_terminator g i m Q.
Proof. exact (fun H => H). Qed.
Lemma wc_lookahead g i m (Q : _ -> _ -> Prop) : Q (AOk (second e i) i) (m + 1) -> wp ident_lookahead g i m Q.
Proof. exact (fun H => H). Qed.
Lemma wc_flags g i m (Q : _ -> _ -> Prop) : Q (AOk g i) (m + 1) -> wp get_flags g i m Q.
Proof. exact (fun H => H). Qed.
Lemma wc_expect g i m (Q : _ -> _ -> Prop) : Q (AOk tt i) (m + 1) -> wp expect_expression g i m Q.
Proof. exact (fun H => H). Qed.
Lemma wc_pop g i m (Q : _ -> _ -> Prop) : Q (AOk (tok e i) (tl i)) (m + 1) -> wp pop_ g i m Q.
Proof. exact (fun H => H). Qed.

Lemma work_take_if {A : Set} (same : token -> bool) (payload : token -> option A) why g i :
  awork e call cost (take_if same payload why) g i = if same (tok e i) then 2 else 1.
Proof.
  unfold take_if, token_, pop_. cbn [awork ainterp abind aact]. fold (tok e i).
  destruct (same (tok e i)); [|reflexivity]. cbn [awork ainterp abind aact].
  destruct (payload (tok e i)); reflexivity.
Qed.
Lemma wc_eats p g i m (Q : _ -> _ -> Prop) b :
  ainterp e call p g i = eats b i -> awork e call cost p g i = (if b then 2 else 1) ->
  (b = true -> Q (AOk (Some tt) (tl i)) (m + 2)) -> (b = false -> Q (AOk None i) (m + 1)) -> wp p g i m Q.
Proof. intros H W T F. unfold wc. rewrite H, W. destruct b; [apply T|apply F]; reflexivity. Qed.
Lemma work_binding g i : awork e call cost binding_identifier g i = if is_binding_token g (tok e i) then 3 else 2.
Proof.
  unfold binding_identifier, get_flags. cbn [awork ainterp abind aact]. rewrite work_take_if.
  destruct (is_binding_token g (tok e i)); reflexivity.
Qed.
Lemma wc_binding g i m (Q : _ -> _ -> Prop) :
  (is_binding_token g (tok e i) = true -> Q (AOk (Some tt) (tl i)) (m + 3)) ->
  (is_binding_token g (tok e i) = false -> Q (AOk None i) (m + 2)) -> wp binding_identifier g i m Q.
Proof.
  intros T F. unfold wc. rewrite binding_eq, work_binding.
  destruct (is_binding_token g (tok e i)); [apply T|apply F]; reflexivity.
Qed.
Lemma work_semi b g i : awork e call cost (semicolon_inner b) g i =
  if is_punc Semicolon (tok e i) then 2 else if asi e b i then 2 else 1.
Proof.
  unfold semicolon_inner, pop_, expect_expression, asi. cbn [awork ainterp abind aact]. fold (tok e i).
  destruct (tok e i) as [p| | | | | | | | |]; cbn [is_punc];
    try (destruct (b || fst (cur e i)); reflexivity); try reflexivity.
  destruct p; cbn; try reflexivity; destruct (b || fst (cur e i)); reflexivity.
Qed.
Lemma wc_semi b g i m (Q : _ -> _ -> Prop) :
  (is_punc Semicolon (tok e i) = true -> Q (AOk (Some tt) (tl i)) (m + 2)) ->
  (is_punc Semicolon (tok e i) = false -> asi e b i = true -> Q (AOk (Some tt) i) (m + 2)) ->
  (is_punc Semicolon (tok e i) = false -> asi e b i = false -> Q (AOk None i) (m + 1)) ->
  wp (semicolon_inner b) g i m Q.
Proof.
  intros A B C. unfold wc. rewrite semicolon_inner_eq, work_semi.
  destruct (is_punc Semicolon (tok e i)); [auto|]. destruct (asi e b i); auto.
Qed.
Lemma wc_template g i m (Q : _ -> _ -> Prop) :
  (is_template_start (tok e i) = true -> Q (AOk (Some (template_format_of (tok e i))) (tl i)) (m + 2)) ->
  (is_template_start (tok e i) = false -> Q (AOk None i) (m + 1)) -> wp template g i m Q.
Proof.
  intros T F. unfold wc, template. rewrite work_take_if. fold template. rewrite template_eq.
  destruct (is_template_start (tok e i)); auto.
Qed.
Lemma wc_template_tail g i m (Q : _ -> _ -> Prop) :
  (is_template_end (tok e i) = true -> Q (AOk (Some (template_format_of (tok e i))) (tl i)) (m + 2)) ->
  (is_template_end (tok e i) = false -> Q (AOk None i) (m + 1)) -> wp template_tail g i m Q.
Proof.
  intros T F. unfold wc, template_tail. rewrite work_take_if. fold template_tail. rewrite template_tail_eq.
  destruct (is_template_end (tok e i)); auto.
Qed.
End Rules.

Lemma awork_le e c c' w w' (H : le_call c c') (W : forall f g i, not_fuel (c f g i) -> w' f g i = w f g i)
  {A : Set} (p : prog A) : forall g i,
  not_fuel (ainterp e c p g i) -> awork e c' w' p g i = awork e c w p g i.
Proof.
  induction p as [A a|A B p IHp k IHk|A a|A x|A ww|A f v p IHp|f]; intros g i N; try reflexivity.
  - cbn [ainterp awork abind] in *. assert (Np : not_fuel (ainterp e c p g i)).
    { destruct (ainterp e c p g i); first [exact I|exact N]. }
    rewrite (IHp g i Np), (ainterp_le e c c' H p g i Np). destruct (ainterp e c p g i) as [a i'|x i'|ww|i']; try reflexivity.
    cbn [abind] in *. rewrite IHk; auto.
  - cbn [ainterp awork] in *. apply IHp. exact N.
  - apply W. exact N.
Qed.
Lemma awork_fn_S e n : forall f g i, not_fuel (aexec e n f g i) -> awork_fn e (S n) f g i = awork_fn e n f g i.
Proof.
  induction n as [|n IH]; intros f g i N; [destruct N|]. cbn [aexec] in N.
  change (S (awork e (aexec e (S n)) (awork_fn e (S n)) (body f) g i) = S (awork e (aexec e n) (awork_fn e n) (body f) g i)).
  f_equal. apply awork_le; [apply aexec_S|exact IH|exact N].
Qed.
Lemma awork_fn_le e n m : n <= m -> forall f g i, not_fuel (aexec e n f g i) -> awork_fn e m f g i = awork_fn e n f g i.
Proof.
  induction 1 as [|m L IH]; intros f g i N; [reflexivity|].
  rewrite awork_fn_S; [exact (IH f g i N)|]. rewrite (aexec_le e n m L f g i N). exact N.
Qed.

(** ** The bound *)
Local Open Scope Z_scope.
Notation len i := (Z.of_nat (length i)).

(** Paid for every token. *)
Definition price : Z := 303.
(** The work of a call that consumes nothing. *)
Definition idle (f : fn) : Z :=
  match f with
  | F_await | F_function_declaration | F_function_expression | F_labelled | F_method_tail _ => 3
  | L_left_hand _ => 4
  | F_binding_pattern | L_export_specifiers | L_import_specifiers | L_switch _ => 5
  | F_declaration | F_property_name => 6
  | F_iteration | F_primary => 7
  | F_binding_property => 8
  | F_breakable | L_object_binding_pattern => 10
  | F_binding_element | F_lexical_declarator _ | F_var_declarator => 11
  | F_left_hand _ => 12
  | L_function_params => 14
  | L_array_binding_pattern => 15
  | F_class_item => 16
  | F_object_property | F_update | L_class_body => 17
  | F_unary | L_object_literal => 19
  | F_exponential => 21
  | F_fancy _ => 25
  | F_conditional => 27
  | F_assignment => 34
  | F_array_item | F_reify_assignment => 36
  | F_expression | F_reify_arrow | L_array_literal | L_call_arguments => 38
  | F_expression_statement | L_template_literal => 40
  | F_statement => 46
  | F_statement_list_item => 53
  | F_script_item | L_statement_list => 54
  | L_script => 55
  | F_module_item => 60
  | L_module => 61
  | _ => 2
  end.
(** What a call leaves unspent of the price of the tokens it consumes. *)
Definition spare (f : fn) : Z :=
  match f with
  | F_binding_rest_element => 1
  | F_call_arguments | F_default_clause => 6
  | F_case_clause => 8
  | F_binding_property => 13
  | F_class_item => 18
  | F_binding_element => 20
  | F_object_property => 22
  | F_binding_pattern => 23
  | F_object_binding_pattern => 24
  | F_array_binding_pattern => 26
  | F_method_tail _ => 36
  | F_function_params => 39
  | F_array_item => 41
  | F_statement_list_item => 55
  | F_module_item => 62
  | F_script_item => 64
  | F_declaration | F_property_name => 66
  | F_class_declaration | F_const_declaration | F_function_declaration | F_let_declaration => 69
  | F_computed_property_name => 70
  | F_statement => 72
  | F_block | F_breakable | F_if | F_labelled | F_return | F_throw | F_try
    | F_variable_statement | F_with => 75
  | F_iteration => 76
  | F_do_while => 77
  | F_expression_statement => 78
  | F_while => 79
  | F_expression | F_for => 81
  | F_switch => 83
  | F_assignment => 85
  | F_yield => 86
  | F_import_declaration => 118
  | F_export_declaration => 120
  | F_conditional => 131
  | F_fancy _ => 206
  | F_exponential => 210
  | F_unary => 235
  | F_await | F_delete | F_exclam | F_minus | F_plus | F_tilde | F_typeof | F_update | F_void => 237
  | F_left_hand _ => 244
  | F_primary => 250
  | F_array_literal | F_cover_parenthesized | F_function_expression | F_object_literal
    | F_template_literal => 253
  | F_meta_property => 257
  | _ => 0
  end.

Lemma idle_pos f : 0 <= idle f.
Proof. destruct f; discriminate. Qed.
Lemma spare_pos f : 0 <= spare f.
Proof. destruct f; discriminate. Qed.
Global Opaque price.

Definition work_bound (f : fn) (i : input) (r : ares (option unit)) (c : nat) : Prop :=
  match r with
  | AOk _ i' => length i' = length i /\ Z.of_nat c <= idle f \/
      (length i' < length i)%nat /\ Z.of_nat c + spare f <= price * (len i - len i')
  | AFuel _ => True
  | _ => Z.of_nat c <= price * len i + idle f
  end.

Section Exec.
Context (e : token) (call : acall) (cost : acost) (i0 : input).
Notation wp := (wc e call cost).

(** The work [m] done when the input has become [i]: [s] more than the price of the
    tokens consumed; [fresh] if none was. *)
Definition spent (fresh : bool) (i : input) (m : nat) (s : Z) : Prop :=
  Z.of_nat m <= price * (len i0 - len i) + s /\
  if fresh then length i = length i0 else (length i < length i0)%nat.

Definition sat {A : Set} (Q : ares A -> nat -> Prop) (r : ares A) (fresh : bool) (s : Z) : Prop :=
  forall m, match r with
    | AOk _ i => spent fresh i m s
    | _ => Z.of_nat m <= price * len i0 + s end -> Q r m.
Definition ws {A : Set} (p : prog A) g i fresh s (Q : ares A -> nat -> Prop) : Prop :=
  forall m, spent fresh i m s -> wp p g i m Q.

Lemma sat_ok {A B : Set} (k : A -> prog B) g a i fr s Q :
  ws (k a) g i fr s Q -> sat (kontc e call cost k g Q) (AOk a i) fr s.
Proof. exact (fun H => H). Qed.
Lemma sat_err {A B : Set} (k : A -> prog B) g x i fr s Q :
  sat Q (AErr x i) fr s -> sat (kontc e call cost k g Q) (AErr x i) fr s.
Proof. exact (fun H => H). Qed.
Lemma sat_crash {A B : Set} (k : A -> prog B) g x fr s Q :
  sat Q (APanic x) fr s -> sat (kontc e call cost k g Q) (APanic x) fr s.
Proof. exact (fun H => H). Qed.
Lemma ws_ret {A : Set} (a : A) g i fr s Q : sat Q (AOk a i) fr s -> ws (Ret a) g i fr s Q.
Proof. intros H m M. apply wc_ret, H, M. Qed.
Lemma ws_bind {A B : Set} (p : prog A) (k : A -> prog B) g i fr s Q :
  ws p g i fr s (kontc e call cost k g Q) -> ws (Bind p k) g i fr s Q.
Proof. intros H m M. apply wc_bind, H, M. Qed.
Lemma price_len (i : input) : 0 <= price * len i.
Proof. apply Z.mul_nonneg_nonneg; [discriminate|lia]. Qed.
Lemma ws_throw {A : Set} x g i fr s Q : sat Q (AErr x i) fr s -> ws (Throw x : prog A) g i fr s Q.
Proof.
  intros H m [M _]. apply wc_throw, H. assert (P := price_len i). rewrite Z.mul_sub_distr_l in M. lia.
Qed.
Lemma ws_crash {A : Set} x g i fr s Q : sat Q (APanic (P_unreachable x)) fr s -> ws (Crash x : prog A) g i fr s Q.
Proof.
  intros H m [M _]. apply wc_crash, H. assert (P := price_len i). rewrite Z.mul_sub_distr_l in M. lia.
Qed.
Lemma ws_with {A : Set} f v (p : prog A) g i fr s Q :
  ws p (set_flag g f v) i fr s Q -> ws (With f v p) g i fr s Q.
Proof. exact (fun H => H). Qed.
Lemma ws_skip {A : Set} (p : prog A) g i fr s (Q : _ -> _ -> Prop) a :
  (forall m, Q (AOk a i) (m + 1)%nat -> wp p g i m Q) -> sat Q (AOk a i) fr (s + 1) -> ws p g i fr s Q.
Proof. intros W H m [M R]. apply W, H. split; [lia|exact R]. Qed.

Lemma sat_fresh f a i s : s <= idle f -> sat (work_bound f i0) (AOk a i) true s.
Proof. intros L m [M R]. left. split; [exact R|]. rewrite R in M. lia. Qed.
Lemma sat_done f a i s : s <= - spare f -> sat (work_bound f i0) (AOk a i) false s.
Proof. intros L m [M R]. right. split; [exact R|]. lia. Qed.
Lemma sat_error f x i fr s : s <= idle f -> sat (work_bound f i0) (AErr x i) fr s.
Proof. intros L m M. cbn in *. lia. Qed.
Lemma sat_panic f x fr s : s <= idle f -> sat (work_bound f i0) (APanic x) fr s.
Proof. intros L m M. cbn in *. lia. Qed.

Hypothesis nonempty : length i0 <> 0%nat.

Definition paid (fr : bool) (s c : Z) : Z := if fr then s + c - price else s + c.
Lemma spent_tl fr i m s c : spent fr i m s -> spent false (tl i) (m + c) (paid fr s (Z.of_nat c)).
Proof.
  intros [M R]. unfold paid. assert (L := length_tl i). unfold spent. rewrite Z.mul_sub_distr_l in *. destruct fr.
  - split; [|lia]. replace (len (tl i)) with (len i - 1) by lia. lia.
  - assert (len (tl i) <= len i) by lia. split; [|lia].
    assert (price * len (tl i) <= price * len i) by (apply Z.mul_le_mono_nonneg_l; [discriminate|lia]). lia.
Qed.
Lemma ws_pop g i fr s Q : sat Q (AOk (tok e i) (tl i)) false (paid fr s 1) -> ws pop_ g i fr s Q.
Proof. intros H m M. apply wc_pop, H. exact (spent_tl fr i m s 1 M). Qed.
Lemma ws_eats p g i fr s Q b :
  ainterp e call p g i = eats b i -> awork e call cost p g i = (if b then 2 else 1)%nat ->
  (b = true -> sat Q (AOk (Some tt) (tl i)) false (paid fr s 2)) ->
  (b = false -> sat Q (AOk None i) fr (s + 1)) -> ws p g i fr s Q.
Proof.
  intros H W T F m M. eapply wc_eats; [exact H|exact W|intros E; apply (T E)|intros E; apply (F E)].
  - exact (spent_tl fr i m s 2 M).
  - destruct M as [M R]. split; [lia|exact R].
Qed.
Lemma ws_binding g i fr s Q :
  (is_binding_token g (tok e i) = true -> sat Q (AOk (Some tt) (tl i)) false (paid fr s 3)) ->
  (is_binding_token g (tok e i) = false -> sat Q (AOk None i) fr (s + 2)) -> ws binding_identifier g i fr s Q.
Proof.
  intros T F m M. apply wc_binding; [intros E; apply (T E)|intros E; apply (F E)].
  - exact (spent_tl fr i m s 3 M).
  - destruct M as [M R]. split; [lia|exact R].
Qed.
Lemma ws_semi b g i fr s Q :
  (is_punc Semicolon (tok e i) = true -> sat Q (AOk (Some tt) (tl i)) false (paid fr s 2)) ->
  (is_punc Semicolon (tok e i) = false -> asi e b i = true -> sat Q (AOk (Some tt) i) fr (s + 2)) ->
  (is_punc Semicolon (tok e i) = false -> asi e b i = false -> sat Q (AOk None i) fr (s + 1)) ->
  ws (semicolon_inner b) g i fr s Q.
Proof.
  intros T U F m M. apply wc_semi; [intros E; apply (T E)|intros E D; apply (U E D)|intros E D; apply (F E D)].
  - exact (spent_tl fr i m s 2 M).
  - destruct M as [M R]. split; [lia|exact R].
  - destruct M as [M R]. split; [lia|exact R].
Qed.
Lemma ws_template g i fr s Q :
  (is_template_start (tok e i) = true -> sat Q (AOk (Some (template_format_of (tok e i))) (tl i)) false (paid fr s 2)) ->
  (is_template_start (tok e i) = false -> sat Q (AOk None i) fr (s + 1)) -> ws template g i fr s Q.
Proof.
  intros T F m M. apply wc_template; [intros E; apply (T E)|intros E; apply (F E)].
  - exact (spent_tl fr i m s 2 M).
  - destruct M as [M R]. split; [lia|exact R].
Qed.
Lemma ws_template_tail g i fr s Q :
  (is_template_end (tok e i) = true -> sat Q (AOk (Some (template_format_of (tok e i))) (tl i)) false (paid fr s 2)) ->
  (is_template_end (tok e i) = false -> sat Q (AOk None i) fr (s + 1)) -> ws template_tail g i fr s Q.
Proof.
  intros T F m M. apply wc_template_tail; [intros E; apply (T E)|intros E; apply (F E)].
  - exact (spent_tl fr i m s 2 M).
  - destruct M as [M R]. split; [lia|exact R].
Qed.

Hypothesis consumes : forall f g i, consumption f i (call f g i).
Hypothesis bound : forall f g i, work_bound f i (call f g i) (cost f g i).

(** A call. *)
Lemma ws_call f g i (fr : bool) s (Q : ares (option unit) -> nat -> Prop) :
  (forall i', sat Q (AOk (Some tt) i') false (if fr then s - spare f else s + idle f)) ->
  (if consuming f then True else if fr then forall i', sat Q (AOk (Some tt) i') true (s + idle f) else True) ->
  (if total f then True else sat Q (AOk None i) fr (s + idle f)) ->
  (forall x i', sat Q (AErr x i') fr (s + idle f)) ->
  (forall i' m, Q (AFuel i') m) -> ws (Call f) g i fr s Q.
Proof.
  intros H1 H2 H3 H4 H5 m [M R]. apply wc_call. specialize (consumes f g i). specialize (bound f g i).
  assert (P1 := idle_pos f). assert (P2 := spare_pos f).
  destruct (call f g i) as [[[]|] i'|x i'|p|i']; cbn [consumption work_bound] in *.
  - destruct bound as [[E B]|[L B]].
    + destruct fr.
      * destruct (consuming f); [lia|]. apply H2. split; [rewrite E; lia|lia].
      * apply H1. split; [rewrite E; lia|lia].
    + apply H1. rewrite Z.mul_sub_distr_l in *. destruct fr.
      * split; [rewrite Z.mul_sub_distr_l; lia|lia].
      * split; [rewrite Z.mul_sub_distr_l; lia|lia].
  - destruct consumes as [-> T]. rewrite T in H3. apply H3. destruct bound as [[_ B]|[B _]]; [|lia].
    split; [lia|exact R].
  - apply (H4 x i'). rewrite Z.mul_sub_distr_l in M. lia.
  - destruct consumes.
  - apply H5.
Qed.

End Exec.

Ltac ws_kont := cbv beta; repeat first [apply sat_ok|apply sat_err|apply sat_crash].
Ltac ws_call_tac NE IH := eapply (ws_call _ _ _ _ NE (consumption_holds _ _) IH); 
  [intro; ws_kont|cbn [consuming]; try exact I; intros; ws_kont|cbn [total consuming negb]; try exact I; ws_kont|intros ? ?; ws_kont|intros; exact I].
Ltac wsstep NE IH :=
  lazymatch goal with
  | |- ws _ _ _ _ ?p _ _ _ _ _ =>
    lazymatch p with
    | Ret _ => apply ws_ret; ws_kont
    | Bind _ _ => apply ws_bind
    | Throw _ => apply ws_throw; ws_kont
    | Crash _ => apply ws_crash; ws_kont
    | With _ _ _ => apply ws_with
    | Call _ => ws_call_tac NE IH
    | token_ => eapply ws_skip; [intros ?; apply wc_token|ws_kont]
    | no_line_terminator => eapply ws_skip; [intros ?; apply wc_noline|ws_kont]
    | ident_lookahead => eapply ws_skip; [intros ?; apply wc_lookahead|ws_kont]
    | get_flags => eapply ws_skip; [intros ?; apply wc_flags|ws_kont]
    | expect_expression => eapply ws_skip; [intros ?; apply wc_expect|ws_kont]
    | pop_ => apply (ws_pop _ _ _ _ NE); ws_kont
    | punc _ => eapply (ws_eats _ _ _ _ NE); [apply punc_eq|apply work_take_if|intro; ws_kont|intro; ws_kont]
    | numeric => eapply (ws_eats _ _ _ _ NE); [apply numeric_eq|apply work_take_if|intro; ws_kont|intro; ws_kont]
    | string_ => eapply (ws_eats _ _ _ _ NE); [apply string_eq|apply work_take_if|intro; ws_kont|intro; ws_kont]
    | regex => eapply (ws_eats _ _ _ _ NE); [apply regex_eq|apply work_take_if|intro; ws_kont|intro; ws_kont]
    | eof => eapply (ws_eats _ _ _ _ NE); [apply eof_eq|apply work_take_if|intro; ws_kont|intro; ws_kont]
    | keyword _ => eapply (ws_eats _ _ _ _ NE); [apply keyword_eq|apply work_take_if|intro; ws_kont|intro; ws_kont]
    | identifier => eapply (ws_eats _ _ _ _ NE); [apply identifier_eq|apply work_take_if|intro; ws_kont|intro; ws_kont]
    | binding_identifier => apply (ws_binding _ _ _ _ NE); [intro; ws_kont|intro; ws_kont]
    | reference_identifier => apply (ws_binding _ _ _ _ NE); [intro; ws_kont|intro; ws_kont]
    | label_identifier => apply (ws_binding _ _ _ _ NE); [intro; ws_kont|intro; ws_kont]
    | semicolon => apply (ws_semi _ _ _ _ NE); [intro; ws_kont|intros ? ?; ws_kont|intros ? ?; ws_kont]
    | semicolon_dowhile => apply (ws_semi _ _ _ _ NE); [intro; ws_kont|intros ? ?; ws_kont|intros ? ?; ws_kont]
    | template => apply (ws_template _ _ _ _ NE); [intro; ws_kont|intro; ws_kont]
    | template_tail => apply (ws_template_tail _ _ _ _ NE); [intro; ws_kont|intro; ws_kont]
    | try_sequence _ => cbn [try_sequence]
    | match ?x with _ => _ end => destruct x eqn:?
    | ?f _ _ => unfold f; cbv beta
    | ?f _ => unfold f; cbv beta
    | ?f => unfold f
    end
  end.
