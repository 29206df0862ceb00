(** Proofs about where the accepted language differs from ECMAScript. *)
From Coq Require Import String List Arith NArith Bool Lia.
From Verif Require Import Base Tokens Tokenizer ParserCore ParserBody SpecTokens SpecStream SpecParser SpecTrivia SpecGrammar SpecLanguage SpecHints.
From Verif Require Import SpecWindows SpecDeviations Windows ParserGrammar Coverage.
Import ListNotations.

Definition semicolon_in (ts : list term) : bool := existsb (fun t => matches no_parameters t (TPunctuator Semicolon)) ts.
Definition impossible (s : shape) : bool :=
  match s with
  | Anywhere ps => excluded ps
  | Behind ts ps => semicolon_in ts && excluded (Is ts :: ps)
  | NotBehind ts ps => negb (semicolon_in ts) && excluded (Not ts :: ps)
  end.
Lemma impossible_sound s l : impossible s = true -> program l -> ~ has s l.
Proof.
  destruct s as [ps|ts ps|ts ps]; cbn [impossible has]; intros H D.
  - apply excluded_sound; assumption.
  - apply andb_true_iff in H. destruct H. apply never_after; assumption.
  - apply andb_true_iff in H. destruct H as [H H']. apply negb_true_iff in H. apply never_except_after; assumption.
Qed.
Lemma all_impossible : forallb impossible unsupported = true.
Proof. vm_cast_no_check (eq_refl true). Qed.
Theorem no_unsupported l : program l -> Forall (fun s => ~ has s l) unsupported.
Proof.
  intros D. apply Forall_forall. intros s I. apply impossible_sound; [|exact D]. revert s I. apply forallb_forall. exact all_impossible.
Qed.

Theorem c39_unsupported T (next : T -> hint -> tres (token * token_range * T)) rf n t :
  parse_root_with next rf n t = Accepted ->
  exists log t', calls next t log t' /\ Forall (fun s => ~ has s (significant false log)) unsupported.
Proof.
  intros A. destruct (c28 _ _ _ _ A) as (log & t' & C & D). exists log, t'. split; [exact C|]. apply no_unsupported, D.
Qed.
Theorem c39_rejected E r n ps code s : utf8 code -> printed (overflow_checks E) [] ps code ->
  Forall (fun p => slash_free (snd (word_token p))) ps -> length code < r -> 20 * length code + 80 <= n ->
  In s unsupported -> has s (map word_token ps) -> parse_root E r n code <> Accepted.
Proof.
  intros U W F Lr Ln I H A. apply (c30_printed E r n ps code U W F Lr Ln) in A.
  pose proof (no_unsupported _ A) as X. rewrite Forall_forall in X. exact (X s I H).
Qed.

(** Recognizing a shape at a place. *)
Definition shows_b (p : pattern) (la : lookahead) : bool :=
  match p with
  | Is ts => one_of no_parameters ts (snd la)
  | SameLine ts => negb (fst la) && one_of no_parameters ts (snd la)
  | Not ts => negb (one_of no_parameters ts (snd la))
  end.
Fixpoint found_b (ps : list pattern) (l : tokens) : bool :=
  match ps, l with
  | [], _ => true
  | p :: ps', la :: l' => shows_b p la && found_b ps' l'
  | _ :: _, [] => false
  end.
Lemma shows_b_true p la : shows_b p la = true -> shows p la.
Proof.
  destruct p; cbn; auto.
  - intros H. apply andb_true_iff in H. destruct H as [H1 H2]. apply negb_true_iff in H1. auto.
  - apply negb_true_iff.
Qed.
Lemma found_b_true ps l : found_b ps l = true -> exists found after, l = found ++ after /\ Forall2 shows ps found.
Proof.
  revert l. induction ps as [|p ps IH]; intros l H; [exists [], l; auto|]. destruct l as [|la l]; [discriminate|]. cbn in H.
  apply andb_true_iff in H. destruct H as [H1 H2]. destruct (IH _ H2) as (f & a & -> & F). exists (la :: f), a. split; [reflexivity|].
  constructor; [apply shows_b_true, H1|exact F].
Qed.
Definition has_at (s : shape) (before l : tokens) : bool :=
  match s with
  | Anywhere ps => found_b ps l
  | Behind ts ps => found_b ps l && match rev before with [] => true | x :: _ => one_of no_parameters ts (snd x) end
  | NotBehind ts ps => found_b ps l && match rev before with [] => true | x :: _ => negb (one_of no_parameters ts (snd x)) end
  end.
Lemma has_at_true s before l : has_at s before l = true -> has s (before ++ l).
Proof.
  assert (R : forall x b, rev before = x :: b -> before = rev b ++ [x]).
  { intros x b E. apply (f_equal (@rev _)) in E. rewrite rev_involutive in E. exact E. }
  destruct s as [ps|ts ps|ts ps]; cbn [has_at has]; intros H.
  - destruct (found_b_true _ _ H) as (f & a & -> & F). exists before, f, a. auto.
  - apply andb_true_iff in H. destruct H as [H1 H2]. destruct (found_b_true _ _ H1) as (f & a & -> & F). exists before, f, a.
    split; [reflexivity|]. split; [exact F|]. destruct (rev before) as [|x b] eqn:E.
    + left. apply (f_equal (@rev _)) in E. rewrite rev_involutive in E. exact E.
    + right. exists (rev b), x. auto.
  - apply andb_true_iff in H. destruct H as [H1 H2]. destruct (found_b_true _ _ H1) as (f & a & -> & F). exists before, f, a.
    split; [reflexivity|]. split; [exact F|]. intros b' x' E'. subst before. rewrite rev_app_distr in H2. cbn in H2. apply negb_true_iff, H2.
Qed.
Fixpoint has_in (s : shape) (before l : tokens) : bool :=
  has_at s before l || match l with [] => false | la :: l' => has_in s (before ++ [la]) l' end.
Lemma has_in_true s before l : has_in s before l = true -> has s (before ++ l).
Proof.
  revert before. induction l as [|la l IH]; intros before H; cbn [has_in] in H; apply orb_true_iff in H; destruct H as [H|H];
    try (apply has_at_true; exact H); [discriminate|]. apply IH in H. rewrite <- app_assoc in H. exact H.
Qed.

(** ** What is accepted *)
Ltac in_list := (right; in_list) + (left; reflexivity).
Ltac derive := lazymatch goal with
  | |- derives _ _ _ _ => eapply by_production; [cbn [prods flat_map map app]; in_list | cbn [star]; derive]
  | |- derives_seq _ [] _ _ => apply d_end
  | |- derives_seq _ (T _ :: _) (_ :: _) _ => apply d_token; [reflexivity | derive]
  | |- derives_seq _ (N _ _ :: _) _ _ => eapply d_nonterminal; [derive | derive]
  | |- derives_seq _ (Semi _ :: _) _ _ => (apply d_semicolon; derive) + (apply d_inserted; [discriminate|reflexivity|derive])
  | |- derives_seq _ (When _ :: _) _ _ => apply d_condition; [reflexivity | derive]
  end.
Lemma program_item i l : derives no_parameters NModuleItem i l -> program l -> program i.
Proof.
  unfold program. intros D P. inversion P as [? ? alpha ? ? Ia Ds]; subst. destruct Ia as [<-|[]].
  eapply by_production; [left; reflexivity|]. inversion Ds as [| |? ? ? ? m ? ? Di De| | |]; subst.
  eapply d_nonterminal; [|exact De]. eapply by_production; [left; reflexivity|].
  apply d_nonterminal with l; [exact D|]. eapply d_nonterminal; [exact Di|constructor].
Qed.
Ltac two_items := match goal with |- program (_ ++ ?l) =>
  eapply program_item; [cbn [app]; derive|eapply program_item; [derive|assumption]] end.
Ltac one_item := match goal with |- program (_ ++ ?l) => apply (program_item _ l); [cbn [app]; derive|assumption] end.
Theorem superfluous_accepted v l : program l -> Forall (fun pre => program (pre ++ l)) (superfluous v).
Proof.
  intros D. unfold superfluous. repeat (constructor; [first [one_item|two_items]|]). constructor.
Qed.

(** A label of any name. *)
Theorem any_label nl nl1 nl2 w l : one_of no_parameters (declaration_keyword ++ statement_keyword) (TIdent w) = false ->
  program l -> program ((nl, TIdent w) :: (nl1, TPunctuator Colon) :: (nl2, TPunctuator Semicolon) :: l).
Proof.
  intros K P. apply (program_item _ l); [|exact P]. unfold one_of in K. rewrite existsb_app in K. apply orb_false_iff in K. destruct K as [K1 K2].
  eapply by_production; [left; reflexivity|]. eapply d_nonterminal; [|constructor].
  eapply by_production; [right; left; reflexivity|]. apply d_condition; [unfold no, one_of; cbn [next hd snd]; apply negb_true_iff; exact K1|].
  eapply d_nonterminal; [|constructor].
  eapply by_production; [do 12 right; left; reflexivity|]. apply d_condition; [unfold no, one_of; cbn [next hd snd]; apply negb_true_iff; exact K2|].
  derive.
Qed.
Theorem c39_accepted E r n ps code v pre l : utf8 code -> printed (overflow_checks E) [] ps code ->
  In pre (superfluous v) -> map word_token ps = pre ++ l -> program l ->
  length code < r -> 20 * length code + 80 <= n -> parse_root E r n code = Accepted.
Proof.
  intros U W I Q D Lr Ln. pose proof (superfluous_accepted v l D) as F. rewrite Forall_forall in F. specialize (F pre I).
  rewrite <- Q in F. apply (c30_accepted E r n ps code U W F Lr Ln).
Qed.
