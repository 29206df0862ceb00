(** The properties about writing the semicolons of a program (properties.jsonl, C56 and C57), each
    followed by a case that meets its hypotheses. *)
From Coq Require Import String List Arith NArith Bool Lia.
From Verif Require Import Base Tokens Tokenizer ParserCore ParserBody SpecTokens SpecStream SpecParser SpecGrammar SpecBrackets SpecLanguage SpecSemicolons SpecSequel.
From Verif Require Import PropertiesTokenizer Coverage ParserGrammar PropertiesGrammar Semicolons OneLine Sequel.
Import ListNotations.
Local Open Scope string_scope.
Local Open Scope list_scope.

(** ** C56 Semicolons can be written *)
Theorem C56_semicolons : forall l, program l ->
  exists l', semicolons_added l l' /\ explicit_program l' /\ program l'.
Proof.
  intros l H. destruct (semicolons_can_be_written l H) as (l' & A & X). exists l'. auto using explicit_program_program.
Qed.
Print Assumptions C56_semicolons.

Theorem C56_accepted_source : forall E rf n code, utf8 code -> parse_root E rf n code = Accepted ->
  exists hs log t l', run E (into_tokenizer code) hs log t /\ tiles code 0 log (length code) /\
    semicolons_added (significant false log) l' /\ explicit_program l' /\ program l'.
Proof.
  intros E rf n code U A. destruct (c28_source E rf n code U A) as (hs & log & t & R & Ti & Pr & _).
  destruct (C56_semicolons _ Pr) as (l' & H). exists hs, log, t, l'. tauto.
Qed.
Print Assumptions C56_accepted_source.

Theorem C56_one_line : forall l, explicit_program l -> calm l = true ->
  explicit_program (one_line l) /\ program (one_line l).
Proof. intros l X C. pose proof (fits_on_one_line l X C) as Y. auto using explicit_program_program. Qed.
Print Assumptions C56_one_line.

(** Looks for a derivation. *)
Ltac in_list := (left; reflexivity) + (right; in_list).
Ltac derived :=
  lazymatch goal with
  | |- explicit _ _ _ _ => eapply e_production; [cbn [prods app map flat_map]; in_list|cbn [star]; derived]
  | |- explicit_seq _ [] _ _ => apply e_end
  | |- explicit_seq _ (T _ :: _) _ _ => apply e_token; [reflexivity|derived]
  | |- explicit_seq _ (When _ :: _) _ _ => apply e_condition; [reflexivity|derived]
  | |- explicit_seq _ (Semi _ :: _) _ _ => apply e_semicolon; derived
  | |- explicit_seq _ (N _ _ :: _) _ _ => eapply e_nonterminal; [derived|derived]
  end.
Definition word_ (s : string) : token := TIdent (s2b s).
Definition C56_example : tokens :=
  [(false, word_ "return"); (true, TPunctuator Semicolon); (true, word_ "a"); (true, TPunctuator Eq_); (true, word_ "b"); (false, TPunctuator PlusPlus); (false, TPunctuator Semicolon); (true, TEOF)].
Example C56_case : parse_root debug_build 60 600 (s2b "do if (a) b
else { return
} while (c) d") = Accepted /\
  semicolons_added [(false, word_ "a"); (true, word_ "b"); (false, TPunctuator CurlyClose); (false, TEOF)]
    [(false, word_ "a"); (false, TPunctuator Semicolon); (true, word_ "b"); (false, TPunctuator Semicolon); (false, TPunctuator CurlyClose);
     (false, TEOF)] /\
  explicit_program C56_example /\ calm C56_example = true.
Proof.
  split; [vm_compute; reflexivity|]. split.
  { apply c_keep, c_add; [reflexivity|]. apply c_keep, c_add; [reflexivity|]. apply c_keep, c_keep, c_nil. }
  split; [unfold explicit_program, C56_example; derived|reflexivity].
Qed.

(** Without [calm] this fails: an operand of [throw] may be missing before a line break only,
    and [async] before [of] is a variable behind which no arrow can come only if a line
    break is in between. *)
Definition C56_needs_a_line_break : list (list (bool * token)) :=
  [ [(false, word_ "throw"); (true, TEOF)];
    [(false, word_ "for"); (false, TPunctuator ParenOpen); (false, word_ "async"); (true, word_ "of"); (false, word_ "x");
     (false, TPunctuator ParenClose); (false, TPunctuator Semicolon); (false, TEOF)] ].
Lemma not_fed l log r n : significant false (log ++ [end_of_input]) = l -> length log < r -> 20 * length log + 80 <= n ->
  parse_root_with feed r n log <> Accepted -> ~ program l.
Proof.
  intros S Lr Ln A Pr. apply A. apply (feed_exact log r n Lr Ln). exists []. rewrite <- S in Pr. exact Pr.
Qed.
Theorem C56_one_line_refuted : Forall (fun l => explicit_program l /\ ~ program (one_line l)) C56_needs_a_line_break.
Proof.
  constructor; [|constructor; [|constructor]].
  - split; [unfold explicit_program; derived|].
    apply not_fed with (log := [(word_ "throw", snd end_of_input)]) (r := 20) (n := 400);
      [reflexivity|cbn; lia..|vm_compute; discriminate].
  - split; [unfold explicit_program; derived|].
    apply not_fed with (log := map (fun t => (t, snd end_of_input))
      [word_ "for"; TPunctuator ParenOpen; word_ "async"; word_ "of"; word_ "x"; TPunctuator ParenClose; TPunctuator Semicolon]) (r := 20) (n := 400);
      [reflexivity|cbn; lia..|vm_compute; discriminate].
Qed.
Print Assumptions C56_one_line_refuted.

(** ** C57 Programs can be put one behind the other *)
Theorem C57_sequence : forall a nl b, explicit_program (a ++ [(nl, TEOF)]) -> without "throw" a -> fresh_start b -> program b ->
  program (a ++ b).
Proof. exact programs_in_sequence. Qed.
Print Assumptions C57_sequence.

Theorem C57_completed_sequence : forall a nl b, program (a ++ [(nl, TEOF)]) -> without "throw" a -> fresh_start b -> program b ->
  exists a', semicolons_added (a ++ [(nl, TEOF)]) (a' ++ [(nl, TEOF)]) /\ program (a' ++ b).
Proof. exact any_programs_in_sequence. Qed.
Print Assumptions C57_completed_sequence.

Definition C57_first : tokens := [(false, word_ "return"); (true, TPunctuator Semicolon)].
Example C57_case : explicit_program (C57_first ++ [(false, TEOF)]) /\ without "throw" C57_first /\ fresh_start C56_example /\
  program C56_example.
Proof.
  split; [unfold explicit_program, C57_first; cbn [app]; derived|]. split.
  { intros nl [K|[K|[]]]; discriminate K. }
  split; [intros w [<-|[<-|[<-|[]]]]; discriminate|]. apply explicit_program_program, C56_case.
Qed.

(** Not all programs can: a semicolon that was not written, an [if] before the label [else],
    and a thrown expression are in the way. *)
Definition C57_apart : list (tokens * tokens) :=
  [ ([(false, word_ "a")], [(false, word_ "b"); (false, TPunctuator Semicolon); (false, TEOF)]);
    ([(false, word_ "if"); (false, TPunctuator ParenOpen); (false, word_ "a"); (false, TPunctuator ParenClose); (false, TPunctuator Semicolon)],
     [(false, word_ "else"); (false, TPunctuator Colon); (false, word_ "b"); (false, TPunctuator Semicolon); (false, TEOF)]);
    ([(false, word_ "throw"); (false, word_ "a")],
     [(false, TPunctuator SquareOpen); (false, TPunctuator SquareClose); (false, TPunctuator Semicolon); (false, TEOF)]) ].
Lemma is_fed l log r n w : significant false (log ++ [end_of_input]) = l -> l = w ++ [(false, TEOF)] -> ~ In TEOF (map snd w) ->
  length log < r -> 20 * length log + 80 <= n -> parse_root_with feed r n log = Accepted -> program l.
Proof.
  intros S Ew Nw Lr Ln A. destruct (feed_exact log r n Lr Ln) as [[X _] _]. destruct (X A) as (rest & D). unfold delivered in D.
  rewrite S in D. rewrite Ew in D |- *. assert (rest = []) as -> by (eapply module_end; eassumption). exact D.
Qed.
Ltac fed_ x :=
  match goal with |- program ?l => eapply is_fed with (log := x) (r := 30) (n := 600) (w := removelast l) end;
  [reflexivity|reflexivity|let H := fresh in intros H; vm_compute in H; repeat (destruct H as [H|H]; [discriminate H|]); exact H|cbn; lia|cbn; lia|vm_compute; reflexivity].
Ltac unfed_ x := apply not_fed with (log := x) (r := 30) (n := 600); [reflexivity|cbn; lia|cbn; lia|vm_compute; discriminate].
Definition here (i : tokens) : list (token * token_range) := map (fun t => (snd t, snd end_of_input)) i.
Theorem C57_concatenation_refuted : Forall (fun p => program (fst p ++ [(false, TEOF)]) /\ program (snd p) /\
  ~ program (fst p ++ snd p)) C57_apart.
Proof.
  unfold C57_apart. repeat (apply Forall_cons; [cbn [fst snd app]; split; [|split]|]); [..|apply Forall_nil];
  lazymatch goal with
  | |- program ?l => let x := eval vm_compute in (here (removelast l)) in fed_ x
  | |- ~ program ?l => let x := eval vm_compute in (here (removelast l)) in unfed_ x
  end.
Qed.
Print Assumptions C57_concatenation_refuted.
