(** Several sources in one (properties.jsonl, C64). The theorem is followed by a case that
    meets its hypotheses. *)
From Coq Require Import String List Arith NArith Bool Lia.
From Verif Require Import Base Tokens Tokenizer ParserCore ParserBody SpecTokens SpecStream SpecParser SpecWrapping SpecBundle.
From Verif Require Import ByteFacts PropertiesTokenizer Wrapping PropertiesWrapping Bundle.
Import ListNotations.
Local Open Scope string_scope.
Local Open Scope list_scope.

(** ** C64 Accepted sources can be put into one *)
Theorem C64_bundle : forall E codes,
  (forall code, In code codes -> simple_source code /\ absent (s2b "import") code /\ absent (s2b "export") code /\
     exists r n, parse_root E r n code = Accepted) ->
  forall r n, length (bundle codes) < r -> 20 * length (bundle codes) + 80 <= n -> parse_root E r n (bundle codes) = Accepted.
Proof. intros E codes H r n R N. apply bundle_accepted; [apply Forall_forall; exact H|exact R|exact N]. Qed.
Print Assumptions C64_bundle.

(** [if(a)b LINE BREAK], [else:c LINE BREAK] and [return d LINE BREAK] *)
Definition C64_sources : list bytes := [s2b "if(a)b" ++ [10%N]; s2b "else:c" ++ [10%N]; s2b "return d" ++ [10%N]].
Example C64_case : (forall code, In code C64_sources -> simple_source code /\ absent (s2b "import") code /\ absent (s2b "export") code /\
    exists r n, parse_root debug_build r n code = Accepted) /\
  bundle C64_sources = s2b "{if(a)b" ++ [10%N] ++ s2b "}" ++ [10%N] ++ s2b "{else:c" ++ [10%N] ++ s2b "}" ++ [10%N] ++ s2b "{return d" ++ [10%N] ++ s2b "}" ++ [10%N].
Proof.
  split; [|vm_compute; reflexivity]. intros code I.
  assert (U : Forall (fun b => (b < 128)%N) code /\ forallb (fun w => negb (occurs (s2b w) code)) ["/"; "`"; "import"; "export"] = true /\
    (exists v, code = v ++ [10%N]) /\ parse_root debug_build 100 1000 code = Accepted).
  { cbn [In C64_sources] in I. destruct I as [<-|[<-|[<-|[]]]]; (split; [repeat constructor|split; [reflexivity|split; [eexists; reflexivity|vm_compute; reflexivity]]]). }
  destruct U as (A & B & L & P). cbn [forallb] in B. rewrite !andb_true_iff, !negb_true_iff in B. destruct B as (B1 & B2 & B3 & B4 & _).
  split; [split; [apply utf8_ascii; exact A|split; [exact L|split; apply not_occurs; assumption]]|].
  split; [apply not_occurs, B3|]. split; [apply not_occurs, B4|]. eauto.
Qed.

(** Without the braces they cannot: the first two of these sources are not accepted one after
    the other. *)
Theorem C64_refuted : (forall code, In code C64_sources -> exists r n, parse_root debug_build r n code = Accepted) /\
  parse_root debug_build 100 1000 (concat (firstn 2 C64_sources)) = Rejected UnexpectedToken.
Proof. split; [intros code I; apply (proj1 C64_case), I|vm_compute; reflexivity]. Qed.
Print Assumptions C64_refuted.
