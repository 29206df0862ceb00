(** The cost of parsing (properties.jsonl, C43), followed by a case that meets its
    hypotheses. The counts are those of SpecWork.v. *)
From Coq Require Import String List Arith NArith Bool Lia.
From Verif Require Import Base Tokens Tokenizer ParserCore ParserBody SpecTokens SpecStream SpecWork.
From Verif Require Import PropertiesTokenizer WorkLinear.
Import ListNotations.
Local Open Scope string_scope.

(** ** C43 Parsing takes a number of steps that is linear in the length of the source

    The budgets [r] and [n] bound the model's loops and recursion; beyond the given sizes
    they do not matter (C26, C38). *)
Theorem C43_operations : forall E code r n, utf8 code ->
  length code < r -> 20 * length code + 60 <= n ->
  operations (next_token E) r n (into_tokenizer code) <= 303 * length code + 400.
Proof. exact operations_linear. Qed.
Theorem C43_token_requests : forall E code r n, utf8 code ->
  length code < r -> 20 * length code + 60 <= n ->
  token_requests (next_token E) r n (into_tokenizer code) <= 607 * length code + 800.
Proof. exact requests_linear. Qed.
Print Assumptions C43_operations.
Print Assumptions C43_token_requests.

(** Nested parentheses, whose content could be an expression or parameters: 37 operations
    for each pair. The first source is accepted, the second rejected. *)
Example C43_case :
  utf8 (s2b "((((a))))") /\
  map (fun c => operations (next_token debug_build) 10 240 (start c)) ["a"; "(a)"; "((a))"; "((((a))))"; "((((a)"]
    = [95; 132; 169; 243; 154] /\
  map (fun c => token_requests (next_token debug_build) 10 240 (start c)) ["a"; "(a)"; "((a))"; "((((a))))"; "((((a)"]
    = [2; 4; 6; 10; 7].
Proof. split; [repeat (apply utf8_1; [reflexivity|]); constructor|]. split; vm_compute; reflexivity. Qed.
