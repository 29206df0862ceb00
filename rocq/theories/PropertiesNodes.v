(** Displayed syntax trees (properties.jsonl, C49-C50). Each theorem is followed by a case
    that meets its hypotheses. *)
From Coq Require Import String List Arith NArith Bool Lia.
From Verif Require Import Base Tokens SpecTokens SpecHints Tokenizer ParserCore ParserBody.
From Verif Require Import PropertiesTokenizer PropertiesLanguage Formatter SpecFormatter Nodes SpecNodes NodeText.
Import ListNotations.

(** ** C49 Displayed scripts of expressions are accepted *)
Theorem C49_accepted : forall E r n es, Forall well_formed es ->
  length (display (fmt_script es)) < r -> 20 * length (display (fmt_script es)) + 80 <= n ->
  parse_root E r n (display (fmt_script es)) = Accepted.
Proof. exact script_accepted. Qed.
(** The conditions of [well_formed] are needed: a call of [let], which is not wrapped as a
    member of it is; a property of an integer; arguments spread in a row; a quote in a string. *)
Definition name_ (s : string) : expression := E_binding (s2b s) None.
Theorem C49_refuted : Forall (fun e => exists x, parse_root debug_build 100 1000 (display (fmt_script [e])) = Rejected x)
  [E_call (name_ "let") No_args No_last;
   E_member (E_numeric (s2b "1")) (A_identifier (s2b "x") None);
   E_call (name_ "f") (Cons_arg (Arg_spread (name_ "a")) No_args) (Last (Arg_spread (name_ "b")));
   E_string (s2b "it's") None].
Proof. repeat (constructor; [eexists; vm_compute; reflexivity|]). constructor. Qed.
Print Assumptions C49_accepted.
Print Assumptions C49_refuted.

Definition tree_c : expression :=
  E_sequence
    (E_conditional (E_sequence (name_ "a") (name_ "b"))
       (E_new (E_member (name_ "a") (A_computed (E_conditional E_this E_null (E_boolean true))))
          (Cons_arg (Arg_spread (name_ "b")) No_args) (Last (Arg_expression (E_sequence (name_ "c") (E_string (s2b "d e") None)))))
       (E_super_call No_args No_last))
    (E_call (E_member (E_new_empty (E_numeric (s2b "1.5"))) (A_identifier (s2b "in") None)) No_args No_last).
Example C49_case : well_formed tree_c /\
  display (fmt_script [tree_c; E_this]) = s2b "(a,b)?new a[this?null:true](...b,c,'d e'):super(),(new 1.5).in();this;".
Proof.
  split; [|vm_compute; reflexivity].
  assert (V : forall w, In w ["a"; "b"; "c"; "in"]%string -> identifier_name (s2b w)).
  { intros w H. cbn [In] in H. repeat (destruct H as [<-|H]); try contradiction H; cbn; (eexists _, _; split; [reflexivity|]);
      unfold ident_char, digit, lower, upper; (split; [lia|split; [lia|]]); repeat (constructor; [lia|]); constructor. }
  assert (W : forall w, In w ["a"; "b"; "c"]%string -> variable (s2b w)).
  { intros w H. split; [apply V; cbn in *; intuition|]. cbn [In] in H. repeat (destruct H as [<-|H]); try contradiction H; split; [reflexivity|discriminate|reflexivity|discriminate|reflexivity|discriminate]. }
  unfold tree_c, name_. cbn [well_formed well_formed_access well_formed_args well_formed_last well_formed_argument no_spreads_in_a_row spread andb given].
  repeat match goal with
  | |- _ /\ _ => split
  | |- variable _ => apply W; cbn; auto
  | |- identifier_name _ => apply V; cbn; auto
  | |- True => exact I
  | |- ~ integer _ => intros (x & K & _); discriminate K
  | |- _ <> _ => discriminate
  end; try reflexivity.
  - some_utf8.
  - exists false. repeat (apply st_char; [discriminate|discriminate|discriminate|intros K; discriminate K|intros [[r K]|[r K]]; discriminate K|]). constructor.
  - apply (nt_fraction 49 [] 53 []); [lia|constructor|]. constructor; [unfold digit; lia|constructor].
Qed.

(** ** C50 Different trees are displayed alike

    The parentheses that would keep the structure of a tree are missing in three places, and
    the node for negative values prints the sign of the logical negation. *)
Theorem C50_new_refuted : forall c l x,
  let callee := E_binding c None in
  display (fmt_script [E_call (E_new_empty callee) l x]) = display (fmt_script [E_new callee l x]).
Proof. exact new_empty_called. Qed.
Theorem C50_new_call_refuted : forall c l x l' x',
  let callee := E_binding c None in
  display (fmt_script [E_new (E_call callee l x) l' x']) = display (fmt_script [E_call (E_new callee l x) l' x']).
Proof. exact new_called. Qed.
Theorem C50_sequence_refuted : forall f a b,
  let callee := E_binding f None in
  let a := E_binding a None in
  let b := E_binding b None in
  display (fmt_script [E_call callee No_args (Last (Arg_expression (E_sequence a b)))]) =
  display (fmt_script [E_call callee (Cons_arg (Arg_expression a) No_args) (Last (Arg_expression b))]).
Proof. exact sequence_passed. Qed.
Theorem C50_negative_refuted : forall e, display (fmt_unary U_negative e) = display (fmt_unary U_negate e).
Proof. reflexivity. Qed.
Print Assumptions C50_new_refuted.
Print Assumptions C50_new_call_refuted.
Print Assumptions C50_sequence_refuted.
Print Assumptions C50_negative_refuted.

Example C50_case :
  display (fmt_script [E_call (E_new_empty (name_ "a")) No_args No_last]) = s2b "new a();" /\
  display (fmt_script [E_new (E_call (name_ "a") No_args No_last) No_args No_last]) = s2b "new a()();" /\
  display (fmt_script [E_call (name_ "f") No_args (Last (Arg_expression (E_sequence (name_ "a") (name_ "b"))))]) = s2b "f(a,b);" /\
  display (fmt_unary U_negative (name_ "a")) = s2b "!a".
Proof. vm_compute. repeat split. Qed.
