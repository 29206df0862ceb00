(** The statements of a program can be put between braces. *)
From Coq Require Import String List Bool Arith Lia.
From Verif Require Import Base Tokens ByteFacts ParserCore SpecGrammar SpecLanguage GrammarRules GrammarFacts SpecSequel SpecEnclose.
Import ListNotations.
Local Open Scope string_scope.
Local Open Scope list_scope.

(** What can stand behind statements: the end or a closing brace. *)
Definition closing (nl : bool) (e : tokens) : Prop := e = [(nl, TEOF)] \/ exists k, e = (nl, TPunctuator CurlyClose) :: k.
Definition blind (c : condition) : Prop := forall g w nl e e', closing nl e -> closing nl e' -> c g (w ++ e) = true -> c g (w ++ e') = true.
Definition inner (ts : list term) : Prop := forall g, one_of g ts TEOF = false /\ one_of g ts (TPunctuator CurlyClose) = false.
Lemma closing_next nl e : closing nl e -> fst (next e) = nl /\ (snd (next e) = TEOF \/ snd (next e) = TPunctuator CurlyClose).
Proof. intros [->|[k ->]]; cbn; auto. Qed.
Lemma inner_closing ts g nl e : inner ts -> closing nl e -> one_of g ts (snd (next e)) = false.
Proof. intros H C. destruct (closing_next _ _ C) as [_ [->| ->]]; apply H. Qed.
Lemma blind_no ts : inner ts -> blind (no ts).
Proof.
  intros H g w nl e e' C C' E. unfold no in *. destruct w as [|t w]; [|exact E]. cbn [app]. rewrite (inner_closing ts g nl e' H C'). reflexivity.
Qed.
Lemma blind_line : blind line_break.
Proof. intros g w nl e e' C C' E. unfold line_break in *. destruct w as [|t w]; [|exact E]. cbn [app] in *. rewrite (proj1 (closing_next _ _ C)) in E. rewrite (proj1 (closing_next _ _ C')). exact E. Qed.
Lemma blind_no_line : blind no_line_break.
Proof. intros g w nl e e' C C' E. unfold no_line_break in *. destruct w as [|t w]; [|exact E]. cbn [app] in *. rewrite (proj1 (closing_next _ _ C)) in E. rewrite (proj1 (closing_next _ _ C')). exact E. Qed.
Lemma blind_param f v : blind (only_if f v).
Proof. intros g w nl e e' _ _ E. exact E. Qed.
Lemma blind_both c d : blind c -> blind d -> blind (both c d).
Proof. intros Hc Hd g w nl e e' C C' E. unfold both in *. rewrite andb_true_iff in *. destruct E as [E E']. split; [exact (Hc g w nl e e' C C' E)|exact (Hd g w nl e e' C C' E')]. Qed.
Lemma pair_closing ts sl us g w nl e e' : inner ts -> inner us -> closing nl e -> closing nl e' -> pair ts sl us g (w ++ e') = pair ts sl us g (w ++ e).
Proof.
  intros H U C C'. unfold pair. destruct w as [|t [|u w]]; cbn [app tl].
  - rewrite (inner_closing ts g nl e H C), (inner_closing ts g nl e' H C'). reflexivity.
  - cbn [next hd]. change (hd (false, TEOF) e) with (next e). change (hd (false, TEOF) e') with (next e').
    rewrite (inner_closing us g nl e U C), (inner_closing us g nl e' U C'), !andb_false_r. reflexivity.
  - reflexivity.
Qed.
Lemma blind_pair ts sl us : inner ts -> inner us -> blind (pair ts sl us).
Proof. intros H U g w nl e e' C C' E. rewrite (pair_closing ts sl us g w nl e e' H U C C'). exact E. Qed.
Lemma blind_no_pair ts sl us : inner ts -> inner us -> blind (no_pair ts sl us).
Proof. intros H U g w nl e e' C C' E. unfold no_pair in *. rewrite (pair_closing ts sl us g w nl e e' H U C C'). exact E. Qed.
Ltac is_inner := let g := fresh in intros g; split; reflexivity.
Lemma blind_no_function : blind no_function_start.
Proof.
  intros g w nl e e' C C' E. unfold no_function_start, async_function in *. revert E.
  rewrite (pair_closing [K "async"] true [K "function"] g w nl e e'), (pair_closing [Name] true [K "function"] g w nl e e') by (assumption || is_inner).
  destruct w as [|t w]; [|auto]. cbn [app]. rewrite (inner_closing [K "function"] g nl e'), (inner_closing [K "function"] g nl e) by (assumption || is_inner). auto.
Qed.
Ltac is_blind :=
  match goal with
  | |- blind (both _ _) => apply blind_both; is_blind
  | |- blind no_item => unfold no_item; is_blind
  | |- blind (no _) => apply blind_no; is_inner
  | |- blind line_break => apply blind_line
  | |- blind no_line_break => apply blind_no_line
  | |- blind (only_if _ _) => apply blind_param
  | |- blind for_let => apply blind_pair; is_inner
  | |- blind no_for_let => apply (blind_no_pair [K "let"] false); is_inner
  | |- blind async_function => apply blind_pair; is_inner
  | |- blind no_function_start => apply blind_no_function
  | |- blind (pair _ _ _) => apply blind_pair; is_inner
  | |- blind (no_pair _ _ _) => apply blind_no_pair; is_inner
  end.
Definition blind_sym (s : sym) : Prop := match s with When c => blind c | _ => True end.
Lemma all_blind n alpha : In alpha (prods n) -> Forall blind_sym alpha.
Proof.
  intros I. destruct n;
    try match goal with k : for_kind |- _ => destruct k end;
    repeat match goal with b : bool |- _ => destruct b end;
    try match goal with h : method_head |- _ => destruct h as [[] [] []] end;
    cbn [prods In app map flat_map] in I;
    repeat (destruct I as [I|I]; [subst alpha|]); try contradiction I; cbn [star];
    repeat (apply Forall_cons; [cbn [blind_sym]; first [exact Logic.I|is_blind]|]); apply Forall_nil.
Qed.

(** ** The end can be exchanged *)
Lemma exchanged : 
  (forall g n i r, derives g n i r -> exists u, i = u ++ r /\ forall v nl e e', r = v ++ e -> closing nl e -> closing nl e' -> derives g n (u ++ v ++ e') (v ++ e')) /\
  (forall g alpha i r, derives_seq g alpha i r -> Forall blind_sym alpha ->
    exists u, i = u ++ r /\ forall v nl e e', r = v ++ e -> closing nl e -> closing nl e' -> derives_seq g alpha (u ++ v ++ e') (v ++ e')).
Proof.
  apply derives_both.
  - intros g n alpha i r I _ Q. destruct (Q (all_blind _ _ I)) as (u & E & H). exists u. split; [exact E|]. intros v nl e e' Er C C'. eapply by_production; [exact I|eauto].
  - intros g i _. exists []. split; [reflexivity|]. intros. constructor.
  - intros g ts nl t i alpha r Ho _ Q B. inversion B; subst. destruct (Q ltac:(assumption)) as (u & -> & H). exists ((nl, t) :: u). split; [reflexivity|].
    intros v nl' e e' Er C C'. cbn [app]. constructor; [exact Ho|eauto].
  - intros g n ch i m alpha r _ Ph _ Q B. inversion B; subst. destruct (Q ltac:(assumption)) as (u & -> & H). destruct Ph as (u' & -> & H'). exists (u' ++ u). split; [apply app_assoc|].
    intros v nl' e e' Er C C'. subst r. rewrite <- app_assoc. eapply d_nonterminal; [|eapply H; eauto].
    specialize (H' (u ++ v) nl' e e'). rewrite <- !app_assoc in H'. apply H'; auto.
  - intros g b nl i alpha r _ Q B. inversion B; subst. destruct (Q ltac:(assumption)) as (u & -> & H). exists ((nl, TPunctuator Semicolon) :: u). split; [reflexivity|].
    intros v nl' e e' Er C C'. cbn [app]. constructor. eauto.
  - intros g b i alpha r Ns In_ _ Q B. inversion B; subst. destruct (Q ltac:(assumption)) as (u & -> & H). exists u. split; [reflexivity|].
    intros v nl' e e' Er C C'. subst r. apply d_inserted; [| |eauto]; destruct (u ++ v) as [|t w] eqn:W; rewrite app_assoc in *; rewrite W in *; cbn [app] in *.
    + destruct (closing_next _ _ C') as [_ [->| ->]]; discriminate.
    + exact Ns.
    + unfold insertable. destruct (closing_next _ _ C') as [_ [->| ->]]; reflexivity.
    + exact In_.
  - intros g c i alpha r Hc _ Q B. inversion B as [|? ? Bc B']; subst. destruct (Q B') as (u & -> & H). exists u. split; [reflexivity|].
    intros v nl' e e' Er C C'. subst r. apply d_condition; [|eauto]. cbn [blind_sym] in Bc. rewrite app_assoc in *. exact (Bc g _ nl' e e' C C' Hc).
Qed.
Lemma exchange g n a nl e e' : closing nl e -> closing nl e' -> derives g n (a ++ e) e -> derives g n (a ++ e') e'.
Proof.
  intros C C' D. destruct (proj1 exchanged _ _ _ _ D) as (u & E & H). apply app_inv_tail in E. subst u. apply (H [] nl e e'); auto.
Qed.

(** ** Statements *)
Lemma closed_end nl : closing nl [(nl, TEOF)].
Proof. left. reflexivity. Qed.
Lemma closed_brace nl k : closing nl ((nl, TPunctuator CurlyClose) :: k).
Proof. right. eauto. Qed.
Theorem script_enclosed a nl k : script a nl <-> derives no_parameters NStatementList (a ++ (nl, TPunctuator CurlyClose) :: k) ((nl, TPunctuator CurlyClose) :: k).
Proof. split; intros H; eapply exchange; try exact H; auto using closed_end, closed_brace. Qed.
Lemma block_derived a nl k : script a nl -> derives no_parameters NBlock (in_block a nl ++ k) k.
Proof.
  intros S. unfold in_block. cbn [app]. rewrite <- app_assoc. cbn [app]. eapply by_production; [left; reflexivity|].
  apply d_token; [reflexivity|]. eapply d_nonterminal; [exact (proj1 (script_enclosed a nl k) S)|]. apply d_token; [reflexivity|]. constructor.
Qed.
Lemma end_derived nl : derives no_parameters NStatementList [(nl, TEOF)] [(nl, TEOF)].
Proof. eapply by_production; [right; left; reflexivity|]. apply d_condition; [reflexivity|constructor]. Qed.
Lemma item_script w nl : derives no_parameters NStatementListItem (w ++ [(nl, TEOF)]) [(nl, TEOF)] -> script w nl.
Proof.
  intros D. eapply by_production; [left; reflexivity|]. eapply d_nonterminal; [exact D|]. eapply d_nonterminal; [apply end_derived|constructor].
Qed.
Theorem block_script a nl nl' : script a nl -> script (in_block a nl) nl'.
Proof.
  intros S. apply item_script. eapply by_production; [right; left; reflexivity|]. apply d_condition; [reflexivity|]. eapply d_nonterminal; [|constructor].
  eapply by_production; [left; reflexivity|]. eapply d_nonterminal; [apply block_derived; exact S|constructor].
Qed.
Theorem blocks_script n a nl : script a nl -> script (in_blocks n a nl) nl.
Proof. intros S. induction n as [|n IH]; [exact S|apply block_script; exact IH]. Qed.
Theorem function_script b x a nl nl' : bindable no_parameters x = true -> script a nl -> script (in_function (b, TIdent x) a nl) nl'.
Proof.
  intros B S. apply item_script. assert (X : x <> s2b "function") by (intros ->; discriminate B).
  eapply by_production; [left; reflexivity|]. eapply d_nonterminal; [|constructor].
  eapply by_production; [right; left; reflexivity|]. apply d_condition; [reflexivity|]. eapply d_nonterminal; [|constructor].
  eapply by_production; [right; right; left; reflexivity|]. unfold in_function. cbn [app]. apply d_condition.
  { unfold no_pair, pair. cbn [next tl hd snd fst one_of existsb matches]. destruct (beqb x (s2b "function")) eqn:Q; [apply beqb_eq in Q; contradiction|]. rewrite !orb_false_r, andb_false_r. reflexivity. }
  apply d_token; [reflexivity|]. apply d_condition; [reflexivity|]. eapply d_nonterminal; [|constructor].
  eapply by_production; [left; reflexivity|]. apply d_token; [cbn [one_of existsb matches]; change (changed (changed (changed no_parameters []) []) []) with no_parameters; rewrite B; reflexivity|].
  eapply d_nonterminal; [|constructor]. eapply by_production; [left; reflexivity|]. eapply d_nonterminal with (m := in_block a nl ++ [(nl', TEOF)]).
  - eapply by_production; [left; reflexivity|]. apply d_token; [reflexivity|]. eapply d_nonterminal with (m := mark ParenClose :: in_block a nl ++ [(nl', TEOF)]).
    + eapply by_production; [do 3 right; left; reflexivity|]. apply d_condition; [reflexivity|constructor].
    + apply d_token; [reflexivity|constructor].
  - eapply d_nonterminal; [apply block_derived; exact S|constructor].
Qed.

(** ** Modules without imports and exports *)
Lemma seq_nil g i r : derives_seq g [] i r -> i = r.
Proof. intros H. inversion H. reflexivity. Qed.
Lemma same_item g i r : derives g NStatementListItem i r <-> derives g NScriptItem i r.
Proof. split; intros H; inversion H as [? ? alpha ? ? I Q]; subst; (eapply by_production; [exact I|exact Q]). Qed.
Lemma list_module nl :
  (forall g n i r, derives g n i r -> n = NStatementList -> r = [(nl, TEOF)] -> derives g NModuleItems i r) /\
  (forall g alpha i r, derives_seq g alpha i r -> r = [(nl, TEOF)] ->
    (alpha = [!NStatementList] -> derives g NModuleItems i r) /\ (alpha = [!NStatementListItem; !NStatementList] -> derives g NModuleItems i r)).
Proof.
  apply derives_both.
  - intros g n alpha i r I H Q -> E. cbn [prods In] in I. destruct I as [<-|[<-|[]]]; [exact (proj2 (Q E) eq_refl)|].
    inversion H as [| | | | |? ? ? ? ? Hc H1]; subst. apply seq_nil in H1. subst i. eapply by_production; [right; left; reflexivity|]. apply d_condition; [|constructor].
    unfold both at 1. rewrite Hc. reflexivity.
  - intros g i E. split; intros K; discriminate K.
  - intros g ts nl' t i alpha r _ _ _ E. split; intros K; discriminate K.
  - intros g n ch i m alpha r D Ph H Q E. split; intros [= -> -> ->].
    + apply seq_nil in H. subst m. exact (Ph eq_refl E).
    + eapply by_production; [left; reflexivity|]. eapply d_nonterminal; [|eapply d_nonterminal; [exact (proj1 (Q E) eq_refl)|constructor]].
      eapply by_production; [left; reflexivity|]. eapply d_nonterminal; [apply same_item; exact D|constructor].
  - intros g b nl' i alpha r _ _ E. split; intros K; discriminate K.
  - intros g b i alpha r _ _ _ _ E. split; intros K; discriminate K.
  - intros g c i alpha r _ _ _ E. split; intros K; discriminate K.
Qed.
Lemma starts_with w g n i r : (forall alpha, In alpha (prods n) -> exists beta, alpha = T [K w] :: beta) -> derives g n i r -> ~ without w i.
Proof.
  intros P D W. inversion D as [? ? alpha ? ? I Q]; subst. destruct (P _ I) as (beta & ->). inversion Q as [|? ? nl t ? ? ? O| | | |]; subst.
  cbn [one_of existsb matches] in O. destruct t; try discriminate O. rewrite orb_false_r in O. apply beqb_eq in O. subst. apply (W nl). left. reflexivity.
Qed.
Lemma module_list :
  (forall g n i r, derives g n i r -> n = NModuleItems -> without "import" i -> without "export" i -> derives g NStatementList i r) /\
  (forall g alpha i r, derives_seq g alpha i r -> without "import" i -> without "export" i ->
    (alpha = [!NModuleItems] -> derives g NStatementList i r) /\ (alpha = [!NModuleItem; !NModuleItems] -> derives g NStatementList i r)).
Proof.
  apply derives_both.
  - intros g n alpha i r I H Q -> A B. cbn [prods In] in I. destruct I as [<-|[<-|[]]]; [exact (proj2 (Q A B) eq_refl)|].
    inversion H as [| | | | |? ? ? ? ? Hc H1]; subst. apply seq_nil in H1. subst i. eapply by_production; [right; left; reflexivity|]. apply d_condition; [|constructor].
    unfold both at 1 in Hc. apply andb_true_iff in Hc. apply Hc.
  - intros g i _ _. split; intros K; discriminate K.
  - intros g ts nl' t i alpha r _ _ _ _ _. split; intros K; discriminate K.
  - intros g n ch i m alpha r D Ph H Q A B. split; intros [= -> -> ->].
    + apply seq_nil in H. subst m. exact (Ph eq_refl A B).
    + destruct (proj1 exchanged _ _ _ _ D) as (u & E & _). cbn [changed fold_left] in *.
      assert (A' : without "import" m) by (intros b K; apply (A b); rewrite E; apply in_or_app; auto).
      assert (B' : without "export" m) by (intros b K; apply (B b); rewrite E; apply in_or_app; auto).
      eapply by_production; [left; reflexivity|]. eapply d_nonterminal; [|eapply d_nonterminal; [exact (proj1 (Q A' B') eq_refl)|constructor]].
      apply same_item. inversion D as [? ? beta ? ? I Q3]; subst. cbn [prods In] in I. destruct I as [<-|[<-|[<-|[]]]].
      * inversion Q3 as [| |? ? ? ? m' ? ? D1 Q4| | |]; subst. apply seq_nil in Q4. subst m'. exact D1.
      * exfalso. inversion Q3 as [| | | | |? ? ? ? ? _ Q4]; subst. inversion Q4 as [| |? ? ? ? m' ? ? D1 _| | |]; subst. eapply starts_with; [|exact D1|exact A].
        intros beta I. cbn [prods In] in I. repeat (destruct I as [<-|I]; [eexists; reflexivity|]). destruct I.
      * exfalso. inversion Q3 as [| | | | |? ? ? ? ? _ Q4]; subst. inversion Q4 as [| |? ? ? ? m' ? ? D1 _| | |]; subst. eapply starts_with; [|exact D1|exact B].
        intros beta I. cbn [prods In] in I. repeat (destruct I as [<-|I]; [eexists; reflexivity|]). destruct I.
  - intros g b nl' i alpha r _ _ _ _. split; intros K; discriminate K.
  - intros g b i alpha r _ _ _ _ _ _. split; intros K; discriminate K.
  - intros g c i alpha r _ _ _ _ _. split; intros K; discriminate K.
Qed.
Theorem script_program a nl : script a nl -> program (a ++ [(nl, TEOF)]).
Proof.
  intros S. eapply by_production; [left; reflexivity|]. eapply d_nonterminal; [exact (proj1 (list_module nl) _ _ _ _ S eq_refl eq_refl)|].
  apply d_token; [reflexivity|constructor].
Qed.
Theorem program_script a nl : without "import" a -> without "export" a -> program (a ++ [(nl, TEOF)]) -> script a nl.
Proof.
  intros A B D. inversion D as [? ? alpha ? ? I Q]; subst. cbn [prods In] in I. destruct I as [<-|[]]. inversion Q as [| |? ? ? ? m ? ? D1 Q1| | |]; subst.
  inversion Q1 as [|? ? nl' t i ? ? O Q2| | | |]; subst. apply seq_nil in Q2. subst i. destruct (proj1 exchanged _ _ _ _ D1) as (u & E & _).
  apply app_inj_tail in E. destruct E as (<- & E). injection E as <- <-.
  assert (X : forall w, without w a -> without w (a ++ [(nl, TEOF)])) by (intros w H b K; apply in_app_or in K; destruct K as [K|[K|[]]]; [exact (H b K)|discriminate K]).
  apply (proj1 module_list _ _ _ _ D1 eq_refl); auto.
Qed.
