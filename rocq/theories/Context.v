(** What the surroundings of code decide. *)
From Coq Require Import String List Bool Arith Lia.
From Verif Require Import Base Tokens ByteFacts ParserCore SpecGrammar SpecLanguage GrammarRules GrammarFacts SpecSequel SpecEnclose SpecContext Enclose.
Import ListNotations.
Local Open Scope string_scope.
Local Open Scope list_scope.

(** ** Tokens other than [await] *)
Lemma word_in_one w name : word_in [w] name = beqb name (s2b w).
Proof. unfold word_in. cbn [existsb]. apply orb_false_r. Qed.
Lemma bindable_same g g' x : is_strict g' = is_strict g -> x <> s2b "await" -> bindable g' x = bindable g x.
Proof.
  intros S N. unfold bindable. rewrite S, word_in_one. destruct (beqb x (s2b "await")) eqn:E; [apply beqb_eq in E; contradiction|].
  cbn [negb]. rewrite !orb_true_r. reflexivity.
Qed.
Definition calm (t : token) : Prop := t <> TIdent (s2b "await") /\ t <> TIdent (s2b "in").
Lemma one_of_same g g' ts t : is_strict g' = is_strict g -> calm t -> one_of g' ts t = one_of g ts t.
Proof.
  intros S [N _]. unfold one_of. induction ts as [|x ts IH]; [reflexivity|]. cbn [existsb]. rewrite IH. f_equal.
  destruct x, t; try reflexivity. cbn [matches]. apply bindable_same; [exact S|congruence].
Qed.
Definition quiet (i : tokens) : Prop := without "in" i /\ without "await" i.
Lemma quiet_next i : quiet i -> calm (snd (next i)).
Proof.
  intros (A & B). destruct i as [|[nl t] i]; [split; discriminate|]. cbn [next hd snd]. split; intros ->; [apply (B nl)|apply (A nl)]; left; reflexivity.
Qed.
Lemma quiet_app u i : quiet (u ++ i) -> quiet i.
Proof. intros (A & B). split; intros nl K; [apply (A nl)|apply (B nl)]; apply in_or_app; right; exact K. Qed.
Lemma quiet_tl i : quiet i -> quiet (tl i).
Proof. destruct i as [|x i]; [auto|]. intros H. apply (quiet_app [x] i H). Qed.

(** ** Conditions *)
Definition steady (c : condition) : Prop := forall g g' i, within g g' -> quiet i -> c g i = true -> c g' i = true.
Lemma steady_no ts : steady (no ts).
Proof. intros g g' i (S & _) Q. unfold no. rewrite (one_of_same g g') by auto using quiet_next. auto. Qed.
Lemma steady_both c d : steady c -> steady d -> steady (both c d).
Proof. intros C D g g' i W Q. unfold both. rewrite !andb_true_iff. intros (A & B). split; [exact (C g g' i W Q A)|exact (D g g' i W Q B)]. Qed.
Lemma pair_same ts sl us g g' i : within g g' -> quiet i -> pair ts sl us g' i = pair ts sl us g i.
Proof. intros (S & _) Q. unfold pair. rewrite !(one_of_same g g') by auto using quiet_next, quiet_tl. reflexivity. Qed.
Lemma steady_pair ts sl us : steady (pair ts sl us).
Proof. intros g g' i W Q. rewrite (pair_same ts sl us g g' i W Q). auto. Qed.
Lemma steady_no_pair ts sl us : steady (no_pair ts sl us).
Proof. intros g g' i W Q. unfold no_pair. rewrite (pair_same ts sl us g g' i W Q). auto. Qed.
Lemma steady_no_function : steady no_function_start.
Proof.
  intros g g' i W Q. unfold no_function_start, async_function. rewrite !(pair_same _ _ _ g g' i W Q), (one_of_same g g') by (apply quiet_next, Q || apply W). auto.
Qed.
Lemma steady_default : steady (only_if FDefault true).
Proof. intros g g' i (_ & D) _. unfold only_if, param. rewrite !eqb_true_iff. exact D. Qed.
Ltac is_steady :=
  match goal with
  | |- steady (both _ _) => apply steady_both; is_steady
  | |- steady no_item => unfold no_item; is_steady
  | |- steady (no _) => apply steady_no
  | |- steady line_break => intros ? ? ? _ _ H; exact H
  | |- steady no_line_break => intros ? ? ? _ _ H; exact H
  | |- steady (only_if FDefault true) => apply steady_default
  | |- steady for_let => apply steady_pair
  | |- steady no_for_let => apply (steady_no_pair [K "let"] false)
  | |- steady async_function => apply steady_pair
  | |- steady no_function_start => apply steady_no_function
  | |- steady (pair _ _ _) => apply steady_pair
  | |- steady (no_pair _ _ _) => apply steady_no_pair
  end.
Definition steady_sym (s : sym) : Prop := match s with When c => steady c | _ => True end.
(** All but the productions that ask for [In] and [Await]. *)
Definition asking (n : nt) : list (list sym) :=
  match n with NBinaryTail => tl (prods NBinaryTail) | NUnary => [nth 1 (prods NUnary) []] | _ => [] end.
Lemma all_steady n alpha : In alpha (prods n) -> Forall steady_sym alpha \/ In alpha (asking n).
Proof.
  intros I. destruct n;
    try match goal with k : for_kind |- _ => destruct k end;
    repeat match goal with b : bool |- _ => destruct b end;
    try match goal with h : method_head |- _ => destruct h as [[] [] []] end;
    cbn [prods In app map flat_map] in I;
    repeat (destruct I as [I|I]; [subst alpha|]); try contradiction I; cbn [star];
    first [left; repeat (apply Forall_cons; [cbn [steady_sym]; first [exact Logic.I|is_steady]|]); apply Forall_nil
          |right; cbn [asking prods tl nth In]; auto].
Qed.
Lemma within_changed g g' ch : within g g' -> within (changed g ch) (changed g' ch).
Proof.
  unfold changed. revert g g'. induction ch as [|[f v] ch IH]; intros g g' W; cbn [fold_left fst snd]; [exact W|]. apply IH.
  destruct g, g', f, W as (S & D); cbn in *; split; cbn; auto.
Qed.
Lemma ends g n i r : derives g n i r -> exists u, i = u ++ r.
Proof. intros D. destruct (proj1 exchanged _ _ _ _ D) as (u & E & _). eauto. Qed.

(** ** Code without [in] and [await] *)
Lemma carried :
  (forall g n i r, derives g n i r -> forall g', within g g' -> quiet i -> derives g' n i r) /\
  (forall g alpha i r, derives_seq g alpha i r -> forall g', within g g' -> quiet i -> Forall steady_sym alpha -> derives_seq g' alpha i r).
Proof.
  apply derives_both.
  - intros g n alpha i r I H Q g' W U. destruct (all_steady _ _ I) as [A|A]; [|destruct n; cbn [asking prods tl nth In] in A; try contradiction A].
    + eapply by_production; [exact I|]. apply Q; assumption.
    + destruct A as [<-|[<-|[<-|[]]]]; inversion H as [| | | | |? ? ? ? ? Hc H1]; subst; inversion H1 as [|? ? nl t ? ? ? O| | | |? ? ? ? ? Hn H2]; subst.
      * exfalso. cbn [one_of existsb matches] in O. destruct t; try discriminate O. rewrite orb_false_r in O. apply beqb_eq in O. subst. apply (proj1 U nl). left. reflexivity.
      * apply seq_nil in H2. subst r. destruct (allow_in g') eqn:E.
        -- eapply by_production; [do 2 right; left; reflexivity|]. apply d_condition; [unfold only_if; cbn [param]; rewrite E; reflexivity|]. apply d_condition; [exact (steady_no _ _ _ _ W U Hn)|constructor].
        -- eapply by_production; [do 3 right; left; reflexivity|]. apply d_condition; [unfold only_if; cbn [param]; rewrite E; reflexivity|]. apply d_condition; [|constructor].
           apply (steady_no _ _ _ _ W U). unfold no in *. rewrite negb_true_iff in *. cbn [one_of existsb] in Hn. apply orb_false_iff in Hn. apply Hn.
      * apply seq_nil in H2. subst r. destruct (allow_in g') eqn:E.
        -- eapply by_production; [do 2 right; left; reflexivity|]. apply d_condition; [unfold only_if; cbn [param]; rewrite E; reflexivity|]. apply d_condition; [|constructor].
           apply (steady_no _ _ _ _ W U). unfold no in *. rewrite negb_true_iff in *. cbn [one_of existsb]. apply orb_false_iff. split; [|exact Hn].
           destruct (quiet_next _ U) as [_ N]. destruct (snd (next i)); try reflexivity. cbn [matches]. destruct (beqb name (s2b "in")) eqn:B; [apply beqb_eq in B; congruence|reflexivity].
        -- eapply by_production; [do 3 right; left; reflexivity|]. apply d_condition; [unfold only_if; cbn [param]; rewrite E; reflexivity|]. apply d_condition; [exact (steady_no _ _ _ _ W U Hn)|constructor].
    + destruct A as [<-|[]]; inversion H as [| | | | |? ? ? ? ? Hc H1]; subst; inversion H1 as [|? ? nl t ? ? ? O| | | |]; subst.
      exfalso. cbn [one_of existsb matches] in O. destruct t; try discriminate O. rewrite orb_false_r in O. apply beqb_eq in O. subst. apply (proj2 U nl). left. reflexivity.
  - intros. constructor.
  - intros g ts nl t i alpha r O _ Q g' W U A. inversion A; subst. apply d_token; [|apply Q; try assumption; exact (quiet_app [_] i U)].
    rewrite (one_of_same g g'); [exact O|apply W|exact (quiet_next _ U)].
  - intros g n ch i m alpha r D Ph _ Q g' W U A. inversion A; subst. destruct (ends _ _ _ _ D) as (u & ->).
    eapply d_nonterminal; [apply Ph; [apply within_changed, W|exact U]|apply Q; try assumption; exact (quiet_app _ _ U)].
  - intros g b nl i alpha r _ Q g' W U A. inversion A; subst. apply d_semicolon. apply Q; try assumption. exact (quiet_app [_] i U).
  - intros g b i alpha r N X _ Q g' W U A. inversion A; subst. apply d_inserted; [exact N|exact X|apply Q; assumption].
  - intros g c i alpha r C _ Q g' W U A. inversion A as [|? ? S A']; subst. apply d_condition; [exact (S g g' i W U C)|apply Q; assumption].
Qed.

(** ** Blocks anywhere *)
Lemma quiet_end a nl : quiet a -> quiet (a ++ [(nl, TEOF)]).
Proof. intros (A & B). split; intros b K; (apply in_app_or in K; destruct K as [K|[K|[]]]; [|discriminate K]); [exact (A b K)|exact (B b K)]. Qed.
Theorem block_anywhere g a nl k : is_strict g = false -> quiet a -> script a nl -> derives g NBlock (in_block a nl ++ k) k.
Proof.
  intros G U S. unfold in_block. cbn [app]. rewrite <- app_assoc. cbn [app]. eapply by_production; [left; reflexivity|].
  apply d_token; [reflexivity|]. eapply d_nonterminal with (m := (nl, TPunctuator CurlyClose) :: k); [|apply d_token; [reflexivity|constructor]].
  eapply exchange; [apply closed_end|apply closed_brace|]. apply (proj1 carried _ _ _ _ S); [|apply quiet_end, U].
  split; [destruct g; exact G|discriminate].
Qed.
Theorem anywhere_script g a nl k : is_strict g = false -> allow_default g = false -> quiet a -> derives g NBlock (in_block a nl ++ k) k -> script a nl.
Proof.
  intros G F U D. inversion D as [? ? alpha ? ? I Q]; subst. cbn [prods In] in I. destruct I as [<-|[]].
  unfold in_block in Q. cbn [app] in Q. rewrite <- app_assoc in Q. cbn [app] in Q.
  inversion Q as [|? ? ? ? ? ? ? _ Q1| | | |]; subst. inversion Q1 as [| |? ? ? ? m ? ? D1 Q2| | |]; subst.
  inversion Q2 as [|? ? nl' t i ? ? O Q3| | | |]; subst. apply seq_nil in Q3. subst i. destruct (ends _ _ _ _ D1) as (u & E).
  assert (E' : a ++ [(nl, TPunctuator CurlyClose)] = u ++ [(nl', t)]) by (apply (app_inv_tail k); rewrite <- !app_assoc; exact E).
  apply app_inj_tail in E'. destruct E' as (<- & E'). injection E' as <- <-.
  assert (X := exchange _ _ _ _ _ _ (closed_brace nl k) (closed_end nl) D1).
  apply (proj1 carried _ _ _ _ X); [|apply quiet_end, U]. cbn [changed fold_left fst snd]. split; destruct g; cbn in *; [symmetry; exact G|congruence].
Qed.

(** ** Functions of all kinds *)
Tactic Notation "production" integer(n) := eapply by_production; [cbn [prods app]; do n (apply in_cons); apply in_eq|].
Ltac terminal := apply d_token; [reflexivity|].
Ltac cond := apply d_condition; [reflexivity|].
Ltac upto m' := apply d_nonterminal with (m := m'); cbn [changed fold_left fst snd].
Ltac nonterminal := eapply d_nonterminal; [cbn [changed fold_left fst snd]|].
Lemma rest_derived g b s a nl k : is_strict g = false -> quiet a -> script a nl ->
  derives g (NFunctionRest b s) (mark ParenOpen :: mark ParenClose :: in_block a nl ++ k) k.
Proof.
  intros G U S. production 0. eapply d_nonterminal with (m := in_block a nl ++ k).
  - production 0. terminal. eapply d_nonterminal with (m := mark ParenClose :: in_block a nl ++ k); [|terminal; constructor].
    production 3. cond. constructor.
  - eapply d_nonterminal; [|constructor]. apply block_anywhere; [|exact U|exact S]. destruct g, b, s; exact G.
Qed.
Lemma expression_script a nl t i : a = (false, t) :: i -> no statement_keyword no_parameters a = true -> no_pair [Name] false [P Colon] no_parameters a = true ->
  no declaration_keyword no_parameters a = true ->
  derives (set_flag no_parameters FIn true) NExpression (a ++ [(nl, TEOF)]) [(nl, TEOF)] -> i <> [] -> script a nl.
Proof.
  intros -> A B C D I. apply item_script. production 1. apply d_condition; [exact C|]. nonterminal; [|constructor].
  production 13. apply d_condition; [unfold both; rewrite andb_true_iff; split; [exact A|]|].
  { destruct i as [|x i]; [contradiction|exact B]. }
  nonterminal; [|constructor]. production 0. nonterminal; [exact D|]. apply d_inserted; [discriminate|reflexivity|constructor].
Qed.
Theorem generator_script b x a nl nl' : bindable no_parameters x = true -> quiet a -> script a nl -> script (in_generator (b, TIdent x) a nl) nl'.
Proof.
  intros B U S. apply item_script. production 0. nonterminal; [|constructor]. production 1. cond. nonterminal; [|constructor].
  production 1. cond. terminal. terminal. nonterminal; [|constructor]. production 0.
  apply d_token; [cbn [one_of existsb matches]; rewrite B; reflexivity|]. nonterminal; [|constructor]. apply rest_derived; auto.
Qed.
Theorem call_script a nl nl' : quiet a -> script a nl -> script (in_call a nl) nl'.
Proof.
  intros U S. eapply expression_script; try reflexivity; [|discriminate]. unfold in_call. cbn [app]. rewrite <- app_assoc. cbn [app].
  production 0. upto ([(nl', TEOF)]); [|nonterminal; [production 1; cond; constructor|constructor]].
  production 4. cond. upto ([(nl', TEOF)]); [|cond; constructor].
  production 1. upto ([(nl', TEOF)]); [|cond; constructor]. production 0. upto ([(nl', TEOF)]); [|nonterminal; [production 2; cond; cond; constructor|constructor]].
  production 2. cond. nonterminal; [|constructor].
  assert (X : forall b, exists j, nth j (prods NUpdate) [] = [N (NLeftHand true) []; When (if b : bool then line_break else both no_line_break (no [P PlusPlus; P MinusMinus]))] /\ In (nth j (prods NUpdate) []) (prods NUpdate)).
  { intros []; [exists 3|exists 2]; cbn [nth prods]; auto 6 using in_eq, in_cons. }
  destruct (X nl') as (j & Ej & Ij). eapply by_production; [exact Ij|rewrite Ej]. upto ([(nl', TEOF)]); [|apply d_condition; [destruct nl'; reflexivity|constructor]].
  production 1. nonterminal.
  - production 5. nonterminal; [|constructor]. production 0. terminal. upto (mark ParenClose :: mark ParenOpen :: mark ParenClose :: [(nl', TEOF)]); [|terminal; constructor].
    production 0. upto (mark ParenClose :: mark ParenOpen :: mark ParenClose :: [(nl', TEOF)]); [|nonterminal; [production 2; cond; constructor|constructor]].
    production 4. cond. upto (mark ParenClose :: mark ParenOpen :: mark ParenClose :: [(nl', TEOF)]); [|cond; constructor].
    production 1. upto (mark ParenClose :: mark ParenOpen :: mark ParenClose :: [(nl', TEOF)]); [|cond; constructor]. production 0. upto (mark ParenClose :: mark ParenOpen :: mark ParenClose :: [(nl', TEOF)]); [|nonterminal; [production 2; cond; cond; constructor|constructor]].
    production 2. cond. nonterminal; [|constructor].
    production 2. upto (mark ParenClose :: mark ParenOpen :: mark ParenClose :: [(nl', TEOF)]); [|cond; constructor].
    production 1. upto (mark ParenClose :: mark ParenOpen :: mark ParenClose :: [(nl', TEOF)]); [|nonterminal; [production 4; cond; constructor|constructor]].
    production 6. nonterminal; [|constructor]. production 3. cond. terminal. cond. nonterminal; [|constructor]. apply rest_derived; auto.
  - nonterminal; [|constructor]. production 3. upto ([(nl', TEOF)]); [|nonterminal; [production 4; cond; constructor|constructor]].
    production 0. terminal. upto (mark ParenClose :: [(nl', TEOF)]); [|terminal; constructor]. production 2. cond. nonterminal; [|constructor]. production 2. cond. constructor.
Qed.
Theorem arrow_script a nl nl' : quiet a -> script a nl -> script (in_arrow a nl) nl'.
Proof.
  intros U S. eapply expression_script; try reflexivity; [|discriminate]. unfold in_arrow. cbn [app].
  production 0. upto ([(nl', TEOF)]); [|nonterminal; [production 1; cond; constructor|constructor]].
  production 2. cond. nonterminal.
  - production 1. upto (mark Arrow :: in_block a nl ++ [(nl', TEOF)]); [|cond; constructor]. production 0. upto (mark Arrow :: in_block a nl ++ [(nl', TEOF)]); [|nonterminal; [production 2; cond; cond; constructor|constructor]].
    production 2. cond. nonterminal; [|constructor]. production 2. upto (mark Arrow :: in_block a nl ++ [(nl', TEOF)]); [|cond; constructor].
    production 1. upto (mark Arrow :: in_block a nl ++ [(nl', TEOF)]); [|nonterminal; [production 4; cond; constructor|constructor]].
    production 5. nonterminal; [|constructor]. production 0. terminal. upto (mark ParenClose :: mark Arrow :: in_block a nl ++ [(nl', TEOF)]); [|terminal; constructor]. production 2. cond. constructor.
  - terminal. nonterminal; [|constructor]. production 0. nonterminal; [|constructor]. apply block_anywhere; auto.
Qed.
Theorem method_script b x b' y a nl nl' : bindable no_parameters x = true -> word_in ["static"; "get"; "set"; "async"] y = false -> quiet a -> script a nl ->
  script (in_method (b, TIdent x) (b', TIdent y) a nl) nl'.
Proof.
  intros B Y U S. unfold word_in in Y. cbn [existsb] in Y. rewrite !orb_false_iff in Y. destruct Y as (Y1 & Y2 & Y3 & Y4 & _). apply item_script. unfold in_method. cbn [app]. rewrite <- app_assoc. cbn [app].
  production 0. nonterminal; [|constructor]. production 0. nonterminal; [|constructor]. production 0. terminal.
  apply d_token; [cbn [one_of existsb matches changed fold_left]; rewrite B; reflexivity|]. nonterminal; [production 1; cond; constructor|]. nonterminal; [|constructor].
  production 0. terminal. upto (mark CurlyClose :: [(nl', TEOF)]); [|terminal; constructor]. production 0.
  eapply d_nonterminal with (m := [mark CurlyClose; (nl', TEOF)]).
  - eapply by_production; [cbn [prods map]; right; left; reflexivity|]. nonterminal.
    + production 1. apply d_condition; [unfold no; cbn [next hd snd one_of existsb matches]; rewrite Y1; reflexivity|]. nonterminal; [|constructor].
      eapply by_production; [cbn [prods app]; left; reflexivity|]. apply d_condition; [unfold no; cbn [next hd snd one_of existsb matches]; rewrite Y2, Y3, Y4; reflexivity|]. cbn [star]. cond.
      nonterminal; [|constructor]. production 0. apply d_token; [reflexivity|constructor].
    + nonterminal; [|constructor]. eapply by_production; [cbn [prods]; left; reflexivity|]. nonterminal; [|constructor].
      apply (rest_derived _ false false a nl [mark CurlyClose; (nl', TEOF)]); auto.
  - nonterminal; [|constructor]. production 1. cond. constructor.
Qed.
Theorem async_program a nl nl' : quiet a -> script a nl -> program (in_async a nl ++ [(nl', TEOF)]).
Proof.
  intros U S. unfold in_async. cbn [app]. production 0. upto ([(nl', TEOF)]); [|terminal; constructor]. production 0. eapply d_nonterminal with (m := [(nl', TEOF)]).
  - production 2. cond. nonterminal; [|constructor]. production 0. terminal. terminal. nonterminal; [|constructor].
    production 0. cond. terminal. terminal. nonterminal; [|constructor]. production 1. cond. cond. nonterminal; [|constructor]. apply rest_derived; auto.
  - nonterminal; [|constructor]. production 1. cond. constructor.
Qed.
