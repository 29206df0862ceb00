(** Displayed modules are read back and accepted. *)
From Coq Require Import String List NArith Bool Arith Lia.
From Verif Require Import Base Tokens SpecTokens SpecTrivia SpecStream Tokenizer SpecHints ByteFacts ParserCore SpecParser ParserBody SpecGrammar SpecLanguage GrammarRules
  Formatter SpecFormatter FormatterFacts FormatterTokens Nodes SpecNodes NodeItems NodeTokens NodeText Statements SpecStatements StatementItems StatementTokens StatementText
  Modules SpecModules.
Import ListNotations.

(** ** The items *)
Definition items_specifier (x : specifier) : list item :=
  match x with Normal_specifier x => [items_name x] | Aliased_specifier x y => [items_name x; word Fk_As; items_name y] end.
Definition items_specifiers (l : list specifier) (last : option specifier) : list item :=
  curlied (concat (map (fun x => items_specifier x ++ [Mark Fp_Comma]) l) ++ items_option items_specifier last).
Definition items_from (x : source_string) : list item := [word Fk_From; Quoted (given (fst x) (snd x)); Mark Fp_Semicolon].
Definition items_namespace (x : identifier) : list item := [Mark Fp_Star; word Fk_As; items_name x].
Definition items_kind (k : function_kind) : list item :=
  match k with
  | Fn_normal => [word Fk_Function]
  | Fn_generator => [word Fk_Function; Mark Fp_Star]
  | Fn_async => [word Fk_Async; word Fk_Function]
  | Fn_async_generator => [word Fk_Async; word Fk_Function; Mark Fp_Star]
  end.
Definition items_last_param (x : last_param) : list item :=
  match x with Last_param d => items_declarator d | Rest_param x => [Mark Fp_Ellipsis; items_name x] end.
Definition items_params (l : list declarator) (last : option last_param) : list item :=
  concat (map (fun d => items_declarator d ++ [Mark Fp_Comma]) l) ++ items_option items_last_param last.
Definition items_function (f : function_parts) : list item :=
  match f with Function_parts params last ds body => wrapped (items_params params last) ++ curlied (items_whole ds body) end.
Definition items_module_item (i : module_item) : list item :=
  match i with
  | Mi_statement s => items_statement false s
  | Mi_import_named x source => word Fk_Import :: items_name x :: items_from source
  | Mi_import_named_and_namespace x y source => word Fk_Import :: items_name x :: Mark Fp_Comma :: items_namespace y ++ items_from source
  | Mi_import_namespace y source => word Fk_Import :: items_namespace y ++ items_from source
  | Mi_import_named_and_specifiers x l last source => word Fk_Import :: items_name x :: Mark Fp_Comma :: items_specifiers l last ++ items_from source
  | Mi_import_specifiers l last source => word Fk_Import :: items_specifiers l (Some last) ++ items_from source
  | Mi_export_default e => word Fk_Export :: word Fk_Default :: items Pr_Assignment e ++ [Mark Fp_Semicolon]
  | Mi_export_declaration kind ds last => word Fk_Export :: items_declaration kind ds last
  | Mi_export_local l last => word Fk_Export :: items_specifiers l last ++ [Mark Fp_Semicolon]
  | Mi_export_source l last source => word Fk_Export :: items_specifiers l last ++ items_from source
  | Mi_export_all source => word Fk_Export :: Mark Fp_Star :: items_from source
  | Mi_export_named x source => word Fk_Export :: items_name x :: items_from source
  | Mi_export_named_and_namespace x y source => word Fk_Export :: items_name x :: Mark Fp_Comma :: items_namespace y ++ items_from source
  | Mi_export_namespace y source => word Fk_Export :: items_namespace y ++ items_from source
  | Mi_export_named_and_specifiers x l last source => word Fk_Export :: items_name x :: Mark Fp_Comma :: items_specifiers l last ++ items_from source
  | Mi_function kind x f => items_kind kind ++ items_name x :: items_function f
  | Mi_export_function kind x f => word Fk_Export :: items_kind kind ++ items_name x :: items_function f
  | Mi_export_default_function kind x f =>
    word Fk_Export :: word Fk_Default :: items_kind kind ++ items_option (fun x => [items_name x]) x ++ items_function f
  end.
Definition items_module (ds : list bytes) (l : list module_item) : list item := items_directives ds ++ concat (map items_module_item l).

Lemma shows_specifier s x : shows s (fmt_specifier x) (items_specifier x).
Proof. destruct x; reflexivity. Qed.
Lemma shows_specifiers s l last : shows s (fmt_specifiers l last) (items_specifiers l last).
Proof.
  apply shows_curly, shows_andthen.
  - apply shows_under; [reflexivity|exact I|]. induction l as [|x l IH]; [apply shows_done|]. cbn [fold_right map concat]. rewrite <- app_assoc.
    apply shows_andthen; [apply shows_specifier|]. apply shows_andthen; [apply shows_punct|exact IH].
  - destruct last; [apply shows_specifier|apply shows_done].
Qed.
Lemma shows_from s x : shows s (fmt_from x) (items_from x).
Proof. reflexivity. Qed.
Lemma shows_namespace s x : shows s (fmt_namespace x) (items_namespace x).
Proof. reflexivity. Qed.
Lemma shows_cons s u i v l : shows s u [i] -> shows s v l -> shows s (u ;; v) (i :: l).
Proof. apply (shows_andthen s u v [i] l). Qed.
Ltac show_one := apply shows_cons; [reflexivity|].
Lemma shows_kind s k : shows s (fmt_function_kind k) (items_kind k).
Proof. destruct k; reflexivity. Qed.
Lemma shows_directives s ds : shows s (fmt_directives ds) (items_directives ds).
Proof.
  induction ds as [|d ds IH]; [apply shows_done|]. unfold items_directives, fmt_directives. cbn [map concat fold_right]. fold (items_directives ds). fold (fmt_directives ds).
  apply shows_cons; [reflexivity|]. apply shows_cons; [reflexivity|exact IH].
Qed.
Lemma shows_function s kind f : function_formed kind f -> s_prec s = Pr_Normal -> shows s (fmt_function f) (items_function f).
Proof.
  destruct f as [params last ds body]. intros (_ & D & L & (_ & W)) P. cbn [fmt_function items_function]. apply shows_andthen.
  - apply shows_parens, shows_andthen.
    + apply shows_under; [reflexivity|exact I|]. induction D as [|d params Wd D IH]; [apply shows_done|]. cbn [fold_right map concat]. rewrite <- app_assoc.
      apply shows_andthen; [eapply shows_declarator, Wd|]. apply shows_andthen; [apply shows_punct|exact IH].
    + eapply shows_option; [exact L|]. intros [d|x] F; cbn [fmt_last_param items_last_param]; [eapply shows_declarator, F|reflexivity].
  - apply shows_curly, shows_andthen; [apply shows_directives|]. eapply (proj1 (proj2 shows_statements)); [exact W|exact P|reflexivity].
Qed.
Lemma shows_module_item s i : formed_items [i] -> s_prec s = Pr_Normal -> s_orphan s = false -> shows s (fmt_module_item i) (items_module_item i).
Proof.
  intros (F & _) P O. destruct i; cbn [fmt_module_item items_module_item]; [|try contradiction F; try (apply shows_cons; [reflexivity|apply shows_declaration; apply F]); repeat show_one..];
    try (apply shows_andthen; [apply shows_specifiers || apply shows_namespace|]); try apply shows_from; try apply shows_punct.
  - rewrite <- O. apply shows_statements; [apply F|exact P].
  - apply shows_andthen; [|apply shows_punct]. apply prints_restricted_shows. rewrite prints_hold. cbn [brackets within]. rewrite (proj1 prints_items _ F). reflexivity.
  - apply shows_andthen; [apply shows_kind|]. show_one. eapply shows_function; [apply F|exact P].
  - apply shows_andthen; [apply shows_kind|]. apply shows_andthen; [destruct name; reflexivity|]. eapply shows_function; [apply F|exact P].
Qed.
Lemma formed_item_alone i rest : formed_items (i :: rest) -> formed_items [i].
Proof. intros (F & _). split; [|exact I]. destruct i; try exact F; [split; [apply F|reflexivity]|]. destruct F as (A & B & _). auto. Qed.
Lemma displayed_module ds l : formed_module ds l -> displayed (fmt_module ds l) = items_module ds l.
Proof.
  intros (_ & W). enough (G : shows (Scope Pr_Normal true false) (fmt_module ds l) (items_module ds l)) by (unfold displayed; rewrite G; reflexivity).
  apply shows_under; [reflexivity|exact I|]. cbn [within s_prec s_in s_orphan]. apply shows_andthen.
  - apply shows_directives.
  - induction l as [|i l IH]; [apply shows_done|]. cbn [fold_right map concat]. apply shows_andthen; [|apply IH, W].
    apply shows_module_item; [eapply formed_item_alone, W|reflexivity|reflexivity].
Qed.

(** ** The text *)
Lemma closed_any x l : any_name x -> closed l -> closed (items_name x :: l).
Proof. intros V C. apply closed_cons; [apply good_word, V|intros t; exact I|exact C]. Qed.
Lemma good_star : good_item (Mark Fp_Star).
Proof. split; [apply sp_mark; reflexivity|]. split; [intros [K|K]|intros (b & f & K)]; discriminate K. Qed.
Definition before_star (i : item) : Prop := exists c r, item_text i = c :: r /\ c <> 42%N /\ c <> 61%N /\ c <> 47%N.
Lemma closed_star_before i l : before_star i -> closed (i :: l) -> closed (Mark Fp_Star :: i :: l).
Proof.
  intros (c & r & H & N1 & N2 & N3) ((G & A) & L). split.
  - split; [constructor; [apply good_star|exact G]|]. split; [|exact A]. left. rewrite H. exists c, r. split; [reflexivity|]. split; [|split; discriminate].
    intros q _ (x & K). destruct q; cbn in K; try discriminate K; injection K; intros; subst; congruence.
  - intros x' j Q. destruct x' as [|k x']; [discriminate Q|]. injection Q as _ Q. eapply L, Q.
Qed.
Lemma name_before w : identifier_name w -> before_star (Word w).
Proof. intros (c & w' & -> & I & _ & _). exists c, w'. split; [reflexivity|]. unfold ident_char, digit, lower, upper in I. lia. Qed.
Lemma closed_star k l : In k [Fk_As; Fk_From] -> closed (word k :: l) -> closed (Mark Fp_Star :: word k :: l).
Proof. intros _. apply closed_star_before, name_before, any_keyword. Qed.
Lemma from_closed x : source_formed x -> closed (items_from x).
Proof.
  intros (U & S). apply closed_word. apply (expression_marked (E_string (fst x) (snd x)) Pr_Normal Fp_Semicolon []); [split; assumption|mark_in|apply closed_nil].
Qed.
Lemma namespace_closed x l : named x -> closed l -> closed (items_namespace x ++ l).
Proof. intros V C. apply closed_star; [cbn; auto|]. apply closed_word, closed_name; assumption. Qed.
Lemma specifier_closed x l : specifier_formed x -> closed l -> closed (items_specifier x ++ l).
Proof.
  destruct x as [x|x y]; cbn [specifier_formed items_specifier app]; [intros A C; apply closed_any; assumption|].
  intros (A & B) C. apply closed_any; [exact A|]. apply closed_word, closed_any; assumption.
Qed.
Lemma specifiers_closed l last y : Forall specifier_formed l -> optional specifier_formed last -> closed y -> closed (items_specifiers l last ++ y).
Proof.
  intros F O C. assert (X : closed (concat (map (fun x => items_specifier x ++ [Mark Fp_Comma]) l) ++ items_option items_specifier last)).
  { induction F as [|x l Fx _ IH]; cbn [map concat app].
    - destruct last as [x|]; cbn [items_option]; [|apply closed_nil]. rewrite <- (app_nil_r (items_specifier x)). apply specifier_closed; [exact O|apply closed_nil].
    - rewrite <- !app_assoc. apply specifier_closed; [exact Fx|]. apply closed_mark; [mark_in|exact IH]. }
  apply curlied_closed; [apply X|left; exact X|exact C].
Qed.
Lemma params_closed l last : Forall (declared D_var) l -> optional last_param_formed last -> forall y, closed y -> closed (wrapped (items_params l last) ++ y).
Proof.
  intros D L y C. unfold wrapped, items_params. cbn [app]. rewrite <- !app_assoc. apply closed_mark; [mark_in|].
  induction D as [|d l W _ IH]; cbn [map concat app].
  - destruct last as [[d|x]|]; cbn [items_option items_last_param optional last_param_formed app] in *.
    + eapply declarator_marked; [exact L|mark_in|exact C].
    + apply closed_cons; [apply good_mark; left; reflexivity|intros t; apply solo; left; reflexivity|]. apply closed_name; [exact L|]. apply closed_mark; [mark_in|exact C].
    + apply closed_mark; [mark_in|exact C].
  - rewrite <- !app_assoc. cbn [app]. eapply declarator_marked; [exact W|mark_in|exact IH].
Qed.
Lemma function_closed kind f : function_formed kind f -> closed (items_function f).
Proof.
  destruct f as [params last ds body]. intros (_ & D & L & W). cbn [items_function]. apply params_closed; auto. rewrite items_with_directives.
  eapply shaped_block, shaped_statements, formed_with_directives, W.
Qed.
Lemma kind_closed kind f i l : function_formed kind f -> before_star i -> closed (i :: l) -> closed (items_kind kind ++ i :: l).
Proof. intros ([-> | ->] & _) B C; apply closed_word; [exact C|apply closed_star_before; assumption]. Qed.
Lemma module_item_shaped i : formed_items [i] -> shaped (match i with Mi_statement s => ends_throwing false s | _ => false end) (items_module_item i).
Proof.
  intros (F & _). destruct i as [s|x src|x y src|y src|x l last src|l last src|e|kind ds last|l last|l last src|src| | | | |kind x f| |kind x f]; cbn [items_module_item]; try contradiction F.
  1: { apply shaped_statements, F. }
  11: { left. destruct F as (V & F). eapply kind_closed; [exact F|apply name_before, V|]. apply closed_name; [exact V|eapply function_closed, F]. }
  all: left; apply closed_word; repeat match type of F with _ /\ _ => destruct F as (?F & F) end.
  - apply closed_name; [assumption|apply from_closed; assumption].
  - apply closed_name; [assumption|]. apply closed_mark; [mark_in|]. apply namespace_closed; [assumption|apply from_closed; assumption].
  - apply namespace_closed; [assumption|apply from_closed; assumption].
  - apply closed_name; [assumption|]. apply closed_mark; [mark_in|]. apply specifiers_closed; try assumption. apply from_closed; assumption.
  - apply specifiers_closed; try assumption. apply from_closed; assumption.
  - apply closed_word, expression_marked; [assumption|mark_in|apply closed_nil].
  - apply declaration_closed; assumption.
  - apply specifiers_closed; try assumption. apply closed_mark; [mark_in|apply closed_nil].
  - apply specifiers_closed; try assumption. apply from_closed; assumption.
  - apply closed_star; [cbn; auto|]. apply from_closed; assumption.
  - apply closed_word. destruct x as [x|]; cbn [items_option app].
    + eapply kind_closed; [eassumption|apply name_before, F0|]. apply closed_name; [exact F0|eapply function_closed; eassumption].
    + destruct f as [params l ds body]. cbn [items_function]. unfold wrapped. cbn [app].
      eapply (kind_closed kind (Function_parts params l ds body)); [eassumption|exists 40%N, []; repeat split; discriminate|]. apply (function_closed kind (Function_parts params l ds body)). assumption.
Qed.
Lemma module_sound ds l : formed_module ds l -> sound (items_module ds l).
Proof.
  intros (D & F). apply closed_sound.
  - clear F l. unfold items_directives. induction D as [|d ds W _ IH]; cbn [map concat]; [apply closed_nil|].
    apply (expression_marked (E_string d (Some d)) Pr_Normal Fp_Semicolon _ W); [mark_in|exact IH].
  - clear D ds. induction l as [|i l IH]; cbn [map concat]; [apply closed_nil|]. pose proof (module_item_shaped i (formed_item_alone _ _ F)) as S.
    destruct F as (Fi & F). specialize (IH F).
    destruct (match i with Mi_statement s => ends_throwing false s | _ => false end) eqn:K; [|apply closed_sound; [apply shaped_closed, S|exact IH]].
    destruct i; try discriminate K. destruct Fi as (_ & T). rewrite (T K). cbn [map concat]. rewrite app_nil_r. eapply shaped_sound, S.
Qed.

(** ** The grammar *)
(** More is derived where a name may be missing behind [export default]. *)
Definition at_default (g : grammar_flags) : grammar_flags := set_flag g FDefault true.
Lemma matches_default g x t : matches (at_default g) x t = matches g x t.
Proof. destruct g, x, t; reflexivity. Qed.
Lemma one_of_default g ts t : one_of (at_default g) ts t = one_of g ts t.
Proof. unfold one_of. induction ts as [|x ts IH]; [reflexivity|]. cbn [existsb]. rewrite IH, matches_default. reflexivity. Qed.
Lemma changed_default g ch : changed (at_default g) ch = at_default (changed g ch) \/ changed (at_default g) ch = changed g ch.
Proof.
  unfold changed. revert g. induction ch as [|[f v] ch IH]; intros g; cbn [fold_left fst snd]; [left; reflexivity|].
  assert (X : set_flag (at_default g) f v = at_default (set_flag g f v) \/ set_flag (at_default g) f v = set_flag g f v) by (destruct g, f; cbn; auto).
  destruct X as [-> | ->]; [apply IH|auto].
Qed.
Definition kept (c : condition) : Prop := forall g i, c g i = true -> c (at_default g) i = true.
Fixpoint all_kept (alpha : list sym) : Prop :=
  match alpha with When c :: beta => kept c /\ all_kept beta | _ :: beta => all_kept beta | [] => True end.
Lemma same_kept (c : condition) : (forall g i, c (at_default g) i = c g i) -> kept c.
Proof. intros H g i K. rewrite H. exact K. Qed.
Lemma productions_kept n alpha : In alpha (prods n) -> all_kept alpha.
Proof.
  destruct n; cbn [prods app map flat_map]; intros H;
    repeat match type of H with context [if ?b then _ else _] => destruct b | context [match ?b with _ => _ end] => destruct b end; cbn [In app map flat_map] in H;
    repeat (destruct H as [H|H]; [subst alpha; cbn [all_kept star]; repeat split; first
      [ intros g i _; destruct g; reflexivity
      | apply same_kept; intros g i; destruct g; reflexivity ]|]); try contradiction H.
Qed.
Lemma derives_default : (forall g n i r, derives g n i r -> derives (at_default g) n i r) /\
  (forall g alpha i r, derives_seq g alpha i r -> all_kept alpha -> derives_seq (at_default g) alpha i r).
Proof.
  apply derives_both.
  - intros g n alpha i r H _ Q. eapply by_production; [exact H|]. eapply Q, productions_kept, H.
  - intros. apply d_end.
  - intros g ts nl t i alpha r O _ Q K. apply d_token; [rewrite one_of_default; exact O|apply Q, K].
  - intros g n ch i m alpha r D Q _ Q' K. eapply d_nonterminal; [|apply Q', K]. destruct (changed_default g ch) as [-> | ->]; [exact Q|exact D].
  - intros g b nl i alpha r _ Q K. apply d_semicolon, Q, K.
  - intros g b i alpha r N X _ Q K. apply d_inserted; [exact N|exact X|apply Q, K].
  - intros g c i alpha r C _ Q (K & K'). apply d_condition; [apply K, C|apply Q, K'].
Qed.

(** Whether [yield] is allowed does not matter. *)
Definition at_yield (v : bool) (g : grammar_flags) : grammar_flags := set_flag g FYield v.
Lemma matches_yield v g x t : matches (at_yield v g) x t = matches g x t.
Proof. destruct g, x, t; reflexivity. Qed.
Lemma one_of_yield v g ts t : one_of (at_yield v g) ts t = one_of g ts t.
Proof. unfold one_of. induction ts as [|x ts IH]; [reflexivity|]. cbn [existsb]. rewrite IH, matches_yield. reflexivity. Qed.
Lemma changed_yield v g ch : changed (at_yield v g) ch = at_yield v (changed g ch) \/ changed (at_yield v g) ch = changed g ch.
Proof.
  unfold changed. revert g. induction ch as [|[f w] ch IH]; intros g; cbn [fold_left fst snd]; [left; reflexivity|].
  assert (X : set_flag (at_yield v g) f w = at_yield v (set_flag g f w) \/ set_flag (at_yield v g) f w = set_flag g f w) by (destruct g, f; cbn; auto).
  destruct X as [-> | ->]; [apply IH|auto].
Qed.
Fixpoint all_same (v : bool) (alpha : list sym) : Prop :=
  match alpha with When c :: beta => (forall g i, c (at_yield v g) i = c g i) /\ all_same v beta | _ :: beta => all_same v beta | [] => True end.
Lemma productions_same v n alpha : In alpha (prods n) -> all_same v alpha.
Proof.
  destruct n; cbn [prods app map flat_map]; intros H;
    repeat match type of H with context [if ?b then _ else _] => destruct b | context [match ?b with _ => _ end] => destruct b end; cbn [In app map flat_map] in H;
    repeat (destruct H as [H|H]; [subst alpha; cbn [all_same star]; repeat split; intros g i; destruct g; reflexivity|]); try contradiction H.
Qed.
Lemma derives_yield v : (forall g n i r, derives g n i r -> derives (at_yield v g) n i r) /\
  (forall g alpha i r, derives_seq g alpha i r -> all_same v alpha -> derives_seq (at_yield v g) alpha i r).
Proof.
  apply derives_both.
  - intros g n alpha i r H _ Q. eapply by_production; [exact H|]. eapply Q, productions_same, H.
  - intros. apply d_end.
  - intros g ts nl t i alpha r O _ Q K. apply d_token; [rewrite one_of_yield; exact O|apply Q, K].
  - intros g n ch i m alpha r D Q _ Q' K. eapply d_nonterminal; [|apply Q', K]. destruct (changed_yield v g ch) as [-> | ->]; [exact Q|exact D].
  - intros g b nl i alpha r _ Q K. apply d_semicolon, Q, K.
  - intros g b i alpha r N X _ Q K. apply d_inserted; [exact N|exact X|apply Q, K].
  - intros g c i alpha r C _ Q (K & K'). apply d_condition; [rewrite K; exact C|apply Q, K'].
Qed.

(** *** Functions *)
Lemma params_derived l last m : Forall (declared D_var) l -> optional last_param_formed last ->
  derives (g0 false) NParameterList (toks (items_params l last) ++ pp ParenClose :: m) (pp ParenClose :: m).
Proof.
  intros D L. unfold items_params.
  assert (N : forall d p y r, declared D_var d -> p = Comma \/ p = ParenClose -> derives (g0 false) NParameterNext (pp p :: y) r ->
    derives (g0 false) NParameterList (toks (items_declarator d) ++ pp p :: y) r).
  { intros [id [e|]] p y r (V & We & _) P X; cbn [items_declarator items_option]; flat.
    - production 1. nonterminal; [production 1; apply d_token; [apply bindable_name; auto|apply d_end]|]. nonterminal; [apply initializer_derived; [exact We|]|nonterminal; [exact X|apply d_end]].
      apply headed_mark. cbn. intuition.
    - production 2. nonterminal; [production 1; apply d_token; [apply bindable_name; auto|apply d_end]|]. cond; [destruct P as [-> | ->]; reflexivity|]. nonterminal; [exact X|apply d_end]. }
  assert (X : derives (g0 false) NParameterNext (pp ParenClose :: m) (pp ParenClose :: m)) by (production 1; cond; [reflexivity|apply d_end]).
  induction D as [|d l W _ IH]; cbn [map concat app].
  - destruct last as [[d|x]|]; cbn [items_option items_last_param optional last_param_formed] in *.
    + apply N; auto.
    + flat. production 0. nonterminal; [|apply d_end]. production 0. terminal. nonterminal; [production 1; apply d_token; [apply bindable_name; auto|apply d_end]|apply d_end].
    + flat. production 3. cond; [reflexivity|apply d_end].
  - rewrite <- !app_assoc. rewrite toks_app, <- app_assoc. cbn [app]. rewrite toks_mark. cbn [app pun]. apply N; auto.
    production 0. terminal. nonterminal; [exact IH|apply d_end].
Qed.
Definition generator_ (kind : function_kind) : bool := match kind with Fn_generator => true | _ => false end.
Lemma rest_derived kind f m : function_formed kind f -> derives (g0 false) (NFunctionRest false (generator_ kind)) (toks (items_function f) ++ m) m.
Proof.
  destruct f as [params last ds body]. intros (_ & D & L & W). cbn [items_function]. rewrite toks_app, <- app_assoc. rewrite items_with_directives. production 0.
  nonterminal; [|nonterminal; [|apply d_end]]; cbn [function_params function_body fst snd];
    change (set_flag (set_flag (g0 false) FAwait false) FYield (generator_ kind)) with (at_yield (generator_ kind) (g0 false)); apply (proj1 (derives_yield _)).
  - rewrite toks_wrapped. cbn [app]. rewrite <- app_assoc. production 0. terminal. nonterminal; [apply params_derived; assumption|]. terminal. apply d_end.
  - apply block_derived. apply derived_statements, formed_with_directives, W.
Qed.
Lemma declaration_rest kind x f m : named x -> function_formed kind f ->
  derives (g0 false) (NFunctionDeclarationRest false (generator_ kind)) (toks (items_name x :: items_function f) ++ m) m.
Proof.
  intros V F. rewrite toks_cons. cbn [app]. production 0. apply d_token; [apply bindable_name; auto|]. nonterminal; [apply (rest_derived kind), F|apply d_end].
Qed.
Lemma function_derived kind x f m : named x -> function_formed kind f ->
  derives (g0 false) NFunctionDeclaration (toks (items_kind kind ++ items_name x :: items_function f) ++ m) m.
Proof.
  intros V F. pose proof (declaration_rest kind x f m V F) as X. rewrite toks_app, <- app_assoc.
  assert (C : no_pair [K "function"] true [K "function"] (g0 false) (kw Fk_Function :: toks (items_name x :: items_function f) ++ m) = true).
  { rewrite toks_cons. unfold no_pair, pair. cbn [app next hd snd fst tl]. replace (one_of (g0 false) [K "function"] (tok_of (items_name x))) with false; [reflexivity|].
    unfold one_of. cbn [existsb matches items_name tok_of orb]. destruct (beqb _ _) eqn:B; [|reflexivity]. apply beqb_eq in B. destruct V as (_ & V & _). rewrite B in V. discriminate V. }
  destruct F as ([-> | ->] & F); cbn [items_kind generator_] in *; rewrite toks_word.
  - change (toks []) with (@nil lookahead). cbn [app]. production 2. cond; [exact C|]. terminal. cond; [reflexivity|]. nonterminal; [exact X|apply d_end].
  - rewrite toks_mark. change (toks []) with (@nil lookahead). cbn [app pun]. production 1. cond; [reflexivity|]. terminal. terminal. nonterminal; [exact X|apply d_end].
Qed.
Lemma anonymous_derived kind f m : function_formed kind f ->
  derives (at_default (g0 false)) NFunctionDeclaration (toks (items_kind kind ++ items_function f) ++ m) m.
Proof.
  intros F. pose proof (proj1 derives_default _ _ _ _ (rest_derived kind f m F)) as X. destruct f as [params last ds body]. rewrite toks_app, <- app_assoc.
  assert (Y : derives (at_default (g0 false)) (NFunctionDeclarationRest false (generator_ kind)) (toks (items_function (Function_parts params last ds body)) ++ m) m).
  { production 1. cond; [reflexivity|]. cond; [reflexivity|]. nonterminal; [exact X|apply d_end]. }
  destruct F as ([-> | ->] & F); cbn [items_kind generator_] in *; rewrite toks_word.
  - change (toks []) with (@nil lookahead). cbn [app]. production 2. cond; [reflexivity|]. terminal. cond; [reflexivity|]. nonterminal; [exact Y|apply d_end].
  - rewrite toks_mark. change (toks []) with (@nil lookahead). cbn [app pun]. production 1. cond; [reflexivity|]. terminal. terminal. nonterminal; [exact Y|apply d_end].
Qed.

Lemma specifier_derived n x m : n = NImportSpecifier \/ n = NExportSpecifier -> (exists p, m = p /\ (exists m', p = pp Comma :: m' \/ p = pp CurlyClose :: m')) ->
  derives (g0 false) n (toks (items_specifier x) ++ m) m.
Proof.
  intros N (p & <- & m' & M). destruct x as [x|x y]; cbn [items_specifier]; flat.
  - destruct N as [->| ->]; production 1; terminal; (cond; [destruct M as [->| ->]; reflexivity|apply d_end]).
  - destruct N as [->| ->]; production 0; terminal; terminal; terminal; apply d_end.
Qed.
Definition list_of (n : nt) : nt := match n with NImportSpecifier => NImportSpecifiers | _ => NExportSpecifiers end.
Lemma specifiers_derived n l last m : n = NImportSpecifier \/ n = NExportSpecifier ->
  derives (g0 false) (list_of n) (toks (concat (map (fun x => items_specifier x ++ [Mark Fp_Comma]) l) ++ items_option items_specifier last) ++ pp CurlyClose :: m) (pp CurlyClose :: m).
Proof.
  intros N. induction l as [|x l IH]; cbn [map concat app].
  - destruct last as [x|]; cbn [items_option].
    + assert (X := specifier_derived n x (pp CurlyClose :: m) N (ex_intro _ _ (conj eq_refl (ex_intro _ m (or_intror eq_refl))))).
      destruct N as [->| ->]; production 1; (nonterminal; [exact X|]); (cond; [reflexivity|apply d_end]).
    + destruct N as [->| ->]; production 2; (cond; [reflexivity|apply d_end]).
  - rewrite <- !app_assoc. rewrite toks_app, <- app_assoc. cbn [app]. rewrite toks_mark. cbn [app pun].
    assert (X := specifier_derived n x (pp Comma :: toks (concat (map (fun x => items_specifier x ++ [Mark Fp_Comma]) l) ++ items_option items_specifier last) ++ pp CurlyClose :: m) N
      (ex_intro _ _ (conj eq_refl (ex_intro _ _ (or_introl eq_refl))))).
    destruct N as [->| ->]; production 0; (nonterminal; [exact X|]); terminal; (nonterminal; [exact IH|apply d_end]).
Qed.
Lemma toks_specifiers l last m : toks (items_specifiers l last) ++ m =
  pp CurlyOpen :: toks (concat (map (fun x => items_specifier x ++ [Mark Fp_Comma]) l) ++ items_option items_specifier last) ++ pp CurlyClose :: m.
Proof. unfold items_specifiers. rewrite toks_curlied. cbn [app]. rewrite <- app_assoc. reflexivity. Qed.
Lemma import_from_derived src m : derives (g0 false) NImportFrom (toks (items_from src) ++ m) m.
Proof. unfold items_from. flat. production 0. terminal. terminal. apply d_semicolon, d_end. Qed.
Lemma names_namespace y src m : named y -> derives (g0 false) NImportNames (toks (items_namespace y ++ items_from src) ++ m) m.
Proof.
  intros V. rewrite toks_app, <- app_assoc. unfold items_namespace. rewrite toks_mark, toks_word, toks_cons. cbn [app pun]. production 0. terminal. terminal.
  apply d_token; [apply bindable_name; auto|]. nonterminal; [apply import_from_derived|apply d_end].
Qed.
Lemma names_specifiers l last src m : derives (g0 false) NImportNames (toks (items_specifiers l last ++ items_from src) ++ m) m.
Proof.
  rewrite toks_app, <- app_assoc, toks_specifiers. production 1. terminal. nonterminal; [apply (specifiers_derived NImportSpecifier); auto|]. terminal.
  nonterminal; [apply import_from_derived|apply d_end].
Qed.

(** An item in front of [m]; an exported declaration takes a second semicolon. *)
Definition not_declaring (i : module_item) : Prop := match i with Mi_export_declaration _ _ _ => False | _ => True end.
Definition item_follows (i : module_item) (m : tokens) : Prop :=
  match i with Mi_statement s => in_place false s m | _ => True end.
Lemma module_item_derived i m : formed_items [i] -> not_declaring i -> item_follows i m ->
  derives (g0 false) NModuleItem (toks (items_module_item i) ++ m) m.
Proof.
  intros (F & _) D M. destruct i as [s|x src|x y src|y src|x l last src|l last src|e|kind ds last|l last|l last src|src| | | | |kind x f| |kind x f]; cbn [items_module_item]; try contradiction F; try contradiction D.
  - destruct F as (F & _). production 0. nonterminal; [|apply d_end]. apply item_derived; auto. intros L. apply derived_statements; auto.
  - destruct F as (V & _). rewrite toks_word, toks_cons. cbn [app]. production 1. cond; [reflexivity|]. nonterminal; [|apply d_end]. production 2. terminal.
    apply d_token; [apply bindable_name; auto|]. cond; [reflexivity|]. nonterminal; [apply import_from_derived|apply d_end].
  - destruct F as (V & V' & _). rewrite toks_word, toks_cons, toks_mark. cbn [app]. production 1. cond; [reflexivity|]. nonterminal; [|apply d_end]. production 1. terminal.
    apply d_token; [apply bindable_name; auto|]. terminal. nonterminal; [apply names_namespace, V'|apply d_end].
  - destruct F as (V & _). rewrite toks_word. cbn [app]. production 1. cond; [reflexivity|]. nonterminal; [|apply d_end]. production 3. terminal.
    cond; [reflexivity|]. nonterminal; [apply names_namespace, V|apply d_end].
  - destruct F as (V & _). rewrite toks_word, toks_cons, toks_mark. cbn [app]. production 1. cond; [reflexivity|]. nonterminal; [|apply d_end]. production 1. terminal.
    apply d_token; [apply bindable_name; auto|]. terminal. nonterminal; [apply names_specifiers|apply d_end].
  - rewrite toks_word. cbn [app]. production 1. cond; [reflexivity|]. nonterminal; [|apply d_end]. production 3. terminal.
    cond; [reflexivity|]. nonterminal; [apply names_specifiers|apply d_end].
  - rewrite !toks_word, toks_app. cbn [app]. rewrite <- app_assoc. production 2. cond; [reflexivity|]. nonterminal; [|apply d_end]. production 2. terminal. terminal.
    pose proof (proj1 items_suited e F Pr_Assignment) as S. destruct (listed_start _ (proj1 S)) as (t & a' & Q & O & _).
    cond.
    { rewrite Q. destruct O as (_ & A & _ & B & _). unfold both, no_function_start, async_function, pair, no. cbn [app next hd snd].
      change (one_of (g0 false) [K "async"] t) with (one_of (g0 true) [K "async"] t). rewrite A. cbn [andb negb].
      assert (X : one_of (g0 false) [K "function"] t = false /\ one_of (g0 false) [K "class"] t = false).
      { unfold one_of, declaration_keyword in *. cbn [existsb] in *. change (g0 false) with no_parameters. rewrite !orb_false_iff in B. rewrite !orb_false_r. tauto. }
      destruct X as (-> & ->). reflexivity. }
    nonterminal; [cbn [fst snd]|apply d_semicolon, d_end]. change (set_flag (set_flag (g0 false) FDefault true) FIn true) with (at_default (g0 true)).
    apply (proj1 derives_default), listed_expression; [apply S|apply headed_mark; cbn; auto 20].
  - rewrite toks_word, toks_app. cbn [app]. rewrite <- app_assoc, toks_specifiers. production 2. cond; [reflexivity|]. nonterminal; [|apply d_end]. production 8. terminal. terminal.
    nonterminal; [apply (specifiers_derived NExportSpecifier); auto|]. terminal. cond; [reflexivity|]. apply d_semicolon, d_end.
  - rewrite toks_word, toks_app. cbn [app]. rewrite <- app_assoc, toks_specifiers. production 2. cond; [reflexivity|]. nonterminal; [|apply d_end]. production 7. terminal. terminal.
    nonterminal; [apply (specifiers_derived NExportSpecifier); auto|]. terminal. unfold items_from. flat. terminal. terminal. apply d_semicolon, d_end.
  - unfold items_from. flat. production 2. cond; [reflexivity|]. nonterminal; [|apply d_end]. production 6. terminal. terminal. terminal. terminal. apply d_semicolon, d_end.
  - destruct F as (V & F). pose proof (function_derived kind x f m V F) as X. production 0. nonterminal; [|apply d_end]. production 0. nonterminal; [|apply d_end].
    production 1. cond; [destruct F as ([-> | ->] & _); reflexivity|]. nonterminal; [exact X|apply d_end].
  - destruct F as (V & F). rewrite !toks_word. cbn [app]. production 2. cond; [reflexivity|]. nonterminal; [|apply d_end]. production 0. terminal. terminal.
    nonterminal; [cbn [fst snd]|apply d_end]. change (set_flag (g0 false) FDefault true) with (at_default (g0 false)).
    destruct x as [x|]; cbn [items_option app optional] in *; [apply (proj1 derives_default), function_derived; assumption|apply anonymous_derived, F].
Qed.
Lemma export_declaration_derived kind ds last m r : Forall (declared kind) ds -> declared kind last ->
  (m = pp Semicolon :: r \/ m = r /\ exists m', m = eof :: m') ->
  derives (g0 false) NModuleItem (toks (word Fk_Export :: items_declaration kind ds last) ++ m) r.
Proof.
  intros D L M. rewrite toks_word. cbn [app].
  assert (S : derives_seq (g0 false) [Semi false] m r).
  { destruct M as [->|(-> & m' & ->)]; [apply d_semicolon, d_end|]. apply d_inserted; [discriminate|reflexivity|apply d_end]. }
  production 2. cond; [unfold items_declaration; destruct kind; reflexivity|]. nonterminal; [|apply d_end].
  destruct kind.
  - production 3. terminal. nonterminal; [apply variable_statement; assumption|exact S].
  - production 4. terminal. nonterminal; [apply (declaration_node D_let); try assumption; discriminate|exact S].
  - production 5. terminal. nonterminal; [apply (declaration_node D_const); try assumption; discriminate|exact S].
Qed.

Lemma item_leads i : formed_items [i] -> exists t x, toks (items_module_item i) = (false, t) :: x /\ one_of no_parameters [K "else"; K "finally"] t = false.
Proof.
  intros (F & _). destruct i; cbn [items_module_item]; try (eexists _, _; split; reflexivity); try contradiction F; [|destruct F as (_ & [-> | ->] & _); eexists _, _; split; reflexivity].
  destruct (statement_leads s (proj1 F) false) as (t & x & Q & N & _). exists t, x. auto.
Qed.
Lemma items_derived l : formed_items l -> derives no_parameters NModuleItems (toks (concat (map items_module_item l)) ++ [eof]) [eof].
Proof.
  remember (length l) as n eqn:Q. assert (B : length l <= n) by lia. clear Q. revert l B. induction n as [|n IH]; intros [|i l] B F; cbn [map concat length] in *; try lia;
    try (production 1; cond; [reflexivity|apply d_end]).
  pose proof (formed_item_alone _ _ F) as Fi. destruct F as (F0 & F). rewrite toks_app, <- app_assoc.
  assert (C : not_declaring i \/ exists kind ds last, i = Mi_export_declaration kind ds last) by (destruct i; eauto 6; left; exact I).
  destruct C as [C|(kind & ds & last & ->)].
  - production 0. nonterminal; [apply module_item_derived; [exact Fi|exact C|]|nonterminal; [apply IH; [lia|exact F]|apply d_end]].
    destruct i as [s| | | | | | | | | | | | | | | | |]; try exact I. cbn [item_follows]. split.
    + destruct l as [|j l]; [split; [|intros _]; reflexivity|]. destruct (item_leads j (formed_item_alone _ _ F)) as (t & x & Q & N).
      cbn [map concat]. rewrite toks_app, Q. apply (leads_after true [(false, t)] _ false). exists t, []. split; [reflexivity|]. split; [exact N|discriminate].
    + intros K. destruct F0 as (_ & T). rewrite (T K). exists []. right. reflexivity.
  - destruct F0 as (D & L & [->|(l' & ->)]).
    + production 0. nonterminal; [apply export_declaration_derived; [exact D|exact L|]; right; split; [reflexivity|exists []; reflexivity]|].
      nonterminal; [apply (IH []); [cbn; lia|exact I]|apply d_end].
    + production 0. nonterminal; [apply export_declaration_derived; [exact D|exact L|]; left; reflexivity|].
      nonterminal; [apply (IH l'); [cbn [length] in B; lia|apply F]|apply d_end].
Qed.
Fixpoint directive_items (ds : list bytes) (l : list module_item) : list module_item :=
  match ds with [] => l | d :: ds' => Mi_statement (St_expression (E_string d (Some d))) :: directive_items ds' l end.
Lemma module_program ds l : formed_module ds l -> program (toks (items_module ds l) ++ [eof]).
Proof.
  intros (D & F). replace (items_module ds l) with (concat (map items_module_item (directive_items ds l))).
  - production 0. apply d_nonterminal with (m := [eof]); [cbn [changed fold_left]|terminal; apply d_end]. apply items_derived.
    induction D as [|d ds W _ IH]; cbn [directive_items]; [exact F|]. split; [split; [exact W|discriminate]|exact IH].
  - unfold items_module, items_directives. induction ds as [|d ds IH]; [reflexivity|]. cbn [directive_items map concat]. inversion D; subst. rewrite IH by assumption. reflexivity.
Qed.

Theorem module_accepted E r n ds l : formed_module ds l ->
  length (display (fmt_module ds l)) < r -> 20 * length (display (fmt_module ds l)) + 80 <= n ->
  parse_root E r n (display (fmt_module ds l)) = Accepted.
Proof.
  intros W R N. destruct (module_sound ds l W) as (G & A). destruct (spells_all _ G) as (S & F).
  apply (formatted_accepted E r n (fmt_module ds l) (map tok_of (items_module ds l))); rewrite ?(displayed_module ds l W); auto; [apply settled, F|].
  rewrite map_map. apply module_program, W.
Qed.
