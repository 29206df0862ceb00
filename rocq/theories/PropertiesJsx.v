(** Displayed JSX elements (properties.jsonl, C66), with a case that meets the hypotheses. *)
From Coq Require Import String List Arith NArith Bool Lia.
From Verif Require Import Base SpecTokens Formatter SpecFormatter Nodes SpecNodes SpecFaithful Jsx SpecJsx JsxText PropertiesNodes.
Import ListNotations.

(** ** C66 JSX elements are displayed as JSX texts for the tree *)
Theorem C66_elements : forall e, formed_element e -> element_text e (display (fmt_element e)).
Proof. exact element_displayed. Qed.
Print Assumptions C66_elements.

(** The name of an attribute right behind a name is displayed without a blank before it. The
    text is then not one for the tree, and, if the attribute has no value, it is the text that
    is displayed for an element with another name and without this attribute. *)
Theorem C66_names_refuted : forall n m v a, formed_name (m, None) ->
  let e v := Element (N_identifier (n, None)) (Pair_attribute (AN_identifier (m, None)) v a) No_children None in
  ~ element_text (e v) (display (fmt_element (e v))) /\
  display (fmt_element (e V_none)) = display (fmt_element (Element (N_identifier (n ++ m, None)) a No_children None)).
Proof. intros n m v a F. split; [exact (together_refused n m v a F)|exact (together_same n m a)]. Qed.
(** The raw text of a text is not displayed, a sequence is displayed as the value of an
    attribute without parentheses, and closing tags of other elements are displayed. *)
Theorem C66_refuted :
  let a : element_name := N_identifier (s2b "a", None) in
  let x := E_binding (s2b "x") None in
  display (fmt_element (Element a No_attributes (C_text (s2b "<") (Some (s2b "&lt;")) No_children) None)) = s2b "<a><</a>" /\
  display (fmt_element (Element a (Spread_attribute x (Pair_attribute (AN_identifier (s2b "b", None)) (V_expression (E_sequence x x)) No_attributes)) No_children None)) =
    s2b "<a{...x}b={x,x}/>" /\
  display (fmt_element (Element a No_attributes No_children (Some (N_identifier (s2b "b", None))))) = s2b "<a></b>".
Proof. vm_compute. repeat split. Qed.
Print Assumptions C66_names_refuted.
Print Assumptions C66_refuted.

(** An element in an element and one as the value of an attribute. *)
Definition jn (s : string) : identifier := (s2b s, None).
Definition jx : expression := E_binding (s2b "x") None.
Definition C66_example : element :=
  Element (N_member (O_identifier (jn "a")) (jn "b-c"))
    (Spread_attribute (E_sequence jx jx) (Pair_attribute (AN_namespaced (jn "d") (jn "e")) (V_string (s2b "f") None)
      (Pair_attribute (AN_identifier (jn "g")) (V_expression (E_conditional jx jx jx))
      (Pair_attribute (AN_identifier (jn "h")) (V_element (Element (N_identifier (jn "i")) No_attributes No_children None))
      (Pair_attribute (AN_identifier (jn "j")) V_none No_attributes)))))
    (C_text (s2b "k l") None (C_empty (C_expression (E_sequence jx jx) (C_spread jx (C_element (Element (N_namespaced (jn "m") (jn "n")) No_attributes No_children (Some (N_namespaced (jn "m") (jn "n"))))
      (C_text (s2b "o") None No_children))))))
    None.
Example C66_case : formed_element C66_example /\
  display (fmt_element C66_example) =
    s2b "<a.b-c{...(x,x)}d:e='f'g={x?x:x}h=<i/>j>k l{}{(x,x)}{...x}<m:n></m:n>o</a.b-c>".
Proof.
  split; [|vm_compute; reflexivity].
  assert (X : formed_expression jx).
  { split; [|reflexivity]. split; [split; [|split; [reflexivity|discriminate]]|discriminate]. cbn. eexists _, _. split; [reflexivity|]. unfold ident_char, digit, lower, upper. split; [lia|split; [lia|constructor]]. }
  assert (N : forall s, In s ["a"; "b-c"; "d"; "e"; "g"; "h"; "i"; "j"; "m"; "n"]%string -> formed_name (jn s)).
  { intros s I. split; [reflexivity|]. cbn [In] in I. decompose [or] I; try contradiction; subst s; eexists _, _; (split; [vm_compute; reflexivity|]);
      unfold ident_char, digit, lower, upper; (split; [lia|split; [lia|repeat constructor; lia]]). }
  assert (D : forall t, In t [s2b "k l"; s2b "o"] -> Forall (fun c => ~ delimiter c) t).
  { intros t I. cbn [In] in I. decompose [or] I; try contradiction; subst t; vm_compute; repeat constructor; intuition discriminate. }
  destruct X as (X1 & X2). unfold C66_example. cbn [formed_element formed_attributes formed_value formed_children formed_element_name formed_attribute_name formed_object].
  repeat split; try (apply N; cbn; auto 20); try (apply D; cbn; auto); try exact X1; try exact X2; try apply X1; try discriminate; auto.
  intros K. vm_compute in K. intuition discriminate.
Qed.
