(** Theorems about repr() of nodes and of parsed expressions (tree.py, uxpath/xast.py). *)
From Coq Require Import ZArith.
From Verif Require Import PyStr XTree XPath XPathFun Lalr XGram XGramSpec XLex XText XFind XSerial XRepr XReprSpec XReprFacts Prop_XSyntax.

(** ** C141 *)
(** The braces hold the class and a text that is read as the expression, also where str() is not
    (a - b, a path from the root after "/"); of a negation it is read as a double one. *)
Theorem C141_body w v s e : parse_text v s = POk e -> shown w v e -> (forall l, e <> ELit l) ->
  exists body, framed (expr_repr w e) (kind e) body /\ parse_text v body = POk (match e with ENeg _ => ENeg e | _ => e end).
Proof. exact (repr_body w v s e). Qed.
Print Assumptions C141_body.
Theorem C141_literal w v s l : parse_text v s = POk (ELit l) ->
  exists x, expr_repr w (ELit l) = lit "literal_wrapper: " ++ x /\
    match l with LStr t => x = t | _ => plain w v (ELit l) -> parse_text v x = POk (ELit l) end.
Proof. exact (repr_literal w v s l). Qed.
Print Assumptions C141_literal.
(** Different expressions look different. *)
Theorem C141_distinct w v s s' e e' : parse_text v s = POk e -> parse_text v s' = POk e' -> shown w v e -> shown w v e' ->
  expr_repr w e = expr_repr w e' -> e = e'.
Proof. exact (repr_distinct w v s s' e e'). Qed.
Print Assumptions C141_distinct.
(** Finding: the operator of a negation is written twice. *)
Theorem C141_body_refuted : exists w v s e body, parse_text v s = POk e /\ plain w v e /\ framed (expr_repr w e) (kind e) body /\ parse_text v body <> POk e.
Proof.
  exists (some_env (XT [])), plain_env, (lit "-a"), (ENeg (kid "a")), (lit "- -child::a").
  split; [vm_compute; reflexivity|]. split; [exact I|]. split; [vm_compute; reflexivity|]. vm_compute. discriminate.
Qed.
Print Assumptions C141_body_refuted.
(** Finding: a string literal may look like a number. *)
Theorem C141_distinct_refuted : exists w v s s' e e', parse_text v s = POk e /\ parse_text v s' = POk e' /\ expr_repr w e = expr_repr w e' /\ e <> e'.
Proof.
  exists (some_env (XT [])), plain_env, (lit "12"), (lit "'12'"), (ELit (LInt 12)), (ELit (LStr (lit "12"))).
  repeat split; try (vm_compute; reflexivity). discriminate.
Qed.
Print Assumptions C141_distinct_refuted.
(** An element shows its identity, its name and the number of its children, and nothing else. *)
Theorem C141_element h h' n n' ats ats' ks ks' :
  tree_repr h (XE n ats ks) = tree_repr h' (XE n' ats' ks') <-> h = h' /\ n = n' /\ length ks = length ks'.
Proof. exact (element_repr_iff h h' n n' (length ks) (length ks')). Qed.
Print Assumptions C141_element.
(** A text shows its first ten characters. *)
Theorem C141_text h h' s s' : tree_repr h (XT s) = tree_repr h' (XT s') <-> forall i, i < 10 -> nth_error s i = nth_error s' i.
Proof. exact (text_repr_iff s s'). Qed.
Print Assumptions C141_text.
Theorem C141_attribute n n' x x' : ~ In 61%N n -> ~ In 61%N n' -> (attribute_repr n x = attribute_repr n' x' <-> n = n' /\ x = x').
Proof. exact (attribute_repr_iff n n' x x'). Qed.
Print Assumptions C141_attribute.
(** Nodes of different kinds look different. *)
Theorem C141_kinds h h' n ats ks s a x :
  tree_repr h (XE n ats ks) <> tree_repr h' (XT s) /\ tree_repr h (XE n ats ks) <> attribute_repr a x /\ tree_repr h (XE n ats ks) <> root_repr /\
  tree_repr h (XT s) <> attribute_repr a x /\ tree_repr h (XT s) <> root_repr /\ attribute_repr a x <> root_repr.
Proof. repeat split; discriminate. Qed.
Print Assumptions C141_kinds.
Example C141_case : let w := some_env (XT []) in let e := EBin (kid "a") (OpOther (lit "-")) (EAbs false (Some (kid "b"))) in
  parse_text plain_env (lit "a - /b") = POk e /\ shown w plain_env e /\ expr_repr w e = lit "{binary_expression child::a - /child::b}" /\
  parse_text plain_env (serialize w e) <> POk e /\ ~ In 61%N (lit "href") /\
  tree_repr (-5) (XE (lit "p") [] [XT (lit "x"); XT (lit "y")]) = lit "{uxml.element (-5) ""p"" with 2 children}" /\
  tree_repr 0 (XT (lit "Lorem ipsum dolor")) = lit "{uxml.text ""Lorem ipsu""...}" /\ attribute_repr (lit "href") (lit "#top") = lit "{uxpath.attribute href=""#top""}".
Proof.
  cbv zeta. split; [vm_compute; reflexivity|]. split; [split; exact I|]. split; [vm_compute; reflexivity|]. split; [vm_compute; discriminate|].
  split; [|repeat split; vm_compute; reflexivity]. vm_compute. intros H. repeat (destruct H as [H|H]; [discriminate|]). exact H.
Qed.
