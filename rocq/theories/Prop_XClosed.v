(** Theorems about expressions that begin at the root (uxpath/xast.py). *)
From Coq Require Import ZArith.
From Verif Require Import PyStr XTree Path XPath XPathSpec XPathFun Lalr XGram XGramSpec XLex XText XQuery XQueryFacts XClosedSpec XClosedFacts Prop_XSyntax.

(** ** C142 *)
(** Every element of a document gives the same results, in the same order, and ends in the same way. *)
Theorem C142_elements w n e c c' : no_empty_text w -> closed true e -> element_item w c -> element_item w c' -> eval w n e c = eval w n e c'.
Proof. intros F K C C'. exact (closed_same w F true n e K c c' (or_introl C) (or_introl C')). Qed.
Print Assumptions C142_elements.
(** Without unions, the root node as well. *)
Theorem C142_root w n e c : no_empty_text w -> closed false e -> element_item w c -> eval w n e c = eval w n e IRoot.
Proof. intros F K C. exact (closed_same w F false n e K c IRoot (or_introl C) (or_intror (conj eq_refl eq_refl))). Qed.
Print Assumptions C142_root.
(** So it does not matter which element of the document is asked. *)
Theorem C142_asked w v n s e c c' : no_empty_text w -> xparse w = uxpath_parse v -> expression v s e -> closed false e ->
  element_item w c -> element_item w c' -> xml_xpath w n c (Text s) = xml_xpath w n c' (Text s).
Proof.
  intros F X E K C C'. assert (A : forall c, element_item w c -> document_node w c) by (intros i (a & m & ats & ks & -> & H); destruct a; cbn [document_node]; [cbn in H; injection H as ->; eauto|unfold node_at; rewrite H; discriminate]).
  rewrite (xml_xpath_text w v n c s e X (A c C) E), (xml_xpath_text w v n c' s e X (A c' C') E).
  assert (B : forall c, element_item w c -> eval w n e (start_item c) = eval w n e IRoot).
  { intros i Ci. destruct Ci as (a & m & ats & ks & -> & H). destruct a as [|k a]; [reflexivity|]. apply C142_root; [exact F|exact K|]. exists (k :: a), m, ats, ks. auto. }
  now rewrite (B c C), (B c' C').
Qed.
Print Assumptions C142_asked.
(** The results of paths, unions and filters of them, at a node, are nodes. *)
Theorem C142_nodes w n e c : nodes_only e = true -> is_node c = true -> forall i, In i (fst (eval w n e c)) -> is_node i = true.
Proof. intros N C i H. pose proof (nodes_eval w n e N c C) as A. unfold nodes in A. rewrite Forall_forall in A. exact (A i H). Qed.
Print Assumptions C142_nodes.
Definition small : env := some_env (XE (lit "r") [] [XE (lit "a") [] [XT (lit "x")]; XE (lit "b") [] []]).
Lemma small_full : no_empty_text small.
Proof.
  intros a s H -> . assert (N : forall k, nth_error (@nil xtree) k = None) by (intros []; reflexivity).
  destruct a as [|[|[|k]] a]; [discriminate| | |]; cbn in H; rewrite ?N in H; try discriminate.
  - destruct a as [|[|k] a]; [discriminate| |]; cbn in H; rewrite ?N in H; try discriminate. destruct a; cbn in H; discriminate.
  - destruct a as [|k a]; [discriminate|]; cbn in H; rewrite ?N in H; discriminate.
Qed.
(** Finding: a path after something that counts as false, like [0/.], depends on the element. *)
Theorem C142_falsy_refuted : exists w n l r c c', no_empty_text w /\ closed true l /\ element_item w c /\ element_item w c' /\
  eval w n (EBin l OpPath r) c <> eval w n (EBin l OpPath r) c'.
Proof.
  exists small, 5, (ELit (LInt 0)), (EAbbrev false), (INode [0]), (INode [1]).
  split; [exact small_full|]. split; [exact I|]. split; [exists [0]; do 3 eexists; split; reflexivity|]. split; [exists [1]; do 3 eexists; split; reflexivity|]. vm_compute. discriminate.
Qed.
Print Assumptions C142_falsy_refuted.
(** Finding: a union with the root node cannot be asked for at an element. *)
Theorem C142_union_refuted : exists w n e c, no_empty_text w /\ closed true e /\ element_item w c /\ eval w n e c <> eval w n e IRoot.
Proof.
  exists small, 5, (EBin (EAbs false None) OpUnion (EAbs false None)), (INode [0]).
  split; [exact small_full|]. split; [repeat split|]. split; [exists [0]; do 3 eexists; split; reflexivity|]. vm_compute. discriminate.
Qed.
Print Assumptions C142_union_refuted.
Example C142_case : let s := lit "count(//*[starts-with(., 'x')]/..)" in exists e, expression plain_env s e /\ closed false e /\
  no_empty_text small /\ element_item small (INode [0]) /\ element_item small (INode []) /\ xparse small = uxpath_parse plain_env /\
  xml_xpath small 9 (INode [1]) (Text s) = ([IInt 2], Done) /\
  eval small 9 (EAbs true (Some (EStep AxChild TStar))) (INode [1]) = ([INode []; INode [0]; INode [1]], Done).
Proof.
  cbv zeta. eexists. split; [apply uxpath_parse_ok; vm_compute; reflexivity|]. split; [repeat split; discriminate|]. split; [exact small_full|].
  split; [exists [0]; do 3 eexists; split; reflexivity|]. split; [exists []; do 3 eexists; split; reflexivity|]. split; [reflexivity|].
  split; vm_compute; reflexivity.
Qed.
