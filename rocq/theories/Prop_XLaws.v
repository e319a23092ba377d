(** Theorems about expressions that give the same (uxpath/xast.py, uxpath/functions.py). *)
From Coq Require Import ZArith.
From Verif Require Import PyStr XTree Path XPath XPathSpec XPathFun Lalr XGram XGramSpec XLex XText XQuery XQueryFacts XClosedSpec XLawsSpec XLawsFacts Prop_XSyntax Prop_XClosed.

(** ** C143 *)
(** Steps may be grouped in any way. *)
Theorem C143_path_groups w a b r : no_empty_text w -> nodes_only a = true -> nodes_only b = true ->
  alike_at_nodes w (path (path a b) r) (path a (path b r)) /\ alike_at_nodes w (deep (path a b) r) (path a (deep b r)).
Proof. intros F A B. split; apply (assoc w F); auto. Qed.
Print Assumptions C143_path_groups.
(** "." changes nothing. *)
Theorem C143_self w a : no_empty_text w -> alike_at_nodes w (path (EAbbrev false) a) a /\ (nodes_only a = true -> alike_at_nodes w (path a (EAbbrev false)) a).
Proof. intros F. split; [exact (self_path w F a)|exact (path_self w F a)]. Qed.
Print Assumptions C143_self.
(** A path after a sequence; sequences in sequences.  These hold at values too, and with exceptions. *)
Theorem C143_sequence w l r : alike w (path (ESeq l) r) (ESeq (map (fun a => path a r) l)) /\ alike w (deep (ESeq l) r) (ESeq (map (fun a => deep a r) l)).
Proof. split; [exact (seq_path w l r)|exact (seq_deep w l r)]. Qed.
Print Assumptions C143_sequence.
Theorem C143_flat w l l1 l2 : alike w (ESeq (l1 ++ ESeq l :: l2)) (ESeq (l1 ++ l ++ l2)).
Proof. exact (seq_flat w l l1 l2). Qed.
Print Assumptions C143_flat.
(** Truth: double negation, and De Morgan's laws with the order of evaluation and the exceptions. *)
Theorem C143_not w a : alike w (negation (negation a)) (bool_of a) /\ alike w (negation (bool_of a)) (negation a) /\ alike w (bool_of (negation a)) (negation a) /\ alike w (bool_of (bool_of a)) (bool_of a).
Proof. exact (conj (not_not w a) (conj (proj1 (not_boolean w a)) (conj (proj2 (not_boolean w a)) (boolean_boolean w a)))). Qed.
Print Assumptions C143_not.
Theorem C143_de_morgan w a b : alike w (negation (either (bool_of a) (bool_of b))) (both (negation a) (negation b)) /\
  alike w (negation (both (bool_of a) (bool_of b))) (either (negation a) (negation b)).
Proof. split; [exact (not_or w a b)|exact (not_and w a b)]. Qed.
Print Assumptions C143_de_morgan.
(** Two predicates that are truth values are one with "and". *)
Theorem C143_predicates w e a b : alike w (EPred e [bool_of a; bool_of b]) (EPred e [both (bool_of a) (bool_of b)]).
Proof. exact (two_predicates w e a b). Qed.
Print Assumptions C143_predicates.
(** The operands of unions may be exchanged and grouped, if none of them raises. *)
Theorem C143_union_swap w n a b c : snd (eval w n a c) = Done -> snd (eval w n b c) = Done -> eval w n (union_of a b) c = eval w n (union_of b a) c.
Proof. exact (union_swap w n a b c). Qed.
Print Assumptions C143_union_swap.
Theorem C143_union_groups w n a b d c : snd (eval w n a c) = Done -> snd (eval w n b c) = Done -> snd (eval w n d c) = Done ->
  eval w n (union_of (union_of a b) d) c = eval w n (union_of a (union_of b d)) c.
Proof. exact (union_assoc w n a b d c). Qed.
Print Assumptions C143_union_groups.
(** Findings.  Grouping matters after a value that counts as false: a/0/. and a/(0/.). *)
Theorem C143_groups_refuted : exists w a b r, no_empty_text w /\ nodes_only a = true /\ ~ alike_at_nodes w (path (path a b) r) (path a (path b r)).
Proof.
  exists small, (kid "a"), (ELit (LInt 0)), (EAbbrev false). split; [exact small_full|]. split; [reflexivity|]. intros H. specialize (H 5 (INode []) eq_refl). vm_compute in H. discriminate H.
Qed.
Print Assumptions C143_groups_refuted.
(** So it does after //: a//(b//c) leaves out what (a//b)//c finds. *)
Theorem C143_deep_refuted : exists w a b r, no_empty_text w /\ nodes_only a = true /\ nodes_only b = true /\ ~ alike_at_nodes w (deep (deep a b) r) (deep a (deep b r)).
Proof.
  exists (some_env (XE (lit "r") [] [XE (lit "a") [] [XE (lit "x") [] [XE (lit "b") [] [XE (lit "c") [] []]]]])), (kid "a"), (kid "b"), (kid "c").
  split.
  - intros a s H ->. assert (N : forall k, nth_error (@nil xtree) k = None) by (intros []; reflexivity).
    do 5 (destruct a as [|[|k] a]; cbn in H; rewrite ?N in H; try discriminate H).
  - split; [reflexivity|]. split; [reflexivity|]. intros H. specialize (H 9 (INode []) eq_refl). vm_compute in H. discriminate H.
Qed.
Print Assumptions C143_deep_refuted.
(** De Morgan's law needs boolean(): "or" fails at an operand without results, not() does not. *)
Theorem C143_de_morgan_refuted : exists w a b, ~ alike w (negation (either a b)) (both (negation a) (negation b)).
Proof. exists small, (kid "z"), (kid "a"). intros H. specialize (H 5 (INode [])). vm_compute in H. discriminate H. Qed.
Print Assumptions C143_de_morgan_refuted.
(** Two predicates with numbers are not one with "and". *)
Theorem C143_predicates_refuted : exists w e a b, ~ alike w (EPred e [a; b]) (EPred e [both a b]).
Proof. exists small, (EStep AxChild TStar), (ELit (LInt 1)), (ELit (LInt 2)). intros H. specialize (H 5 (INode [])). vm_compute in H. discriminate H. Qed.
Print Assumptions C143_predicates_refuted.
(** A union with itself has everything twice. *)
Theorem C143_twice_refuted : exists w n a c, snd (eval w n a c) = Done /\ eval w n (union_of a a) c <> eval w n a c.
Proof. exists small, 5, (kid "a"), (INode []). split; [reflexivity|]. vm_compute. discriminate. Qed.
Print Assumptions C143_twice_refuted.
Example C143_case : no_empty_text small /\ nodes_only (EStep AxChild TStar) = true /\
  eval small 5 (path (path (EStep AxChild TStar) (EAbbrev true)) (kid "b")) (INode []) = ([INode [1]; INode [1]], Done) /\
  eval small 5 (union_of (kid "b") (kid "a")) (INode []) = ([INode [0]; INode [1]], Done) /\
  eval small 5 (both (negation (kid "z")) (negation (kid "y"))) (INode []) = ([IBool true], Done) /\
  parse_text plain_env (lit "not(boolean(a) or boolean(b))") = POk (negation (either (bool_of (kid "a")) (bool_of (kid "b")))) /\
  parse_text plain_env (lit "(a, b)/c") = POk (path (ESeq [kid "a"; kid "b"]) (kid "c")) /\
  parse_text plain_env (lit "a/b/c") = POk (path (path (kid "a") (kid "b")) (kid "c")).
Proof. split; [exact small_full|]. repeat split; vm_compute; reflexivity. Qed.
