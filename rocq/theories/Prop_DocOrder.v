(** Document order numbers of union expressions: C111. *)
From Verif Require Import PyStr Parser XTree Heap Builder HeapSpec RootCache RootSpec DocOrder DocOrderSpec DocOrderFacts DocOrderInv DocOrderUse DocOrderCase.

(** ** C111 *)
Theorem C111_order h v c r : numbered h v -> tree_of h c r ->
  forall v2 sel, later h (prepare h v c) v2 -> (forall i, In i sel -> within h r i) ->
    exists out, arrange v2 (map DNode sel) = Some (map DNode out) /\ Permutation sel out /\ in_document_order h out.
Proof. exact (history_order h v c r). Qed.
Print Assumptions C111_order.
Theorem C111_root h v q r : numbered h v -> tree_of h (DRoot q) r ->
  forall v2 sel, later h (prepare h v (DRoot q)) v2 -> (forall x, In x sel -> x = DRoot q \/ exists i, x = DNode i /\ within h r i) ->
    exists out, arrange v2 sel = Some out /\ Permutation sel out /\ StronglySorted (with_root h q) out.
Proof. exact (history_root h v q r). Qed.
Print Assumptions C111_root.
Theorem C111_fresh h v c r : well_linked h -> tree_of h c r -> number_of v c = None -> forall sel, (forall i, In i sel -> within h r i) ->
  exists v' out, union h v c (map DNode sel) = (v', Some (map DNode out)) /\ Permutation sel out /\ in_document_order h out.
Proof. exact (fresh_order h v c r). Qed.
Print Assumptions C111_fresh.
Theorem C111_strict h r i j : well_linked h -> is_elem h r -> parent_is h r None -> within h r i -> within h r j -> i <> j ->
  (comes_before h i j /\ ~ comes_before h j i) \/ (comes_before h j i /\ ~ comes_before h i j).
Proof. exact (order_strict h r i j). Qed.
Print Assumptions C111_strict.
Theorem C111_new h v c r i h' sel : numbered h v -> tree_of h (DNode c) r -> is_elem h c -> hp h i = None -> In (DNode i) sel ->
  union h' (prepare h v (DNode c)) (DNode c) sel = (prepare h v (DNode c), None).
Proof. exact (new_element h v c r i h' sel). Qed.
Print Assumptions C111_new.
Theorem C111_other h v c r x sel : numbered h v -> tree_of h c r -> In x sel -> (exists i s p, x = DNode i /\ is_text h i s /\ parent_is h i (Some p)) \/ (exists i, x = DAttr i) ->
  snd (union h v c sel) = None.
Proof. exact (other_items h v c r x sel). Qed.
Print Assumptions C111_other.
Theorem C111_moved_refuted : exists h v h' c r sel out, numbered h v /\ edits h h' /\ tree_of h' c r /\ (forall i, In i sel -> within h' r i) /\
  union h' v c (map DNode sel) = (v, Some (map DNode out)) /\ ~ in_document_order h' out.
Proof. exact moved_stale. Qed.
Print Assumptions C111_moved_refuted.
Theorem C111_inserted_refuted : exists h v h' c r i, numbered h v /\ edits h h' /\ tree_of h' c r /\ within h' r i /\ union h' v c [DNode i] = (v, None).
Proof. exact inserted_fails. Qed.
Print Assumptions C111_inserted_refuted.
Theorem C111_history_refuted : exists h v v' c sel r, numbered h v /\ numbered h v' /\ tree_of h c r /\
  snd (union h v c sel) = None /\ snd (union h v' c sel) = Some sel.
Proof. exact root_depends. Qed.
Print Assumptions C111_history_refuted.
Theorem C111_root_refuted : exists h v q, numbered h v /\ tree_of h (DRoot q) (docelem q) /\
  union h v (DRoot q) [DNode (docelem q); DRoot q] = (v, Some [DNode (docelem q); DRoot q]).
Proof. exact root_after. Qed.
Print Assumptions C111_root_refuted.
Theorem C111_loose h v i n : loose_text h i -> snd (union h v (DNode i) (repeat (DNode i) n)) = Some (repeat (DNode i) n).
Proof. exact (loose_union h v i n). Qed.
(** [<a><b/><c/></a>] after a union at [a]: one at [a], one at [b] after removing [b], and one
    at the new element after inserting it. *)
Example C111_case : numbered s1 no_numbers /\ numbered s2 v0 /\ numbered s3 v0 /\ tree_of s2 (DNode 0) 0 /\ within s2 0 2 /\
  snd (union s2 v0 (DNode 0) [DNode 2; DNode 1; DNode 0; DNode 2]) = Some [DNode 0; DNode 1; DNode 2; DNode 2] /\
  snd (union s3 v0 (DNode 0) [DNode 2; DNode 0]) = Some [DNode 0; DNode 2] /\
  tree_of s5 (DNode 3) 0 /\ number_of v0 (DNode 3) = None /\
  snd (union s5 v0 (DNode 3) [DNode 2; DNode 3; DNode 1]) = Some [DNode 1; DNode 3; DNode 2] /\
  snd (union s2 no_numbers (DRoot q0) [DNode 0; DRoot q0]) = Some [DRoot q0; DNode 0] /\
  hp s2 4 = None /\ is_elem s2 0.
Proof.
  split; [apply (nu_insert s0 no_numbers 0 1 (-1)); [apply nu_start, s0_linked|elem|par|apply not_below; [apply s0_linked|par|discriminate]|vm_compute; reflexivity|intros ? ? ? ?; reflexivity|intros ? ? ? ?; reflexivity]|].
  split; [exact v0_numbered|]. split; [apply (nu_edit s2 v0 s3 v0_numbered); eapply (qu_remove_elem s2 0 1); [elem|vm_compute; reflexivity]|].
  split; [apply top0; [par|elem]|]. split; [split; [|elem]; apply (be_kid s2 0 0 2); [constructor|]; eexists; split; [vm_compute; reflexivity|]; cbn; auto|].
  split; [vm_compute; reflexivity|]. split; [vm_compute; reflexivity|].
  split; [split; [split; [|par]|elem]; apply (be_kid s5 0 0 3); [constructor|]; eexists; split; [vm_compute; reflexivity|]; cbn; auto|].
  split; [reflexivity|]. split; [vm_compute; reflexivity|]. split; [vm_compute; reflexivity|]. split; [reflexivity|elem].
Qed.
Print Assumptions C111_loose.
