(** Histories that show what goes wrong. *)
From Verif Require Import PyStr Parser XTree Heap Builder HeapSpec BuilderFacts HeapFacts BuilderMore RootCache RootSpec RootFacts DocOrder DocOrderSpec DocOrderFacts DocOrderInv DocOrderUse.

(** [<a><b/><c/></a>], built by hand: the elements 0, 1 and 2; the element 3 beside it. *)
Definition ok (r : edit_res) : heap := match r with EOk h => h | EExn h _ => h end.
Definition s0 : heap := fst (alloc (fst (alloc (fst (alloc (fst (alloc empty_heap (OElem (lit "a") [] [] None))) (OElem (lit "b") [] [] None))) (OElem (lit "c") [] [] None))) (OElem (lit "d") [] [] None)).
Definition s1 : heap := ok (xml_insert s0 0 (ARef 1) (-1)).
Definition s2 : heap := ok (xml_insert s1 0 (ARef 2) (-1)).
(** [b] moved behind [c]. *)
Definition s3 : heap := ok (xml_remove s2 0 (ARef 1)).
Definition s4 : heap := ok (xml_insert s3 0 (ARef 1) (-1)).
(** The element 3 inserted between the two. *)
Definition s5 : heap := ok (xml_insert s2 0 (ARef 3) 1).

Lemma not_below h i j : well_linked h -> parent_is h j None -> i <> j -> ~ below h i j.
Proof. intros W P Hn B. inversion B as [|? z ? _ C]; subst; [auto|]. eapply no_child_top; eauto. Qed.
Lemma not_below_kid h i j p : well_linked h -> parent_is h j (Some p) -> i <> j -> ~ below h i p -> ~ below h i j.
Proof. intros W P Hn K B. destruct (below_strict h p j (proj1 (proj2 W)) P i B); auto. Qed.
Ltac elem := do 4 eexists; vm_compute; reflexivity.
Ltac par := eexists; split; vm_compute; reflexivity.

Lemma s0_edits : edits empty_heap s0.
Proof.
  eapply eds_cons; [apply (ed_new_elem empty_heap (lit "a") [])|]. eapply eds_cons; [apply (ed_new_elem _ (lit "b") [])|]. eapply eds_cons; [apply (ed_new_elem _ (lit "c") [])|]. eapply eds_cons; [apply (ed_new_elem _ (lit "d") [])|]. apply eds_nil.
Qed.
Lemma s0_linked : well_linked s0. Proof. exact (editing_well_linked s0 s0_edits). Qed.
Lemma e01 : edit s0 s1.
Proof. eapply (ed_insert_elem s0 0 1 (-1)); [elem|par|apply not_below; [apply s0_linked|par|discriminate]|vm_compute; reflexivity]. Qed.
Lemma s1_linked : well_linked s1. Proof. exact (edit_well_linked _ _ s0_linked e01). Qed.
Lemma e12 : edit s1 s2.
Proof. eapply (ed_insert_elem s1 0 2 (-1)); [elem|par|apply not_below; [apply s1_linked|par|discriminate]|vm_compute; reflexivity]. Qed.
Lemma s2_linked : well_linked s2. Proof. exact (edit_well_linked _ _ s1_linked e12). Qed.
Lemma e23 : edit s2 s3.
Proof. eapply (ed_remove_elem s2 0 1); [elem|vm_compute; reflexivity]. Qed.
Lemma s3_linked : well_linked s3. Proof. exact (edit_well_linked _ _ s2_linked e23). Qed.
Lemma e34 : edit s3 s4.
Proof. eapply (ed_insert_elem s3 0 1 (-1)); [elem|par|apply not_below; [apply s3_linked|par|discriminate]|vm_compute; reflexivity]. Qed.
Lemma s4_linked : well_linked s4. Proof. exact (edit_well_linked _ _ s3_linked e34). Qed.
Lemma e25 : edit s2 s5.
Proof. eapply (ed_insert_elem s2 0 3 1); [elem|par|apply not_below; [apply s2_linked|par|discriminate]|vm_compute; reflexivity]. Qed.

Lemma top0 h : parent_is h 0 None -> is_elem h 0 -> tree_of h (DNode 0) 0.
Proof. intros P E. split; [split; [constructor|auto]|auto]. Qed.
Definition v0 : numbers := prepare s2 no_numbers (DNode 0).
Lemma v0_numbered : numbered s2 v0.
Proof. apply (nu_union s2 no_numbers (DNode 0) 0); [apply nu_start, s2_linked|apply top0; [par|elem]]. Qed.

Lemma moved_stale : exists h v h' c r sel out, numbered h v /\ edits h h' /\ tree_of h' c r /\ (forall i, In i sel -> within h' r i) /\
  union h' v c (map DNode sel) = (v, Some (map DNode out)) /\ ~ in_document_order h' out.
Proof.
  exists s2, v0, s4, (DNode 0), 0, [1; 2], [1; 2]. split; [exact v0_numbered|]. split; [eapply eds_cons; [apply e23|]; eapply eds_cons; [apply e34|apply eds_nil]|].
  assert (T : tree_of s4 (DNode 0) 0) by (apply top0; [par|elem]).
  assert (C : forall i, i = 1 \/ i = 2 -> within s4 0 i).
  { intros i Hi. split; [|destruct Hi as [->| ->]; elem]. apply (be_kid s4 0 0 i); [constructor|]. eexists. split; [vm_compute; reflexivity|]. destruct Hi as [->| ->]; cbn; auto. }
  split; [exact T|]. split; [intros i [<-|[<-|[]]]; auto|]. split; [vm_compute; reflexivity|].
  intros S. apply StronglySorted_inv in S as [_ S]. inversion S as [|x l K _]; subst. destruct K as [K|K]; [discriminate K|].
  destruct (index_ok s4 no_numbers (DNode 0) 0 s4_linked T) as (v' & E & (_ & _ & S3) & _).
  assert (L : 2 < 1); [|lia]. apply (S3 1 2 2 1 (C 1 (or_introl eq_refl)) (C 2 (or_intror eq_refl)) K); replace v' with (index_docorder s4 no_numbers (DNode 0)) by (rewrite E; reflexivity); vm_compute; reflexivity.
Qed.

Lemma inserted_fails : exists h v h' c r i, numbered h v /\ edits h h' /\ tree_of h' c r /\ within h' r i /\ union h' v c [DNode i] = (v, None).
Proof.
  exists s2, v0, s5, (DNode 0), 0, 3. split; [exact v0_numbered|]. split; [eapply eds_cons; [apply e25|apply eds_nil]|]. split; [apply top0; [par|elem]|].
  split; [|vm_compute; reflexivity]. split; [|elem]. apply (be_kid s5 0 0 3); [constructor|]. eexists. split; [vm_compute; reflexivity|]. cbn. tauto.
Qed.

(** The root node of the document. *)
Definition q0 : root := mkRoot 0 0.
Lemma root0 h : parent_is h 0 None -> is_elem h 0 -> tree_of h (DRoot q0) 0.
Proof. intros P E. split; [reflexivity|]. split; auto. Qed.
Lemma root_depends : exists h v v' c sel r, numbered h v /\ numbered h v' /\ tree_of h c r /\ snd (union h v c sel) = None /\ snd (union h v' c sel) = Some sel.
Proof.
  exists s2, no_numbers, (prepare s2 no_numbers (DRoot q0)), (DNode 0), [DRoot q0; DNode 1], 0. split; [apply nu_start, s2_linked|].
  split; [apply (nu_union s2 no_numbers (DRoot q0) 0); [apply nu_start, s2_linked|apply root0; [par|elem]]|]. split; [apply top0; [par|elem]|]. split; vm_compute; reflexivity.
Qed.
(** A union at the root node, one at an attribute of [a], and again one at the root node. *)
Lemma root_after : exists h v q, numbered h v /\ tree_of h (DRoot q) (docelem q) /\
  union h v (DRoot q) [DNode (docelem q); DRoot q] = (v, Some [DNode (docelem q); DRoot q]).
Proof.
  exists s2, (prepare s2 (prepare s2 no_numbers (DRoot q0)) (DAttr 0)), q0. split.
  - apply (nu_union s2 _ (DAttr 0) 0); [|split; [split; [constructor|par]|elem]]. apply (nu_union s2 no_numbers (DRoot q0) 0); [apply nu_start, s2_linked|apply root0; [par|elem]].
  - split; [apply root0; [par|elem]|]. vm_compute. reflexivity.
Qed.
