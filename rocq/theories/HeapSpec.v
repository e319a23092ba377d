(** What it means that a heap holds a tree. *)
From Verif Require Import PyStr Parser XTree Heap Builder.

(** [holds h p i t ids]: in [h], the node [i] has [p] as parent and its subtree is [t], with
    the same order, and every node's parent reference is the containing element; [ids]
    are the identities of all its nodes in document order. *)
Inductive holds (h : heap) : option ref -> ref -> xtree -> list ref -> Prop :=
| hd_elem p i n a is ks idss :
    hp h i = Some (OElem n a is p) -> holds_all h i is ks idss ->
    holds h p i (XE n a ks) (i :: idss)
| hd_text p i s : hp h i = Some (OText s p) -> holds h p i (XT s) [i]
with holds_all (h : heap) : ref -> list ref -> list xtree -> list ref -> Prop :=
| ha_nil q : holds_all h q [] [] []
| ha_cons q i is t ts ids idss : holds h (Some q) i t ids -> holds_all h q is ts idss ->
    holds_all h q (i :: is) (t :: ts) (ids ++ idss).

Scheme holds_mut := Minimality for holds Sort Prop
  with holds_all_mut := Minimality for holds_all Sort Prop.

(** [i] is the root of the tree [t], whose nodes are all different objects. *)
Definition holds_tree (h : heap) (i : ref) (t : xtree) : Prop :=
  exists ids, holds h None i t ids /\ NoDup ids.

(** The tree of a possibly incomplete document: the one whose events are those delivered
    followed by the missing end events. *)
Definition is_end (e : event) : Prop := exists n anc, e = EvEnd n anc.
Definition partial_tree (evs : list event) (t : xtree) : Prop :=
  (exists n a ks, t = XE n a ks) /\ exists ends, Forall is_end ends /\ doc_events t = evs ++ ends.

(** Two results of a parse show the same tree, or both none. *)
Definition same_result (s1 : bstate) (r1 : option ref) (s2 : bstate) (r2 : option ref) : Prop :=
  (r1 = None /\ r2 = None) \/
  exists i1 i2 t, r1 = Some i1 /\ r2 = Some i2 /\ holds_tree (bheap s1) i1 t /\ holds_tree (bheap s2) i2 t.

(** Existing objects are unchanged, or reclaimed because nobody refers to them. *)
Definition old_kept (h h' : heap) : Prop := forall j, j < nxt h -> hp h' j = hp h j \/ hp h' j = None.
Definition allocated (h : heap) : Prop := forall j o, hp h j = Some o -> j < nxt h.

(** ** Consistent heaps *)
Definition child (h : heap) (p i : ref) : Prop := exists o, hp h p = Some o /\ In i (okids o).
Definition is_elem (h : heap) (i : ref) : Prop := exists n a ks p, hp h i = Some (OElem n a ks p).
Definition is_text (h : heap) (i : ref) (s : str) : Prop := exists p, hp h i = Some (OText s p).
Definition parent_is (h : heap) (i : ref) (p : option ref) : Prop := exists o, hp h i = Some o /\ oparent o = p.

(** Children and parent links agree, nobody occurs twice, and every live node is the root
    of a finite tree. *)
Definition linked (h : heap) : Prop := forall p i, child h p i <-> parent_is h i (Some p).
Definition no_twice (h : heap) : Prop := forall i o, hp h i = Some o -> NoDup (okids o).
Definition all_trees (h : heap) : Prop := forall i o, hp h i = Some o ->
  exists t ids, holds h (oparent o) i t ids /\ NoDup ids.
Definition well_linked (h : heap) : Prop :=
  (forall i o, hp h i = Some o -> i < nxt h) /\ linked h /\ no_twice h /\ all_trees h.

(** [below h p i]: [i] is [p] or lies in the subtree of [p]. *)
Inductive below (h : heap) : ref -> ref -> Prop :=
| be_refl i : below h i i
| be_kid p j i : below h p j -> child h j i -> below h p i.

(** Python's list.insert position, with -1 for the end. *)
Definition position (index : Z) (len : nat) : nat :=
  if (index =? -1)%Z then len
  else if (index <? 0)%Z then Z.to_nat (Z.max 0 (index + Z.of_nat len))
  else Nat.min (Z.to_nat index) len.

(** Disciplined editing steps. *)
Inductive edit : heap -> heap -> Prop :=
| ed_new_elem h n a : edit h (fst (alloc h (OElem n a [] None)))
| ed_new_text h s : edit h (fst (alloc h (OText s None)))
| ed_insert_elem h self i index h' :       (* a detached element that does not contain the receiver *)
    is_elem h i -> parent_is h i None -> ~ below h i self ->
    xml_insert h self (ARef i) index = EOk h' -> edit h h'
| ed_insert_text h self c s index h' :     (* a string, or any text node (it is copied) *)
    (c = AStr s \/ exists i, c = ARef i /\ is_text h i s) ->
    xml_insert h self c index = EOk h' -> edit h h'
| ed_remove_elem h self i h' :             (* an element child *)
    is_elem h i -> xml_remove h self (ARef i) = EOk h' -> edit h h'
| ed_parse s text s' r :                   (* parsing a document, complete or not; nothing existing is given up *)
    tree_parse s text s' r -> (forall j, j < nxt (bheap s) -> hp (bheap s') j = hp (bheap s) j) ->
    edit (bheap s) (bheap s').
Inductive edits : heap -> heap -> Prop :=
| eds_nil h : edits h h
| eds_cons h h1 h2 : edit h h1 -> edits h1 h2 -> edits h h2.
