(** Document order in a heap, and histories of queries and edits. *)
From Verif Require Import PyStr Parser XTree Heap Builder HeapSpec RootCache RootSpec DocOrder.
From Coq Require Export Permutation Sorted.

(** [x] stands to the left of [y]. *)
Definition left_of (l : list ref) (x y : ref) : Prop := exists l1 l2 l3, l = l1 ++ x :: l2 ++ y :: l3.
(** An ancestor comes before its descendants; of two other nodes, the one in the subtree of
    the left one of two siblings. *)
Definition comes_before (h : heap) (i j : ref) : Prop :=
  (i <> j /\ below h i j) \/
  exists p o x y, hp h p = Some o /\ left_of (okids o) x y /\ below h x i /\ below h y j.
Definition in_document_order (h : heap) (l : list ref) : Prop := StronglySorted (fun i j => i = j \/ comes_before h i j) l.

(** What a union may be evaluated at, and the topmost element above. *)
Definition tree_of (h : heap) (c : ditem) (r : ref) : Prop :=
  match c with
  | DNode i => top_of h i r /\ is_elem h r
  | DAttr i => top_of h i r /\ is_elem h r
  | DRoot q => docelem q = r /\ is_elem h r /\ parent_is h r None
  end.
(** The elements of that tree. *)
Definition within (h : heap) (r i : ref) : Prop := below h r i /\ is_elem h i.

(** No element of the tree around [i] has a number. *)
Definition unnumbered (h : heap) (v : numbers) (i : ref) : Prop :=
  forall r j, below h r i -> below h r j -> en v j = None.

(** The disciplined edits of HeapSpec other than the insertion of an element. *)
Inductive quiet : heap -> heap -> Prop :=
| qu_new_elem h n a : quiet h (fst (alloc h (OElem n a [] None)))
| qu_new_text h s : quiet h (fst (alloc h (OText s None)))
| qu_insert_text h self c s index h' : (c = AStr s \/ exists i, c = ARef i /\ is_text h i s) ->
    xml_insert h self c index = EOk h' -> quiet h h'
| qu_remove_elem h self i h' : is_elem h i -> xml_remove h self (ARef i) = EOk h' -> quiet h h'
| qu_parse s text s' r : tree_parse s text s' r -> (forall j, j < nxt (bheap s) -> hp (bheap s') j = hp (bheap s) j) ->
    quiet (bheap s) (bheap s').
(** A text node without parent. *)
Definition loose_text (h : heap) (i : ref) : Prop := exists s, is_text h i s /\ parent_is h i None.
(** Histories: unions at any context, and disciplined edits, but an element is only inserted
    when neither its tree nor the receiving one has been numbered. *)
Inductive numbered : heap -> numbers -> Prop :=
| nu_start h : well_linked h -> numbered h no_numbers
| nu_union h v c r : numbered h v -> tree_of h c r -> numbered h (prepare h v c)
| nu_loose h v i : numbered h v -> loose_text h i -> numbered h (prepare h v (DNode i))
| nu_edit h v h' : numbered h v -> quiet h h' -> numbered h' v
| nu_insert h v self i index h' : numbered h v -> is_elem h i -> parent_is h i None -> ~ below h i self ->
    xml_insert h self (ARef i) index = EOk h' -> unnumbered h v self -> unnumbered h v i -> numbered h' v.
(** Only unions, in one heap: those inside the operands of a union. *)
Inductive later (h : heap) (v : numbers) : numbers -> Prop :=
| la_here : later h v v
| la_union v' c r : later h v v' -> tree_of h c r -> later h v (prepare h v' c)
| la_loose v' i : later h v v' -> loose_text h i -> later h v (prepare h v' (DNode i)).
(** The order of a selection with the root node [q]: it comes first, except that the document
    element may come before it. *)
Definition with_root (h : heap) (q : root) (x y : ditem) : Prop :=
  match x, y with
  | DNode i, DNode j => i = j \/ comes_before h i j
  | DRoot _, _ => True
  | DNode i, DRoot _ => i = docelem q
  | _, _ => False
  end.
