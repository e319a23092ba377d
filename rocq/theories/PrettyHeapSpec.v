(** What make_pretty does to the objects. *)
From Verif Require Import PyStr Parser XTree TreeUtil Heap Builder HeapSpec.

(** Elements, and texts that are not entirely white space: the nodes that stay. *)
Definition stays (h : heap) (j : ref) : bool :=
  match hp h j with
  | Some (OElem _ _ _ _) => true
  | Some (OText s _) => negb (blankb s)
  | None => false
  end.
(** Only the lists of children change: names, attributes, strings and parents are kept. *)
Definition same_but_kids (o o' : obj) : Prop :=
  match o, o' with
  | OElem n a _ p, OElem n' a' _ p' => n = n' /\ a = a' /\ p = p'
  | OText s p, OText s' p' => s = s' /\ p = p'
  | _, _ => False
  end.
Definition kept (h h' : heap) : Prop := forall j o, hp h j = Some o -> exists o', hp h' j = Some o' /\ same_but_kids o o'.
(** A text node below [i] that is only white space. *)
Definition replaced (h : heap) (i j : ref) : Prop := below h i j /\ exists s, is_text h j s /\ blankb s = true.
(** [h''] is [h'] without the replaced texts: nobody refers to them any more. *)
Definition dropped (h h' h'' : heap) (i : ref) : Prop :=
  nxt h'' = nxt h' /\ (forall j, replaced h i j -> hp h'' j = None) /\ (forall j, ~ replaced h i j -> hp h'' j = hp h' j).
