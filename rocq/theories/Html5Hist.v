(** What html5lib does with the nodes of html5.py over a whole parse. *)
From Verif Require Import PyStr Parser XTree Heap HeapSpec Html5.

(** html5lib, Node.reparentChildren, which html5.element inherits (html5.py 52, 97): it gives every
    child to the new parent (html5.py 56-57), then sets [childNodes] to the empty list (125-129). *)
Definition h_reparentChildren (h : heap) (self q : ref) : edit_res :=
  match hp h self with
  | Some (OElem _ _ ks _) =>
      match append_all h q (map HRef ks) with
      | EOk h1 => h_set_childNodes h1 self []
      | e => e
      end
  | _ => EExn h AttributeErr
  end.

(** Objects may disappear between steps, unless an object that stays refers to them. *)
Definition collected (h h' : heap) : Prop :=
  nxt h' = nxt h /\ (forall i, hp h' i = hp h i \/ hp h' i = None) /\
  (forall p i, child h' p i -> exists o, hp h' i = Some o).
