(** Mutable tree nodes: object identities, strong references from an element to its
    children, weak references from a node to its parent, garbage collection, and the editing
    methods of tree.py. *)
From Verif Require Import PyStr Parser XTree.

(** Object identities.  Never reused, so that a weak reference to a reclaimed object stays dead. *)
Notation ref := nat (only parsing).

(** tree.py 19-23, 71-76 element; 162-170 text.  [parent]: the object [_xml_parent] was
    made for ([weakref.ref(parent)]), [None] if [_xml_parent] is None.  The attribute
    dictionary is a value: sharing of one dictionary object between an event and an element
    (74) is not represented. *)
Inductive obj :=
| OElem (name : str) (attrs : dict str) (kids : list ref) (parent : option ref)
| OText (s : str) (parent : option ref).
Definition oparent (o : obj) : option ref := match o with OElem _ _ _ p => p | OText _ p => p end.
Definition okids (o : obj) : list ref := match o with OElem _ _ ks _ => ks | OText _ _ => [] end.
Definition set_parent (o : obj) (p : option ref) : obj :=
  match o with OElem n a ks _ => OElem n a ks p | OText s _ => OText s p end.

(** Live objects and the next unused identity. *)
Record heap := mkH { hp : ref -> option obj; nxt : ref }.
Definition empty_heap : heap := mkH (fun _ => None) 0.
Definition upd (h : heap) (i : ref) (o : obj) : heap :=
  mkH (fun j => if Nat.eqb j i then Some o else hp h j) (nxt h).
Definition alloc (h : heap) (o : obj) : heap * ref :=
  (mkH (fun j => if Nat.eqb j (nxt h) then Some o else hp h j) (S (nxt h)), nxt h).

(** tree.py 25-27 node.xml_parent: calls the weak reference, which yields None once the
    object is reclaimed. *)
Definition xml_parent (h : heap) (i : ref) : option ref :=
  match hp h i with
  | Some o => match oparent o with
              | Some p => match hp h p with Some _ => Some p | None => None end
              | None => None
              end
  | None => None
  end.

(** [self.xml_children.append(child)] *)
Definition append_kid (h : heap) (p i : ref) : heap :=
  match hp h p with
  | Some (OElem n a ks par) => upd h p (OElem n a (ks ++ [i]) par)
  | _ => h
  end.

(** What is reachable by strong references. *)
Inductive reach (h : heap) (roots : list ref) : ref -> Prop :=
| re_root i : In i roots -> reach h roots i
| re_kid i j o : reach h roots i -> hp h i = Some o -> In j (okids o) -> reach h roots j.

(** A collection may reclaim any set of unreachable objects. *)
Definition gc (roots : list ref) (h h' : heap) : Prop :=
  nxt h' = nxt h /\ forall i, hp h' i = hp h i \/ (hp h' i = None /\ ~ reach h roots i).

(** ** Editing *)

(** CPython list.insert(index, x): negative indices count from the end, then clamping. *)
Definition list_insert {A} (l : list A) (index : Z) (x : A) : list A :=
  let n := Z.of_nat (length l) in
  let i := if (index <? 0)%Z then (index + n)%Z else index in
  let i := if (i <? 0)%Z then 0%Z else i in
  let i := if (n <? i)%Z then n else i in
  firstn (Z.to_nat i) l ++ x :: skipn (Z.to_nat i) l.

Inductive edit_exn := AttributeErr | ValueErr_.
Inductive edit_res := EOk (h : heap) | EExn (h : heap) (e : edit_exn).

(** The argument [child]: a node object or a plain [str]. *)
Inductive node_arg := ARef (i : ref) | AStr (s : str).

(** tree.py 136-139 *)
Definition place_kid (h : heap) (self : ref) (index : Z) (c : ref) : edit_res :=
  match hp h self with
  | Some (OElem n a ks p) =>
      EOk (upd h self (OElem n a (if (index =? -1)%Z then ks ++ [c] else list_insert ks index c) p))
  | _ => EExn h AttributeErr
  end.
(** tree.py 126-140 element.xml_insert(self, child, index).  132-133: [text] is a [str],
    so an existing text node is copied as well.  135: sets the parent of an element.
    [self] must be an element: [text] has no such method. *)
Definition xml_insert (h : heap) (self : ref) (child : node_arg) (index : Z) : edit_res :=
  match hp h self with
  | Some (OElem _ _ _ _) =>
      match child with
      | AStr s => let '(h1, c) := alloc h (OText s (Some self)) in place_kid h1 self index c
      | ARef i =>
          match hp h i with
          | Some (OText s _) => let '(h1, c) := alloc h (OText s (Some self)) in place_kid h1 self index c
          | Some (OElem _ _ _ _ as o) => place_kid (upd h i (set_parent o (Some self))) self index i
          | None => EExn h AttributeErr
          end
      end
  | _ => EExn h AttributeErr
  end.
(** tree.py 117-124 *)
Definition xml_append (h : heap) (self : ref) (child : node_arg) : edit_res := xml_insert h self child (-1).

(** [item == child] for two nodes: elements compare by identity (object.__eq__), text
    nodes by value (str.__eq__). *)
Definition node_eqb (h : heap) (i j : ref) : bool :=
  Nat.eqb i j ||
  match hp h i, hp h j with
  | Some (OText s _), Some (OText t _) => str_eqb s t
  | _, _ => false
  end.
(** [item == s] for a node and a plain string. *)
Definition node_str_eqb (h : heap) (i : ref) (s : str) : bool :=
  match hp h i with Some (OText t _) => str_eqb t s | _ => false end.
(** list.remove(x): drops the first equal item. *)
Fixpoint remove_first {A} (p : A -> bool) (l : list A) : list A :=
  match l with
  | [] => []
  | x :: r => if p x then r else x :: remove_first p r
  end.

(** tree.py 142-154 element.xml_remove(self, child).  150 on a plain [str] raises
    AttributeError (no instance dictionary) before anything is removed. *)
Definition xml_remove (h : heap) (self : ref) (child : node_arg) : edit_res :=
  match hp h self with
  | Some (OElem n a ks p) =>
      match child with
      | ARef c =>
          if existsb (fun x => node_eqb h x c) ks
          then match hp h c with
               | Some o =>
                   let h1 := upd h c (set_parent o None) in
                   match hp h1 self with
                   | Some (OElem n1 a1 ks1 p1) =>
                       EOk (upd h1 self (OElem n1 a1 (remove_first (fun x => node_eqb h1 x c) ks1) p1))
                   | _ => EExn h1 AttributeErr
                   end
               | None => EExn h AttributeErr
               end
          else EExn h ValueErr_
      | AStr s => if existsb (fun x => node_str_eqb h x s) ks then EExn h AttributeErr else EExn h ValueErr_
      end
  | _ => EExn h AttributeErr
  end.
