(** What html5lib expects of the nodes it edits. *)
From Verif Require Import PyStr Parser XTree Heap HeapSpec Html5.

(** An argument that may be put into [self]. *)
Definition usable (h : heap) (self : ref) (x : harg) : Prop :=
  match x with HRef i => i <> self /\ exists o, hp h i = Some o | _ => True end.

(** [placed h h' self x j]: going from [h] to [h'], the argument [x] has become the child [j] of
    [self]: an element is itself moved, any text becomes a new text node with the same value, a
    comment becomes a new empty text node. *)
Inductive placed (h h' : heap) (self : ref) : harg -> ref -> Prop :=
| pl_elem i n a ks p : hp h i = Some (OElem n a ks p) -> hp h' i = Some (OElem n a ks (Some self)) -> placed h h' self (HRef i) i
| pl_text i s p j : hp h i = Some (OText s p) -> hp h j = None -> hp h' j = Some (OText s (Some self)) -> placed h h' self (HRef i) j
| pl_str s j : hp h j = None -> hp h' j = Some (OText s (Some self)) -> placed h h' self (HStr s) j
| pl_comment d j : hp h j = None -> hp h' j = Some (OText [] (Some self)) -> placed h h' self (HComment d) j.

(** The child [i] is the node [x], or is a text node equal to it. *)
Definition equals (h : heap) (x : harg) (i : ref) : Prop :=
  match x with
  | HRef j => i = j \/ exists s, is_text h i s /\ is_text h j s
  | HStr s => is_text h i s
  | HComment d => is_text h i d
  end.

(** The attribute that a key of html5lib sets, if any. *)
Definition attr_of (k : akey) (name : str) : Prop :=
  match k with
  | KStr s => s = name /\ ~ (exists r, s = lit "xmlns" ++ r)
  | KTuple _ local _ => (~ In 58%N local /\ name = local) \/ exists pre, local = pre ++ 58%N :: name /\ ~ In 58%N name
  end.

(** The namespace of HTML elements, and the name an element gets if html5lib gives none. *)
Definition html_namespace : str := lit "http://www.w3.org/1999/xhtml".
Definition nameless : str := lit "UNNAMED_BY_HTML5LIB".
