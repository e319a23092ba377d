(** What html5lib makes of a source. *)
From Verif Require Import PyStr XTree Heap HeapSpec Html5 Html5HistSpec MicroxHtml.

(** The tree of the first element among the root nodes; the nodes come from a history of html5lib's calls. *)
Definition html_doc (s : source) (t : xtree) : Prop :=
  hsteps empty_heap (s_heap s) /\ exists i, first_element (s_roots s) = Some i /\ holds_tree (s_heap s) i t /\ is_elem (s_heap s) i.
(** The first child of its second child *)
Definition lax_doc (s : source) (u : xtree) : Prop :=
  exists n a head nb ab ks rest, html_doc s (XE n a (head :: XE nb ab (u :: ks) :: rest)).
(** Its second child is empty. *)
Definition lax_empty (s : source) : Prop :=
  exists n a head nb ab rest, html_doc s (XE n a (head :: XE nb ab [] :: rest)).
