(** Queries on node objects: what is asked of the expressions. *)
From Verif Require Import PyStr Parser XTree Heap XPath XQuery XNavSpec HeapNav HeapEval HeapEvalSpec.

(** The expression, if it is one, does not show which root node object it is (see HeapEvalSpec). *)
Definition fine (w : env) (D : Prop) (p : xpath_thing) : Prop :=
  match p with Text s => forall e, xparse w s = inl e -> careful D e | Parsed e => careful D e | Neither => True end.
(** The kind of the node at [i], as in XNavSpec. *)
Definition kind_here (h : heap) (i : ref) : kind := if helem h i then KElem else KNode.
(** A query at [y] starts at [y] itself: the node has a parent, or is a root node, and is not an empty text. *)
Definition starts_here (h : heap) (y : hval) : Prop :=
  vtrue h y = true /\ ((exists x o p, y = Obj x o /\ hparent h x = Some p) \/ exists t, y = Obj (HRoot t) Made).
