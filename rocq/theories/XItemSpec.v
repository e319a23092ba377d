(** Steps from what is no node of the tree: strings, numbers, booleans, attributes. *)
From Verif Require Import PyStr XTree Path XPath.

Definition value_item (i : item) : Prop := match i with IStr _ | IInt _ | IFlt _ | IBool _ => True | _ => False end.
(** What passes the test. *)
Inductive passes_test : ntest -> item -> Prop :=
| pt_star i : passes_test TStar i
| pt_node s : passes_test TNode (IStr s)
| pt_text s : passes_test TText (IStr s)
| pt_attr a k v o : passes_test TNode (IAttr a k v o).
Definition only_if (P : Prop) (i : item) (l : list item) : Prop := (P -> l = [i]) /\ (~ P -> l = []).
