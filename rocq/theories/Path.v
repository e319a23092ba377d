(** Positions of nodes in a tree, and document order. *)
From Verif Require Import PyStr XTree.
From Coq Require Export Sorted.

(** A node of a tree is identified by the child indices that lead to it from the root. *)
Notation addr := (list nat) (only parsing).

Fixpoint subtree (t : xtree) (a : addr) : option xtree :=
  match a with
  | [] => Some t
  | i :: a' => match t with
               | XE _ _ ks => match nth_error ks i with Some k => subtree k a' | None => None end
               | XT _ => None
               end
  end.

(** Document order: a node comes before its descendants and before everything in later siblings. *)
Inductive doc_before : addr -> addr -> Prop :=
| db_below i b : doc_before [] (i :: b)
| db_later i j a b : i < j -> doc_before (i :: a) (j :: b)
| db_same i a b : doc_before a b -> doc_before (i :: a) (i :: b).

(** [listing t P l]: [l] lists, in document order and each once, exactly the nodes of [t]
    that satisfy [P], with their subtrees. *)
Definition listing (t : xtree) (P : addr -> xtree -> Prop) (l : list (addr * xtree)) : Prop :=
  StronglySorted doc_before (map fst l) /\
  forall a u, In (a, u) l <-> subtree t a = Some u /\ P a u.

Definition is_element (t : xtree) : Prop := exists n a ks, t = XE n a ks.

(** The names of the elements from the root down to the given position. *)
Fixpoint path_names (t : xtree) (a : addr) : list str :=
  match t with
  | XT _ => []
  | XE n _ ks => n :: match a with
                      | [] => []
                      | i :: a' => match nth_error ks i with Some k => path_names k a' | None => [] end
                      end
  end.

(** [b] lies strictly above [a]. *)
Definition above (b a : addr) : Prop := exists i r, a = b ++ i :: r.
