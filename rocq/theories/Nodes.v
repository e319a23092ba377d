(** Sequences of nodes of a tree, each with its position: how the models of treeutil.py
    and uxpath name the node objects. *)
From Verif Require Import PyStr XTree.

Notation located := (list nat * xtree)%type (only parsing).
(** Nodes of the [i]th child, seen from the parent. *)
Definition under (i : nat) (l : list located) : list located :=
  map (fun x => (i :: fst x, snd x)) l.
(** [for child in children: yield from f(child)] *)
Section Over.
  Variable f : xtree -> list located.
  Fixpoint over (i : nat) (ks : list xtree) : list located :=
    match ks with [] => [] | k :: r => under i (f k) ++ over (S i) r end.
End Over.
