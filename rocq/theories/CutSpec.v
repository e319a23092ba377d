(** What is left of a tree when its document breaks off. *)
From Verif Require Import PyStr Parser XTree.

(** [cut t u]: [t] is the beginning of [u]: children are missing at the end, and the last child that
    is left may itself be cut. *)
Inductive cut : xtree -> xtree -> Prop :=
| cut_here n a k1 k2 : cut (XE n a k1) (XE n a (k1 ++ k2))
| cut_below n a k1 c' c k2 : cut c' c -> cut (XE n a (k1 ++ [c'])) (XE n a (k1 ++ c :: k2)).
