(** What a change of the attributes of an element changes. *)
From Verif Require Import PyStr XTree Heap HeapSpec AttrCells.

(** Changing the attributes of [r] changes those and nothing of [q]. *)
Definition kept_apart (cs : nat -> cell) (h : heap) (r q : nat) : Prop := forall f, hp (change cs h r f) q = hp h q.
Definition has_attributes (h : heap) (r : nat) (a : dict str) : Prop := exists n ks p, hp h r = Some (OElem n a ks p).
(** Changing the attributes of either one changes those of both. *)
Definition tied (cs : nat -> cell) (h : heap) (r q : nat) : Prop := r <> q /\ exists a, has_attributes h r a /\ has_attributes h q a /\
  forall f, has_attributes (change cs h r f) r (f a) /\ has_attributes (change cs h r f) q (f a) /\
            has_attributes (change cs h q f) r (f a) /\ has_attributes (change cs h q f) q (f a).

