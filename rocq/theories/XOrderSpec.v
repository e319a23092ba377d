(** Comparisons turned round and negated. *)
From Verif Require Import PyStr XPath XPathSpec.

(** The operator for swapped operands. *)
Definition mirrored (op op' : binop) : Prop := In (op, op') [(OpLt, OpGt); (OpGt, OpLt); (OpLe, OpGe); (OpGe, OpLe)].
(** The operator that holds where the other does not. *)
Definition opposite (op op' : binop) : Prop := In (op, op') [(OpLt, OpGe); (OpGe, OpLt); (OpGt, OpLe); (OpLe, OpGt)].
(** Strings, or numbers that are not NaN: items of one ordered kind. *)
Definition same_kind (w : env) (i j : item) : Prop :=
  (exists s t, text_item w i s /\ text_item w j t) \/ (exists x y, number_value i = Some x /\ number_value j = Some y /\ x <> FNan /\ y <> FNan).
