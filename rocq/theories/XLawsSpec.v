(** Expressions that always give the same. *)
From Verif Require Import PyStr XPath.

(** ... at everything that can be a context item *)
Definition alike (w : env) (e e' : expr) : Prop := forall n c, eval w n e c = eval w n e' c.
(** ... at the nodes and the root of the document *)
Definition alike_at_nodes (w : env) (e e' : expr) : Prop := forall n c, is_node c = true -> eval w n e c = eval w n e' c.
Definition path (a b : expr) : expr := EBin a OpPath b.
Definition deep (a b : expr) : expr := EBin a OpDeep b.
Definition union_of (a b : expr) : expr := EBin a OpUnion b.
Definition both (a b : expr) : expr := EBin a OpAnd b.
Definition either (a b : expr) : expr := EBin a OpOr b.
Definition negation (a : expr) : expr := ECall (lit "not") [a].
Definition bool_of (a : expr) : expr := ECall (lit "boolean") [a].
