(** uxpath/xast.py 81-89 and 272-280: the document order numbers that a union expression
    writes on the nodes, over heaps that hold any number of documents. *)
From Verif Require Import PyStr Parser XTree Heap RootCache.

(** Context items and selected items: elements and text nodes, attribute nodes (made anew by
    every evaluation, xast.py 65-73, with the element they belong to) and root nodes. *)
Inductive ditem := DNode (i : ref) | DAttr (owner : ref) | DRoot (r : root).

(** The instance attributes [_docorder] of elements and text nodes, and of root nodes. *)
Record numbers := mkNum { en : ref -> option nat; rn : root -> option nat }.
Definition no_numbers : numbers := mkNum (fun _ => None) (fun _ => None).
Definition root_eqb (a b : root) : bool := Nat.eqb (rid a) (rid b) && Nat.eqb (docelem a) (docelem b).
Definition set_en (f : ref -> option nat) (i : ref) (n : nat) : ref -> option nat := fun j => if Nat.eqb j i then Some n else f j.
(** [node._docorder = n] *)
Definition number (v : numbers) (x : ditem) (n : nat) : numbers :=
  match x with
  | DNode i => mkNum (set_en (en v) i n) (rn v)
  | DRoot r => mkNum (en v) (fun q => if root_eqb q r then Some n else rn v q)
  | DAttr _ => v
  end.
(** [node._docorder], if there is one.  An attribute node is never numbered: it has a parent. *)
Definition number_of (v : numbers) (x : ditem) : option nat :=
  match x with DNode i => en v i | DRoot r => rn v r | DAttr _ => None end.

(** 83-84: the topmost node; the fuel is the number of allocated objects (see DocOrderFacts). *)
Fixpoint rise (fuel : nat) (h : heap) (i : ref) : ref :=
  match fuel with
  | O => i
  | S n => match xml_parent h i with Some p => rise n h p | None => i end
  end.
Definition topmost (h : heap) (x : ditem) : ditem :=
  match x with
  | DNode i | DAttr i => DNode (rise (nxt h) h i)
  | DRoot r => DRoot r
  end.
(** [xml_children] of the topmost node (tree.py 75, 182-184; xast.py 41) *)
Definition dkids (h : heap) (x : ditem) : list ref :=
  match x with
  | DNode i => match hp h i with Some (OElem _ _ ks _) => ks | _ => [] end
  | DRoot r => [docelem r]
  | DAttr _ => []
  end.
(** treeutil.py 13-20 descendants, from the children of a node. *)
Fixpoint descend (fuel : nat) (h : heap) (ks : list ref) : list ref :=
  match fuel with
  | O => []
  | S n => flat_map (fun c => match hp h c with Some (OElem _ _ ks' _) => c :: descend n h ks' | _ => [] end) ks
  end.
(** 87-89 *)
Fixpoint assign (n : nat) (l : list ref) (f : ref -> option nat) : ref -> option nat :=
  match l with [] => f | i :: l' => assign (S n) l' (set_en f i n) end.
(** 81-89 *)
Definition index_docorder (h : heap) (v : numbers) (x : ditem) : numbers :=
  let t := topmost h x in
  let v1 := number v t 0 in
  mkNum (assign 1 (descend (nxt h) h (dkids h t)) (en v1)) (rn v1).

(** 274-275 *)
Definition prepare (h : heap) (v : numbers) (c : ditem) : numbers :=
  match number_of v c with Some _ => v | None => index_docorder h v c end.
(** 279 [selected.sort(key=attrgetter('_docorder'))]: stable; [None]: AttributeError. *)
Fixpoint put (x : nat * ditem) (l : list (nat * ditem)) : list (nat * ditem) :=
  match l with
  | [] => [x]
  | y :: r => if Nat.leb (fst x) (fst y) then x :: l else y :: put x r
  end.
Fixpoint keys (v : numbers) (l : list ditem) : option (list (nat * ditem)) :=
  match l with
  | [] => Some []
  | x :: r => match number_of v x, keys v r with Some n, Some l' => Some ((n, x) :: l') | _, _ => None end
  end.
Definition arrange (v : numbers) (sel : list ditem) : option (list ditem) :=
  option_map (fun l => map snd (fold_right put [] l)) (keys v sel).
(** 272-280 for operands that select [sel] and evaluate no union themselves; with such
    operands there are further [prepare] steps between the two. *)
Definition union (h : heap) (v : numbers) (c : ditem) (sel : list ditem) : numbers * option (list ditem) :=
  let v' := prepare h v c in (v', arrange v' sel).
