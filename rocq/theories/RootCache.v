(** uxpath/xast.py 34-62: root nodes and their cache, over heaps that hold any number of
    documents. *)
From Verif Require Import PyStr Parser XTree Heap.

(** xast.py 41-45: a root node object; its only child. *)
Record root := mkRoot { rid : nat; docelem : ref }.
(** xast.py 39 root_node._cache, and the next unused identity of a root node.  Only elements
    become keys (61), and elements are equal only to themselves. *)
Record rcache := mkC { entries : list (ref * root); next_id : nat }.
Definition empty_cache : rcache := mkC [] 0.
Fixpoint lookup (l : list (ref * root)) (i : ref) : option root :=
  match l with [] => None | (k, r) :: l' => if Nat.eqb k i then Some r else lookup l' i end.

(** What root_node.get may be called with. *)
Inductive rarg := RNode (i : ref) | RRoot (r : root).
Inductive rres := RGot (c : rcache) (r : root) | RAssertion.

(** 56-61: the loop, from [curr] with [parent]; the fuel is the number of allocated objects
    (see RootFacts).  [Some (inl r)]: found in the cache. *)
Fixpoint climb (fuel : nat) (h : heap) (c : rcache) (curr : ref) (parent : option ref) : option (root + ref) :=
  match parent with
  | None => Some (inr curr)
  | Some p =>
      match fuel with
      | O => None
      | S n =>
          let q := xml_parent h p in
          match match q with Some q => lookup (entries c) q | None => None end with
          | Some r => Some (inl r)
          | None => climb n h c p q
          end
      end
  end.
(** 50-62.  [None]: the loop does not end within the fuel. *)
Definition get (h : heap) (c : rcache) (a : rarg) : option rres :=
  match a with
  | RRoot r => Some (RGot c r)                                        (* 54; root nodes are not keys *)
  | RNode i =>
      match lookup (entries c) i with
      | Some r => Some (RGot c r)                                     (* 53 *)
      | None =>
          match hp h i with
          | Some (OElem _ _ _ _) =>
              match climb (nxt h) h c i (xml_parent h i) with
              | Some (inl r) => Some (RGot c r)
              | Some (inr top) =>
                  let r := mkRoot (next_id c) top in
                  Some (RGot (mkC ((i, r) :: entries c) (S (next_id c))) r)
              | None => None
              end
          | _ => Some RAssertion                                      (* 55 *)
          end
      end
  end.
