(** Specifications for streaming. *)
From Verif Require Import PyStr Parser XTree Heap Builder HeapSpec Path Pattern PatternSpec TreeIter.

(** The element at [a] is matched by the pattern and none above it is. *)
Definition outermost (p : list stage) (t : xtree) (a : addr) (u : xtree) : Prop :=
  is_element u /\ matches p (path_names t a) /\ forall b, above b a -> ~ matches p (path_names t b).

(** What was sent since [s]: the trees [ts], in order, to sink [ix], each complete at
    the moment it was sent. *)
Definition sent_since (s s' : tstate) (ix : nat) (ts : list xtree) : Prop :=
  exists l, tsent s' = tsent s ++ l /\
            Forall2 (fun x t => exists i h, x = (ix, Some i, h) /\ holds_tree h i t) l ts.

(** A sender for one pattern that has been fed any number of complete documents. *)
Inductive served (p : list stage) : tstate -> Prop :=
| sv_new h : allocated h -> served p (new_sender h [p])
| sv_doc s t s' : served p s -> is_element t -> thandle (stateses [p]) (new_handler s) (doc_events t) s' None -> served p s'.

(** What the sinks keep is still the tree that was sent, whether it was sent since [s] or before. *)
Definition kept_intact (s s' : tstate) : Prop :=
  (forall i t, In i (tkept s) -> In i (tkept s') -> holds_tree (theap s) i t -> holds_tree (theap s') i t) /\
  forall ix i h t, In (ix, Some i, h) (tsent s') -> ~ In (ix, Some i, h) (tsent s) -> In i (tkept s') ->
                   holds_tree h i t -> holds_tree (theap s') i t.

Definition total_size (ts : list xtree) : nat := fold_right (fun t n => tree_size t + n) 0 ts.

(** [cut c u]: [c] is what there is of [u] at some moment of reading it. *)
Inductive cut : xtree -> xtree -> Prop :=
| cut_done t : cut t t
| cut_between n a k1 k2 : cut (XE n a k1) (XE n a (k1 ++ k2))
| cut_within n a k1 c k k2 : cut c k -> cut (XE n a (k1 ++ [c])) (XE n a (k1 ++ k :: k2)).

(** The references a sender has: its attributes and the locals of its handler. *)
Definition own_refs (s : tstate) : list ref :=
  flat_map opt_list (troots s) ++ flat_map opt_list (tpars s) ++ opt_list (tpar s) ++ opt_list (telem s) ++ opt_list (ttext s).
(** They lead to all nodes of the tree [c], and to nothing else except perhaps the last text node created. *)
Definition holds_only (s : tstate) (i : ref) (c : xtree) : Prop :=
  exists ids, holds (theap s) None i c ids /\ NoDup ids /\
    (forall j, In j ids -> reach (theap s) (own_refs s) j) /\
    (forall j, reach (theap s) (own_refs s) j -> In j ids \/ ttext s = Some j).
(** The last thing sent. *)
Definition last_sent (s : tstate) (i : ref) (t : xtree) : Prop :=
  exists pre h, tsent s = pre ++ [(0, Some i, h)] /\ holds_tree h i t.
