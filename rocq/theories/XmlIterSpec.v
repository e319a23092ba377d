(** Specifications for streaming from XML 1.0 and for the moment at which something is sent. *)
From Verif Require Import PyStr Parser XTree Heap Builder HeapSpec TreeUtil Path Pattern PatternSpec TreeSpec TreeIter TreeIterSpec Expat.

(** [recut cs cs']: the same calls, except that runs of text are cut at different places. *)
Inductive recut : list cb -> list cb -> Prop :=
| rc_refl cs : recut cs cs
| rc_sym cs cs' : recut cs cs' -> recut cs' cs
| rc_trans cs cs' cs'' : recut cs cs' -> recut cs' cs'' -> recut cs cs''
| rc_cut cs1 s1 s2 cs2 : recut (cs1 ++ CbChars (s1 ++ s2) :: cs2) (cs1 ++ CbChars s1 :: CbChars s2 :: cs2).

(** Adjacent texts joined, empty ones left out. *)
Fixpoint joined (t : xtree) : xtree :=
  match t with
  | XE n a ks => XE n a (fold_right (fun k acc => cons_node (joined k) acc) [] ks)
  | XT s => XT s
  end.

(** The events before the start of the node at an address. *)
Fixpoint events_before (anc : list str) (t : xtree) (a : addr) : list event :=
  match a, t with
  | i :: r, XE n ats ks =>
      EvStart n ats anc :: flat_map (tree_events (anc ++ [n])) (firstn i ks) ++
      match nth_error ks i with Some k => events_before (anc ++ [n]) k r | None => [] end
  | _, _ => []
  end.
(** [v] at [a] is sent when the handler gets its last event, after [l1], and not before; [s] is
    a sender that has been fed any number of complete documents. *)
Definition sent_at_end (p : list stage) (t : xtree) (l1 : list (addr * xtree)) (a : addr) (v : xtree) : Prop :=
  exists rest, doc_events t = events_before [] t a ++ tree_events (removelast (path_names t a)) v ++ rest /\
  forall s, served p s ->
    (forall part e more s' x, tree_events (removelast (path_names t a)) v = part ++ e :: more ->
       thandle (stateses [p]) (new_handler s) (events_before [] t a ++ part) s' x -> x = None /\ sent_since s s' 0 (map snd l1)) /\
    (forall s' x, thandle (stateses [p]) (new_handler s) (events_before [] t a ++ tree_events (removelast (path_names t a)) v) s' x ->
       x = None /\ sent_since s s' 0 (map snd l1 ++ [v])).
