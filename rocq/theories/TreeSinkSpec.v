(** Specifications for sinks that edit. *)
From Verif Require Import PyStr Parser XTree Heap Builder HeapSpec Path Pattern PatternSpec TreeIter TreeIterSpec TreeSink.

(** The sink leaves the element it was sent without a parent; all else is up to it. *)
Definition leaves_loose (sink : sink_rel) : Prop :=
  forall ix i h k h' k', sink ix (Some i) h k h' k' -> xml_parent h' i = None.
(** [collector.xml_append(e)] for each element [e] received. *)
Definition appends_to (c : ref) : sink_rel :=
  fun _ e h k h' k' => (exists i, e = Some i /\ xml_append h c (ARef i) = EOk h') /\ k' = k.

(** A sender for one pattern with such a sink, fed any number of complete documents. *)
Inductive served_with (sink : sink_rel) (p : list stage) : tstate -> Prop :=
| sw_new h k : served_with sink p (new_sender_with h k p)
| sw_doc s t s' : served_with sink p s -> is_element t ->
    whandle sink (stateses [p]) (new_handler s) (doc_events t) s' None -> served_with sink p s'.

(** The first once, each further one twice. *)
Definition doubled {A} (l : list A) : list A :=
  match l with [] => [] | x :: r => x :: flat_map (fun y => [y; y]) r end.

(** In [h] the element [i] has the parent [p] and its subtree is [t]. *)
Definition has_under (h : heap) (p i : ref) (t : xtree) : Prop := exists ids, holds h (Some p) i t ids.

(** A sink that edits nothing; it keeps what it is sent, or not. *)
Definition looks_on : sink_rel := fun _ e h k h' k' => h' = h /\ (k' = k \/ k' = opt_list e ++ k).
