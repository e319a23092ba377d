(** Specifications for sinks that may raise. *)
From Verif Require Import PyStr Parser XTree Heap Builder HeapSpec Path Pattern PatternSpec TreeIter TreeIterSpec TreeSink SinkStop.

(** As long as the sink goes on it leaves the element it was sent without a parent. *)
Definition stop_loose (sink : stop_rel) : Prop :=
  forall ix i h k h' k', sink ix (Some i) h k h' k' false -> xml_parent h' i = None.

(** A sender for one pattern fed any number of complete documents, the sink going on all the time. *)
Inductive fed (sink : stop_rel) (p : list stage) : tstate -> Prop :=
| fd_new h k : fed sink p (new_sender_with h k p)
| fd_doc s t s' : fed sink p s -> is_element t -> shandle sink (stateses [p]) (new_handler s) (doc_events t) s' TEnd -> fed sink p s'.
(** The sink raised in the course of a document; then any further documents. *)
Inductive stopped (sink : stop_rel) (p : list stage) : tstate -> Prop :=
| st_first s t s' : fed sink p s -> is_element t -> shandle sink (stateses [p]) (new_handler s) (doc_events t) s' TSink -> stopped sink p s'
| st_later s t s' x : stopped sink p s -> is_element t -> shandle sink (stateses [p]) (new_handler s) (doc_events t) s' x -> stopped sink p s'.
