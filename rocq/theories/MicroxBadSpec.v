(** What microx is to do with sources that are not well-formed. *)
From Verif Require Import PyStr Parser XTree Path TreeUtil TreeSpec XmlIterSpec Expat XPath Microx MicroxMain MicroxBad.

(** A source that expat does not complain about. *)
Definition fine (cs : list cb) : source := (cs, false).
(** An outcome without errors of expat. *)
Definition ends (o : list str * fin) : list str * ending := (fst o, Ends (snd o)).
(** The outcome of what comes before a source that is rejected, and with it. *)
Definition then_error (o : list str * fin) : list str * ending := (fst o, match snd o with Done => ExpatError | f => Ends f end).
(** [evs] contains the element [v] at [a] of [u] together with its end tag. *)
Definition complete_in (u : xtree) (evs : list event) (a : addr) (v : xtree) : Prop :=
  exists rest, evs = events_before [] u a ++ tree_events (removelast (path_names u a)) v ++ rest.
