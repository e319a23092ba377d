(** xmliter.sender (pylib/uxml/xmliter.py 21-53): the sender of treeiter.py fed by expat.
    As in Expat.v the calls expat makes are the input. *)
From Verif Require Import PyStr Parser XTree Heap Builder Pattern TreeIter TreeUtil Expat.

(** The state of the sender and of its handler, and the stack of the callbacks object (xml.py 18). *)
Definition xstate : Type := tstate * list str.
(** xmliter.py 36-46: the handler and expat's parser are made once, when the sender is made. *)
Definition new_xsender (h : heap) (ps : list (list stage)) : xstate := (new_handler (new_sender h ps), []).
Inductive xexn := XHandler (x : texn) | XIndex.

(** xmliter.py 48-50: [expat_parser.Parse(source)], in which expat makes the calls [cs].  The
    parser is not told that the source is complete: the next [parse] goes on from there.
    (51-53: so does [parse_file], which also tells expat that the source is complete.)
    An exception raised by a callback, or by the handler in one, ends the call of [parse]. *)
Inductive xparse (ps : list (list stage)) : xstate -> list cb -> xstate -> option xexn -> Prop :=
| xq_ok s stk cs evs stk' s' :
    callbacks stk cs = (evs, Some stk') -> thandle (stateses ps) s evs s' None -> xparse ps (s, stk) cs (s', stk') None
| xq_index s stk cs evs s' :
    callbacks stk cs = (evs, None) -> thandle (stateses ps) s evs s' None -> xparse ps (s, stk) cs (s', stk) (Some XIndex)
| xq_handler s stk cs evs r s' x :
    callbacks stk cs = (evs, r) -> thandle (stateses ps) s evs s' (Some x) -> xparse ps (s, stk) cs (s', stk) (Some (XHandler x)).
(** Several calls of [parse], up to the first exception. *)
Inductive xparses (ps : list (list stage)) : xstate -> list (list cb) -> xstate -> option xexn -> Prop :=
| xs_nil s : xparses ps s [] s None
| xs_cons s cs s1 css s' x : xparse ps s cs s1 None -> xparses ps s1 css s' x -> xparses ps s (cs :: css) s' x
| xs_exn s cs s1 css x : xparse ps s cs s1 (Some x) -> xparses ps s (cs :: css) s1 (Some x).
