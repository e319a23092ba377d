(** treeiter.sender with sinks that edit trees while they are served. *)
From Verif Require Import PyStr Parser XTree Heap Builder HeapSpec Pattern TreeIter.

(** What a sink does when an object is sent to it (treeiter.py 157, [self._sinks[ix].send(parent)]):
    from the heap and what the sinks keep to the heap and what they keep afterwards.  Any relation,
    so any edits, any allocation, and collections in the course of them. *)
Definition sink_rel := nat -> option ref -> heap -> list ref -> heap -> list ref -> Prop.

(** treeiter.py 123-163 as in [texec], but 157 hands control to the sink.  Identities are not reused. *)
Inductive wexec (sink : sink_rel) : tstmt -> tstate -> tstate -> Prop :=
| we_own st s s' : (forall ix, st <> TSend ix) -> texec st s s' -> wexec sink st s s'
| we_send ix s h' kept : sink ix (tpar s) (theap s) (tkept s) h' kept -> nxt (theap s) <= nxt h' ->
    wexec sink (TSend ix) s (mkT h' (troots s) (tpars s) (tctl s) (tpar s) (telem s) (ttext s) kept
                                 (tsent s ++ [(ix, tpar s, theap s)])).
Inductive wruns (sink : sink_rel) : tstate -> list tstmt -> tstate -> Prop :=
| wr_nil s s' : tcollect s s' -> wruns sink s [] s'
| wr_cons s s1 s2 st l s' : tcollect s s1 -> wexec sink st s1 s2 -> wruns sink s2 l s' -> wruns sink s (st :: l) s'.
(** treeiter.py 123-163: the handler fed with events. *)
Inductive whandle (sink : sink_rel) (ss : list pst) : tstate -> list event -> tstate -> option texn -> Prop :=
| wh_nil s s' : tcollect s s' -> whandle sink ss s [] s' None
| wh_step s e evs l c s1 s' x :
    ctl_all ss 0 (tctl s) e = (l, c, None) -> wruns sink s l s1 -> whandle sink ss (set_ctl s1 c) evs s' x ->
    whandle sink ss s (e :: evs) s' x
| wh_exn s e evs l c s1 x :
    ctl_all ss 0 (tctl s) e = (l, c, Some x) -> wruns sink s l s1 -> whandle sink ss s (e :: evs) (set_ctl s1 c) (Some x).

(** treeiter.py 53-63 when the sinks keep [k] from the start. *)
Definition new_sender_with (h : heap) (k : list ref) (p : list stage) : tstate :=
  mkT h [None] [None] (mkC [] [0]) None None None k [].
