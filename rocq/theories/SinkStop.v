(** treeiter.sender with sinks that may raise, or end. *)
From Verif Require Import PyStr Parser XTree Heap Builder HeapSpec Pattern TreeIter.

(** treeiter.py 157, [self._sinks[ix].send(parent)]: as in TreeSink, and whether an exception
    comes out of it ([true]).  A sink that returns gives a StopIteration, which is one (it leaves the
    generator of the handler as a RuntimeError). *)
Definition stop_rel := nat -> option ref -> heap -> list ref -> heap -> list ref -> bool -> Prop.
Definition after_send (s : tstate) (ix : nat) (h' : heap) (kept : list ref) : tstate :=
  mkT h' (troots s) (tpars s) (tctl s) (tpar s) (telem s) (ttext s) kept (tsent s ++ [(ix, tpar s, theap s)]).

(** treeiter.py 123-163: the statements for an event, up to the first send that raises; the last
    component says which pattern's. *)
Inductive sruns (sink : stop_rel) : tstate -> list tstmt -> tstate -> option nat -> Prop :=
| sr_nil s s' : tcollect s s' -> sruns sink s [] s' None
| sr_own s s1 s2 st l s' r : tcollect s s1 -> (forall ix, st <> TSend ix) -> texec st s1 s2 -> sruns sink s2 l s' r ->
    sruns sink s (st :: l) s' r
| sr_send s s1 ix l h' kept s' r : tcollect s s1 -> sink ix (tpar s1) (theap s1) (tkept s1) h' kept false -> nxt (theap s1) <= nxt h' ->
    sruns sink (after_send s1 ix h' kept) l s' r -> sruns sink s (TSend ix :: l) s' r
| sr_stop s s1 ix l h' kept : tcollect s s1 -> sink ix (tpar s1) (theap s1) (tkept s1) h' kept true -> nxt (theap s1) <= nxt h' ->
    sruns sink s (TSend ix :: l) (after_send s1 ix h' kept) (Some ix).

(** How feeding a document ends. *)
Inductive tend := TEnd | TExn (x : texn) | TSink.

(** The control state when pattern [ix] has sent: its event stack is popped and its depth is
    set (151-154), and later patterns have not seen the event. *)
Definition ctl_at (ss : list pst) (ix : nat) (c : ctl) (e : event) : ctl := snd (fst (ctl_all (firstn (S ix) ss) 0 c e)).

(** treeiter.py 123-163: the handler fed with events.  The exception of a sink goes through the
    handler and the parser to the caller of [parse] (165-170); the attributes of the sender stay as they are. *)
Inductive shandle (sink : stop_rel) (ss : list pst) : tstate -> list event -> tstate -> tend -> Prop :=
| sh_nil s s' : tcollect s s' -> shandle sink ss s [] s' TEnd
| sh_step s e evs l c s1 s' x :
    ctl_all ss 0 (tctl s) e = (l, c, None) -> sruns sink s l s1 None -> shandle sink ss (set_ctl s1 c) evs s' x ->
    shandle sink ss s (e :: evs) s' x
| sh_exn s e evs l c s1 x :
    ctl_all ss 0 (tctl s) e = (l, c, Some x) -> sruns sink s l s1 None -> shandle sink ss s (e :: evs) (set_ctl s1 c) (TExn x)
| sh_stop s e evs l c x s1 ix :
    ctl_all ss 0 (tctl s) e = (l, c, x) -> sruns sink s l s1 (Some ix) ->
    shandle sink ss s (e :: evs) (set_ctl s1 (ctl_at ss ix (tctl s) e)) TSink.
