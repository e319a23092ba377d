(** writer.py 57-64, 141-146: writers with a write handler of their own ([whandler]).  The writer
    makes the handler from its file object and gives it every [write(ctx, text)] (80-104, 110-115,
    121); what arrives in the file is up to the handler. *)
From Verif Require Import PyStr Parser XTree Writer.

(** [WAttr]: AttributeError; [WType]: TypeError; [WOther]: whatever else a handler raises. *)
Inductive wexn := WAttr | WType | WOther.

(** What happens until the first exception: the last state, what was written to the file, and the
    exception if there was one. *)
Definition outcome (St : Type) : Type := St * str * option wexn.

Section Handler.
  (** A class of handlers: its objects and their method [write]. *)
  Variables (St : Type) (hwrite : St -> wctx * witem -> outcome St).

  Fixpoint h_writes (s : St) (ws : list (wctx * witem)) : outcome St :=
    match ws with
    | [] => (s, [], None)
    | w :: ws' =>
        match hwrite s w with
        | (s1, o1, Some x) => (s1, o1, Some x)
        | (s1, o1, None) => let '(s2, o2, x) := h_writes s1 ws' in (s2, o1 ++ o2, x)
        end
    end.
  (** Calls on [raw(fp, whandler=...)] *)
  Fixpoint h_run (b : wstate) (s : St) (cs : list wcall) : outcome St :=
    match cs with
    | [] => (s, [], None)
    | c :: cs' =>
        let '(b1, ws) := call_writes b c in
        match h_writes s ws with
        | (s1, o1, Some x) => (s1, o1, Some x)
        | (s1, o1, None) => let '(s2, o2, x) := h_run b1 s1 cs' in (s2, o1 ++ o2, x)
        end
    end.
  (** Calls on [namespacer(fp, whandler=..., prefixes=..., mapping=...)]: its own [write] (153-181)
      is not called, so the prefixes and the mapping do not matter.  148: there is no parameter [empty]. *)
  Fixpoint h_ns_run (b : wstate) (s : St) (cs : list wcall) : outcome St :=
    match cs with
    | [] => (s, [], None)
    | CStart _ _ true :: _ => (s, [], Some WType)
    | c :: cs' =>
        let '(b1, ws) := call_writes b c in
        match h_writes s ws with
        | (s1, o1, Some x) => (s1, o1, Some x)
        | (s1, o1, None) => let '(s2, o2, x) := h_ns_run b1 s1 cs' in (s2, o1 ++ o2, x)
        end
    end.
End Handler.
Arguments h_writes {St}. Arguments h_run {St}. Arguments h_ns_run {St}.

(** [whandler=raw]: an object whose own state [write] does not look at. *)
Definition raw_handler (s : unit) (w : wctx * witem) : outcome unit := (s, raw_write w, None).

(** [whandler=namespacer]: made by [namespacer(fp)], so without prefixes and mapping.  It is at its
    first element (145), and the attribute [_ns_handled], which only [start_element] sets (149),
    does not exist when 159 asks for it. *)
Definition ns_handler (s : unit) (w : wctx * witem) : outcome unit :=
  match w with
  | (CxStart, ITok TkPreAttr) | (CxStart, ITok TkStartClose) => (s, [], Some WAttr)
  | _ => (s, raw_write w, None)
  end.

(** The namespacer without handler, also for the calls of [start_element] with [empty] (148). *)
Fixpoint ns_run_all (prefixes : dict str) (mapping : dict (str * str)) (s : nstate) (cs : list wcall) : outcome nstate :=
  match cs with
  | [] => (s, [], None)
  | CStart _ _ true :: _ => (s, [], Some WType)
  | c :: cs' => let '(s1, o1) := ns_call prefixes mapping s c in
                let '(s2, o2, x) := ns_run_all prefixes mapping s1 cs' in
                (s2, o1 ++ o2, x)
  end.
