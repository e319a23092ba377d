(** parser.py with event handlers that raise or end. *)
From Verif Require Import PyStr Parser.

(** What comes out of [handler.send(...)]: StopIteration (the handler has ended), GeneratorExit, or another exception. *)
Inductive hexn := HStop | HExit | HFail (x : nat).
(** What the handler does when it is sent the last of the events, after the others; [None]: it waits for the next one. *)
Definition event_handler := list event -> option hexn.

(** What comes out of [p.send(...)]: an exception of the parser itself or of the handler. *)
Inductive rexn := ROwn (e : exn) | RHandler (x : nat).
(** parser.py 332-337: GeneratorExit and StopIteration are caught, and the generator returns. *)
Definition leaves (x : hexn) : rexn := match x with HStop | HExit => ROwn StopIter | HFail n => RHandler n end.

(** The calls of [handler.send] (parser.py 232, 238, 304) one after the other, up to one that raises. *)
Fixpoint deliver (h : event_handler) (seen evs : list event) : list event * option hexn :=
  match evs with
  | [] => ([], None)
  | e :: r => match h (seen ++ [e]) with
              | Some x => ([e], Some x)
              | None => let (d, x) := deliver h (seen ++ [e]) r in (e :: d, x)
              end
  end.
Inductive hres := HOk | HRaised (e : rexn) | HHang.
(** [p.send((frag, done))], parser.py 154-338: what the handler is sent, the generator afterwards, and how it ends. *)
Definition send_to (h : event_handler) (seen : list event) (g : pgen) (frag : str) (done : bool) : list event * pgen * hres :=
  match send g frag done with
  | SOk g' evs => match deliver h seen evs with (d, None) => (d, g', HOk) | (d, Some x) => (d, GDead, HRaised (leaves x)) end
  | SRaise e evs => match deliver h seen evs with (d, None) => (d, GDead, HRaised (ROwn e)) | (d, Some x) => (d, GDead, HRaised (leaves x)) end
  | SHang evs => match deliver h seen evs with (d, None) => (d, GDead, HHang) | (d, Some x) => (d, GDead, HRaised (leaves x)) end
  end.
(** A client that goes on after exceptions: what the handler is sent, and how each call ended (the last may not). *)
Fixpoint session (h : event_handler) (seen : list event) (g : pgen) (l : list (str * bool)) : list event * list hres :=
  match l with
  | [] => ([], [])
  | (frag, done) :: l' =>
      match send_to h seen g frag done with
      | (d, _, HHang) => (d, [HHang])
      | (d, g', r) => let (d', rs) := session h (seen ++ d) g' l' in (d ++ d', r :: rs)
      end
  end.

(** parser.py 138-140: [parser(handler)] calls [next(handler)]; an exception of that is outside the
    [try] (an ended handler: StopIteration in a generator is a RuntimeError). *)
Inductive mexn := MRuntime | MExit | MHandler (x : nat).
Definition make_parser (primed : option hexn) : pgen + mexn :=
  match primed with
  | None => inl new_parser
  | Some HStop => inr MRuntime
  | Some HExit => inr MExit
  | Some (HFail x) => inr (MHandler x)
  end.
