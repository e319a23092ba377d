(** pylib/uxml/xml.py 15-48: the callbacks given to expat, which turn XML 1.0 into MicroXML
    events.  expat itself is not modelled: its calls are the input.  With the namespace
    separator ' ' (98, 121) it gives a name in a namespace as the namespace name, a space
    and the local name. *)
From Verif Require Import PyStr Parser XTree TreeUtil.

(** The calls: StartElementHandler, EndElementHandler, CharacterDataHandler, and the two
    namespace handlers, which do nothing (44-48). *)
Inductive cb :=
| CbStart (name : str) (attrs : dict str)
| CbEnd (name : str)
| CbChars (data : str)
| CbNamespace.

(** [s.split()]: the words between white space; [w] is the word in progress, reversed. *)
Fixpoint split_acc (w : str) (s : str) : list str :=
  match s with
  | [] => match w with [] => [] | _ => [rev w] end
  | c :: s' =>
      if py_isspace c then match w with [] => split_acc [] s' | _ => rev w :: split_acc [] s' end
      else split_acc (c :: w) s'
  end.
Definition py_split (s : str) : list str := split_acc [] s.

(** [l[-1]]; [None]: IndexError *)
Definition last_item {A} (l : list A) : option A := nth_error l (length l - 1).
Definition c_space : chr := 32%N.

(** 26 and 30: the local name in a start event *)
Definition start_local (name : str) : option str := last_item (py_split name).
(** 36: the local name in an end event *)
Definition end_local (name : str) : option str :=
  if char_in c_space name then nth_error (py_split name) 1 else Some name.
(** 28-30 *)
Fixpoint new_attrs (d : dict str) (l : dict str) : option (dict str) :=
  match l with
  | [] => Some d
  | (k, v) :: l' => match start_local k with Some k' => new_attrs (dict_set d k' v) l' | None => None end
  end.

(** One call, with the stack of open local names (18), outermost first.  [None]: an IndexError. *)
Definition callback (stk : list str) (c : cb) : option (list event * list str) :=
  match c with
  | CbStart name attrs =>                                              (* 24-32 *)
      match start_local name, new_attrs [] attrs with
      | Some l, Some d => Some ([EvStart l d stk], stk ++ [l])
      | _, _ => None
      end
  | CbEnd name =>                                                      (* 34-38 *)
      match end_local name, stk with
      | Some l, _ :: _ => Some ([EvEnd l (removelast stk)], removelast stk)
      | _, _ => None
      end
  | CbChars data => Some ([EvChars data], stk)                         (* 40-42 *)
  | CbNamespace => Some ([], stk)
  end.
(** A sequence of calls: the events sent, and the stack, or [None] after an exception. *)
Fixpoint callbacks (stk : list str) (cs : list cb) : list event * option (list str) :=
  match cs with
  | [] => ([], Some stk)
  | c :: cs' =>
      match callback stk c with
      | None => ([], None)
      | Some (evs, stk') => let '(evs', r) := callbacks stk' cs' in (evs ++ evs', r)
      end
  end.
