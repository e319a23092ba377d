(** treeutil.py 177-238 make_pretty over node objects: which objects stay, and what becomes of
    the others.  TreeUtil has the function on trees. *)
From Verif Require Import PyStr Parser XTree TreeUtil Heap.

(** [text('\n' + indent*depth, elem)] *)
Definition new_text (h : heap) (self : ref) (indent : str) (depth : nat) : heap * ref :=
  alloc h (OText (c_nl :: str_repeat indent depth) (Some self)).
(** 237 [elem.xml_children = l] *)
Definition set_kids (h : heap) (self : ref) (l : list ref) : heap :=
  match hp h self with
  | Some (OElem n a _ p) => upd h self (OElem n a l p)
  | _ => h
  end.

Section Loop.
  Variable rec : heap -> ref -> option heap.     (* 220 *)
  Variable self : ref.
  Variable indent : str.
  (** 209-236: the heap and the child list from [ix = updated_child_ix] on; [depth] is already
      incremented (206).  [None]: a call has not ended, or something is not a node. *)
  Fixpoint pretty_loop (depth ix : nat) (h : heap) (ks : list ref) : option (heap * list ref) :=
    match ks with
    | [] => if Nat.even ix then let '(h1, t) := new_text h self indent (depth - 1) in Some (h1, [t]) else Some (h, [])
    | k :: r =>
        match hp h k with
        | Some (OElem _ _ _ _) =>
            if Nat.odd ix
            then match rec h k with
                 | Some h1 => match pretty_loop depth (ix + 1) h1 r with Some (h2, l) => Some (h2, k :: l) | None => None end
                 | None => None
                 end
            else let '(h0, t) := new_text h self indent depth in
                 match rec h0 k with
                 | Some h1 => match pretty_loop depth (ix + 2) h1 r with Some (h2, l) => Some (h2, t :: k :: l) | None => None end
                 | None => None
                 end
        | Some (OText s _) =>
            if blankb s
            then let '(h0, t) := new_text h self indent depth in
                 match pretty_loop depth (ix + 1) h0 r with Some (h2, l) => Some (h2, t :: l) | None => None end
            else match pretty_loop depth (ix + 1) h r with Some (h2, l) => Some (h2, k :: l) | None => None end
        | None => None
        end
    end.
End Loop.
(** 177-238; the fuel bounds the depth of the calls. *)
Fixpoint pretty (fuel : nat) (depth : nat) (indent : str) (h : heap) (self : ref) : option heap :=
  match fuel with
  | O => None
  | S n =>
      match hp h self with
      | Some (OElem _ _ ks _) =>
          match pretty_loop (pretty n (S depth) default_indent) self indent (S depth) 0 h ks with
          | Some (h1, l) => Some (set_kids h1 self l)
          | None => None
          end
      | _ => None
      end
  end.
