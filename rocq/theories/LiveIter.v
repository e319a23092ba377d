(** The generators and iterators of treeutil.py as suspended computations over node objects:
    between two calls of next() the tree may be edited. *)
From Verif Require Import PyStr XTree Tree Nodes Pattern TreeUtil Heap.
From Verif Require Import HeapEval.

(** [node.xml_children]: tree.py 75, 183-184. *)
Definition kids_of (h : heap) (r : ref) : list ref := match hp h r with Some o => okids o | None => [] end.
(** [isinstance(child, element)] *)
Definition elem_of (h : heap) (c : ref) : bool := match hp h c with Some (OElem _ _ _ _) => true | _ => false end.

(** What the body of a loop over children does with one of them. *)
Inductive act (T : Type) := Pass | Give | Enter (s : T) | GiveEnter (s : T) | Raise.
Arguments Pass {T}. Arguments Give {T}. Arguments Enter {T} s. Arguments GiveEnter {T} s. Arguments Raise {T}.

Section Walk.
  Context {T : Type}.
  Variable visit : T -> heap -> ref -> act T.
  (** A suspended [for child in elem.xml_children]: CPython's list iterator is the list
      object, here the one of [elem], and the index of the next item; then the loop's state.
      The loops that are active through [yield from], innermost first.  xml_insert and
      xml_remove change the list object in place (tree.py 137-139, 151); an assignment of a new list to
      [xml_children], as by make_pretty (237), is not represented. *)
  Definition frame : Type := ref * nat * T.
  Inductive tres := TEnd | TFail | TQuiet (st : list frame) | TOut (c : ref) (st : list frame).
  (** One turn of the innermost loop.  The list of children of a node entered is fetched when the
      generator is resumed. *)
  Definition tick (h : heap) (st : list frame) : tres :=
    match st with
    | [] => TEnd
    | (r, i, s) :: st' =>
        match nth_error (kids_of h r) i with
        | None => TQuiet st'                           (* StopIteration *)
        | Some c => match visit s h c with
                    | Pass => TQuiet ((r, 1 + i, s) :: st')
                    | Give => TOut c ((r, 1 + i, s) :: st')
                    | Enter s' => TQuiet ((c, 0, s') :: (r, 1 + i, s) :: st')
                    | GiveEnter s' => TOut c ((c, 0, s') :: (r, 1 + i, s) :: st')
                    | Raise => TFail
                    end
        end
    end.
  (** [next(it)]; fuel: number of turns. *)
  Inductive pres := Ends | Fails | Gives (c : ref) (st : list frame).
  Fixpoint pull (fuel : nat) (h : heap) (st : list frame) : option pres :=
    match fuel with
    | 0 => None
    | S k => match tick h st with
             | TEnd => Some Ends
             | TFail => Some Fails
             | TQuiet st' => pull k h st'
             | TOut c st' => Some (Gives c st')
             end
    end.
End Walk.
Arguments frame T : clear implicits.

(** treeutil.py 13-20 descendants *)
Definition deep (s : unit) (h : heap) (c : ref) : act unit := if elem_of h c then GiveEnter tt else Pass.
(** [filter(p, it)] over the children of an element: 28-30, 57-59. *)
Definition flat (p : heap -> ref -> bool) (s : unit) (h : heap) (c : ref) : act unit := if p h c then Give else Pass.
(** [filter(p, it)] over any of these iterators: the items are tested as they come. *)
Definition kept {T} (p : heap -> ref -> bool) (visit : T -> heap -> ref -> act T) (s : T) (h : heap) (c : ref) : act T :=
  match visit s h c with
  | Give => if p h c then Give else Pass
  | GiveEnter s' => if p h c then GiveEnter s' else Enter s'
  | a => a
  end.
(** The tests of the select functions. *)
Definition chosen (f : str -> dict str -> bool) (h : heap) (c : ref) : bool :=
  match hp h c with Some (OElem n a _ _) => f n a | _ => false end.
Definition any_elem (n : str) (a : dict str) : bool := true.                              (* 30 *)
Definition named (name : str) (n : str) (a : dict str) : bool := str_eqb n name.          (* 39 *)
Definition matching (pat : str -> bool) (n : str) (a : dict str) : bool := pat n.         (* 48 *)
Definition having (name : str) (val : option str) (n : str) (a : dict str) : bool :=      (* 69-74 *)
  match val, dict_get a name with
  | _, None => false
  | None, Some _ => true
  | Some v, Some w => str_eqb w v
  end.
Definition valued (val : str) (h : heap) (c : ref) : bool := str_eqb (value_of h (nxt h) c) val.   (* 59 *)

(** treeutil.py 141-175 select_pattern, the loop 169-174 with a state. *)
Definition by_state (s : pst) (h : heap) (c : ref) : act pst :=
  match (match hp h c with
         | Some (OElem n _ _ _) => pst_step s n
         | Some (OText _ _) => match s with PMatched => SType | PUntil _ => SState s | _ => SNone end
         | None => SNone
         end) with
  | SType => Raise
  | SState PMatched => Give
  | SState s' => Enter s'
  | SNone => Pass
  end.

(** treeutil.py 76-82 following_siblings: 80-81 run at the call, and leave the iterator behind
    the first item equal to [i]; None: AttributeError. *)
Fixpoint past (p : ref -> bool) (l : list ref) : nat :=
  match l with [] => 0 | x :: r => if p x then 1 else 1 + past p r end.
Definition siblings_from (h : heap) (i : ref) : option (list (frame unit)) :=
  match xml_parent h i with
  | Some p => Some (if existsb (fun x => node_eqb h x i) (kids_of h p)
                    then [(p, past (fun x => node_eqb h x i) (kids_of h p), tt)]
                    else [])                           (* the list iterator is used up *)
  | None => None
  end.
