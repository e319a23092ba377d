(** Which elements share an attribute dictionary.  An event carries a dictionary of its own
    (parser.py 229 copies, xml.py 28 makes a new one); an element keeps that very object if it is
    not empty (tree.py 74, [self.xml_attributes = attrs or {}]).  The other models have
    dictionaries as values. *)
From Verif Require Import PyStr Parser XTree Heap Builder Pattern TreeIter.

(** A dictionary object: that of the [k]-th event, or one made for an element. *)
Inductive cell := OfEvent (k : nat) | OfElem (r : ref).
Definition cell_eqb (c d : cell) : bool :=
  match c, d with
  | OfEvent k, OfEvent l => Nat.eqb k l
  | OfElem r, OfElem q => Nat.eqb r q
  | _, _ => false
  end.
(** The object [xml_attributes] of each element. *)
Notation cells := (ref -> cell) (only parsing).

(** tree.py 74 for an element [r] made at event [k] *)
Definition new_cell (k : nat) (a : dict str) (r : ref) : cell := match a with [] => OfElem r | _ => OfEvent k end.
Definition set_cell (cs : cells) (r : ref) (c : cell) : cells := fun q => if Nat.eqb q r then c else cs q.

(** Any change of the dictionary [r.xml_attributes]: assigning, deleting, updating items. *)
Definition change (cs : cells) (h : heap) (r : ref) (f : dict str -> dict str) : heap :=
  mkH (fun q => match hp h q with
                | Some (OElem n a ks p) => if cell_eqb (cs q) (cs r) then Some (OElem n (f a) ks p) else hp h q
                | o => o
                end) (nxt h).

(** ** treeiter.sender *)
Definition set_heap (s : tstate) (h : heap) : tstate :=
  mkT h (troots s) (tpars s) (tctl s) (tpar s) (telem s) (ttext s) (tkept s) (tsent s).
Inductive changed (cs : cells) : tstate -> tstate -> Prop :=
| ch_none s : changed cs s s
| ch_more s r f s' : changed cs (set_heap s (change cs (theap s) r f)) s' -> changed cs s s'.

(** treeiter.py 138: [element(ev[1], ev[2], parent)] *)
Definition cells_after (k : nat) (st : tstmt) (s : tstate) (cs : cells) : cells :=
  match st with TNewElem _ a => set_cell cs (nxt (theap s)) (new_cell k a (nxt (theap s))) | _ => cs end.
(** The statements for event [k] (treeiter.py 123-163); a sink may change attributes when it is
    served (157). *)
Inductive cruns (k : nat) : tstate -> cells -> list tstmt -> tstate -> cells -> Prop :=
| cr_nil s cs s' : tcollect s s' -> cruns k s cs [] s' cs
| cr_own s cs s1 st s2 l s' cs' : (forall ix, st <> TSend ix) -> tcollect s s1 -> texec st s1 s2 ->
    cruns k s2 (cells_after k st s1 cs) l s' cs' -> cruns k s cs (st :: l) s' cs'
| cr_send s cs s1 ix s2 s3 l s' cs' : tcollect s s1 -> texec (TSend ix) s1 s2 -> changed cs s2 s3 ->
    cruns k s3 cs l s' cs' -> cruns k s cs (TSend ix :: l) s' cs'.

(** The states of a sender after [k] events: in one or several documents, with changes of
    attributes of any elements between the events. *)
Inductive served (h : heap) (ps : list (list stage)) : nat -> tstate -> cells -> Prop :=
| sv_new : served h ps 0 (new_sender h ps) OfElem
| sv_event k s cs e l c x s1 cs1 : served h ps k s cs -> ctl_all (stateses ps) 0 (tctl s) e = (l, c, x) ->
    cruns k s cs l s1 cs1 -> served h ps (S k) (set_ctl s1 c) cs1
| sv_parse k s cs : served h ps k s cs -> served h ps k (new_handler s) cs
| sv_collect k s cs s' : served h ps k s cs -> tcollect s s' -> served h ps k s' cs
| sv_change k s cs s' : served h ps k s cs -> changed cs s s' -> served h ps k s' cs.

(** ** tree.treebuilder, xml.treebuilder *)
Definition with_heap (s : bstate) (h : heap) : bstate := mkB h (broot s) (bpar s) (belem s) (btext s).
(** tree.py 215: [element(ev[1], ev[2], self._parent)] *)
Definition bcells_after (k : nat) (st : bstmt) (s : bstate) (cs : cells) : cells :=
  match st with SNewElem _ a => set_cell cs (nxt (bheap s)) (new_cell k a (nxt (bheap s))) | _ => cs end.
Inductive bruns (k : nat) : bstate -> cells -> list bstmt -> bstate -> cells -> Prop :=
| br_nil s cs s' : collect s s' -> bruns k s cs [] s' cs
| br_cons s cs s1 st l s' cs' : collect s s1 -> bruns k (exec st s1) (bcells_after k st s1 cs) l s' cs' -> bruns k s cs (st :: l) s' cs'.
Inductive built (h : heap) : nat -> bstate -> cells -> Prop :=
| bu_new : built h 0 (new_builder h) OfElem
| bu_event k s cs e s1 cs1 : built h k s cs -> bruns k s cs (handler_stmts e) s1 cs1 -> built h (S k) s1 cs1
| bu_parse k s cs s' : built h k s cs -> s' = reset s \/ s' = mkB (bheap s) (broot s) (bpar s) None None -> built h k s' cs
| bu_collect k s cs s' : built h k s cs -> collect s s' -> built h k s' cs
| bu_change k s cs r f : built h k s cs -> built h k (with_heap s (change cs (bheap s) r f)) cs.
