(** What a suspended location path has still to deliver, and loops that edit. *)
From Verif Require Import PyStr Parser XTree Heap Builder HeapSpec RootCache XPath HeapNav LiveIter LiveIterSpec LivePath.

(** The path of a list of steps, as uxpath's parser makes it: [((s1/s2)/s3)/...] *)
Definition step_of (s : stage) : lpath := LStep (axis_of (fst s)) (snd s).
Definition path_of (s : stage) (p : list stage) : lpath := fold_left (fun l r => LSlash l (step_of r)) p (step_of s).

Section Spec.
  Variable c : hitem -> rcache.
  Definition qpulls (h : heap) (st : list pframe) (r : qres) : Prop := exists fuel, qpull c fuel h st = Some r.
  (** What next() delivers again and again while the tree stays as it is, and how that ends. *)
  Inductive comes (h : heap) : list pframe -> list hitem -> fin -> Prop :=
  | co_end st : qpulls h st QEnds -> comes h st [] Done
  | co_fail st e : qpulls h st (QFails e) -> comes h st [] (Exn e)
  | co_more st y st' l f : qpulls h st (QGives y st') -> comes h st' l f -> comes h st (y :: l) f.
  (** [for y in it: body], as far as it has got. *)
  Variable body : heap -> hitem -> heap -> Prop.
  Inductive qloop : heap -> list pframe -> list hitem -> heap -> list pframe -> Prop :=
  | ql_start h st : qloop h st [] h st
  | ql_turn h st y st1 h1 out h2 st2 : qpulls h st (QGives y st1) -> body h y h1 -> qloop h1 st1 out h2 st2 ->
      qloop h st (y :: out) h2 st2.
End Spec.

(** Any insertions and removals in elements of which [P] holds, and new elements. *)
Inductive edits_in (P : ref -> Prop) : heap -> heap -> Prop :=
| ei_nil h : edits_in P h h
| ei_new n a h h2 : edits_in P (fst (alloc h (OElem n a [] None))) h2 -> edits_in P h h2
| ei_cons j h h1 h2 : P j -> edit_in j h h1 -> edits_in P h1 h2 -> edits_in P h h2.
Definition live (h : heap) (i : ref) : Prop := hp h i <> None.
(** [j] comes after [i] in a list. *)
Definition after (l : list ref) (i j : ref) : Prop := exists a b, l = a ++ i :: b /\ In j b.
(** [i.xml_parent.xml_remove(i)] *)
Definition cut_out (h : heap) (y : hitem) (h' : heap) : Prop :=
  exists i p, y = HNode i /\ xml_parent h i = Some p /\ xml_remove h p (ARef i) = EOk h'.
(** [i.xml_append(element(n))] *)
Definition grow_at (n : str) (h : heap) (y : hitem) (h' : heap) : Prop := exists i, y = HNode i /\ grow n h i h'.
(** Edits only in elements that do not come after the delivered node in [l]; edits anywhere. *)
Definition behind (l : list ref) (h : heap) (y : hitem) (h' : heap) : Prop := exists i, y = HNode i /\ edits_in (fun j => ~ after l i j) h h'.
Definition anyhow (h : heap) (y : hitem) (h' : heap) : Prop := exists i, y = HNode i /\ edits_in (fun _ => True) h h'.
(** What the node test [t] leaves of nodes [l] reached from [x]. *)
Definition picked (h : heap) (t : ntest) (x : hitem) (l : list ref) : list hitem := flat_map (fun i => htest h t (hcopy h x i)) l.
(** The body of a loop over elements. *)
Definition on_node (body : heap -> ref -> heap -> Prop) (h : heap) (y : hitem) (h' : heap) : Prop := exists i, y = HNode i /\ body h i h'.
(** The names that a name test lets through. *)
Definition name_sel (t : ntest) : option (str -> dict str -> bool) :=
  match t with TStar => Some any_elem | TName n => Some (named n) | _ => None end.
(** A suspended path and a suspended iterator of treeutil.py: both end, or both deliver the same node. *)
Definition goes_on (c : hitem -> rcache) (f : str -> dict str -> bool) (h : heap) (st : list pframe) (st0 : list (frame unit)) : Prop :=
  (qpulls c h st QEnds <-> pulls (flat (chosen f)) h st0 Ends) /\
  forall y, (exists st1, qpulls c h st (QGives y st1)) <-> exists i st1, y = HNode i /\ pulls (flat (chosen f)) h st0 (Gives i st1).
