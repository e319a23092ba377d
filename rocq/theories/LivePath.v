(** Location paths of xml_xpath (tree.py 37-64, uxpath/xast.py 255-271, 361-381, 414-499) as
    suspended generators over node objects: between two calls of next() the tree may be edited. *)
From Verif Require Import PyStr Parser XTree Heap RootCache XPath HeapNav LiveIter.

(** The axes that lead down or to siblings. *)
Inductive laxis := XSelf | XChild | XDescendant | XDescendantOrSelf | XFollowing | XFollowingSibling | XPrecedingSibling.
Definition axis_of (ax : laxis) : axis :=
  match ax with
  | XSelf => AxSelf | XChild => AxChild | XDescendant => AxDescendant | XDescendantOrSelf => AxDescendantOrSelf
  | XFollowing => AxFollowing | XFollowingSibling => AxFollowingSibling | XPrecedingSibling => AxPrecedingSibling
  end.
(** A step: xast.py 396-400.  A path is a list of them, joined with [/]; a step after [//] is one
    with the axis descendant-or-self (264). *)
Definition stage : Type := laxis * ntest.

(** Where a loop of step.compute is when it is suspended. *)
Inductive cursor :=
| CKids (r : ref) (i : nat)      (* 419: the list iterator over [r.xml_children] *)
| CList (l : list ref)           (* 471, 496: what is left of a copied list; 44, 419 for a root node *)
| CWork (l : list ref)           (* 445, 454, 463, 376: [to_process] *)
| CSelf                          (* 417: before the test of the item itself *)
| CSelfWork                      (* 452, 375: the same, with 453-458 or 376-381 to come *)
| CLate                          (* 453, 376: the item has been tested, [xml_children] not fetched yet *)
| CBad (e : xexn).
Inductive cres := KEnd | KBad (e : xexn) | KItem (y : option ref) (cur : cursor).   (* None: the item itself *)

(** A [to_process] loop takes the first node, and puts its children in the place of it before it
    is tested (447-448, 456-457, 465-466, 378-379). *)
Definition work_next (h : heap) (l : list ref) : cres :=
  match l with [] => KEnd | c :: l' => KItem (Some c) (CWork (kids_of h c ++ l')) end.
Definition cnext (h : heap) (x : hitem) (cur : cursor) : cres :=
  match cur with
  | CKids r i => match nth_error (kids_of h r) i with Some c => KItem (Some c) (CKids r (1 + i)) | None => KEnd end
  | CList l => match l with [] => KEnd | c :: l' => KItem (Some c) (CList l') end
  | CWork l => work_next h l
  | CSelf => KItem None (CList [])
  | CSelfWork => KItem None CLate
  | CLate => match hkids h x with Some l => work_next h l | None => KBad AttributeErr end
  | CBad e => KBad e
  end.
(** 459-463, 468-471, 489-495 *)
Definition beside_of (h : heap) (x : hitem) (k : nat -> list ref -> cursor) : cursor :=
  match hparent h x with
  | None => CList []
  | Some p => match hindex h p x with None => CBad ValueErr | Some n => k n (kids_of h p) end
  end.
(** step.compute in the context of [x], up to its loop. *)
Definition cstart (h : heap) (ax : laxis) (x : hitem) : cursor :=
  match ax with
  | XSelf => CSelf
  | XChild => match x with HNode r => CKids r 0 | HRoot q => CList [docelem q] | HAttr _ _ _ => CBad AttributeErr end
  | XDescendant => match hkids h x with Some l => CWork l | None => CBad AttributeErr end
  | XDescendantOrSelf => CSelfWork
  | XFollowing => beside_of h x (fun n l => CWork (skipn (1 + n) l))
  | XFollowingSibling => beside_of h x (fun n l => CList (skipn (1 + n) l))
  | XPrecedingSibling => beside_of h x (fun n l => CList (rev (firstn n l)))
  end.
(** 420-422: the child axis passes over text nodes for a name test. *)
Definition passes (h : heap) (ax : laxis) (t : ntest) (y : option ref) : bool :=
  match ax, y with XChild, Some c => is_name_test t && negb (elem_of h c) | _, _ => false end.
(** What a loop in the context of [x] does with one node: ctx.copy and the node test. *)
Definition tested (h : heap) (x : hitem) (s : stage) (y : option ref) : list hitem :=
  if passes h (fst s) (snd s) y then [] else htest h (snd s) (match y with None => x | Some c => hcopy h x c end).

(** Suspended generators. *)
Inductive pframe :=
| FEval (b x : hitem) (p : list stage)              (* the path [p] is about to be computed in [x]; [b] is the
                                                       context of the whole relative path (258-260) *)
| FStep (b x : hitem) (s : stage) (cur : cursor) (p : list stage)   (* the loop of a step, with the steps [p] after it *)
| FAll (b x : hitem) (cur : cursor) (p : list stage)                (* 375-381 of [//p] *)
| FAbs (double : bool) (x : hitem) (p : list stage)                 (* 361-381 is about to start *)
| FOnce (y : hitem).                                                (* 367-368, 372-373 *)
Definition just_step_node (p : list stage) : bool := match p with [(_, TNode)] => true | _ => false end.   (* 384-387 *)

Section Run.
  Variable c : hitem -> rcache.    (* root_node._cache when it is asked for the root of an item *)
  (** One turn of the innermost generator: it is over, it raises, or it delivers something or not and
      is replaced by others. *)
  Inductive turned := Over | Raised (e : xexn) | Turns (o : option hitem) (fs : list pframe).
  Definition turn (h : heap) (f : pframe) : turned :=
    match f with
    | FEval b x [] => Turns (Some x) []
    | FEval b x (s :: p) => Turns None [FStep b x s (cstart h (fst s) x) p]
    | FStep b x s cur p =>
        match cnext h x cur with
        | KEnd => Over
        | KBad e => Raised e
        | KItem y cur' =>
            match tested h x s y with
            | [] => Turns None [FStep b x s cur' p]
            | z :: _ => match p with
                        | [] => Turns (Some z) [FStep b x s cur' p]
                        | _ => Turns None [FEval b (hcopy_item h b z) p; FStep b x s cur' p]     (* 259-261 *)
                        end
            end
        end
    | FAll b x cur p =>
        match cnext h x cur with
        | KEnd => Over
        | KBad e => Raised e
        | KItem y cur' => let w := match y with None => x | Some i => hcopy h b i end in
                          Turns None [FEval w w p; FAll b x cur' p]
        end
    | FAbs double x p =>
        match hroot h (c x) x with
        | (q :: _, _) =>
            Turns None ((if just_step_node p then [FOnce q] else []) ++
                        (if double then [FAll x q CSelfWork p] else [FEval q q p]))
        | ([], Exn e) => Raised e
        | ([], _) => Over
        end
    | FOnce y => Turns (Some y) []
    end.
  (** next(); fuel: number of turns *)
  Inductive qres := QEnds | QFails (e : xexn) | QGives (y : hitem) (st : list pframe).
  Fixpoint qpull (fuel : nat) (h : heap) (st : list pframe) : option qres :=
    match fuel with
    | 0 => None
    | S k => match st with
             | [] => Some QEnds
             | f :: st' => match turn h f with
                           | Over => qpull k h st'
                           | Raised e => Some (QFails e)
                           | Turns None fs => qpull k h (fs ++ st')
                           | Turns (Some y) fs => Some (QGives y (fs ++ st'))
                           end
             end
    end.
End Run.
(** tree.py 37-64: the generator of [node.xml_xpath(p)], [/p] and [//p]; nothing runs before the first next(). *)
Definition query (x : hitem) (p : list stage) : list pframe := [FEval x x p].
Definition query_abs (double : bool) (x : hitem) (p : list stage) : list pframe := [FAbs double x p].
