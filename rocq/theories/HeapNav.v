(** uxpath/xast.py 414-499 over node objects: the steps of
    location paths follow the references of the objects themselves (children lists and weak
    references to parents), where XPath works with positions in a tree. *)
From Verif Require Import PyStr Parser XTree Heap RootCache XPath.

(** Context items: root nodes (xast.py 33-62), elements and text nodes, attribute nodes
    (xast.py 65-78) with the element they were made for. *)
Inductive hitem := HRoot (r : root) | HNode (i : ref) | HAttr (i : ref) (k v : str).
Notation hres := (list hitem * fin)%type (only parsing).

Section Nav.
  Variable h : heap.
  Variable c : rcache.               (* xast.py 39 root_node._cache *)

  (** [isinstance(i, element)]; the string of a text node *)
  Definition helem (i : ref) : bool := match hp h i with Some (OElem _ _ _ _) => true | _ => false end.
  Definition htext (i : ref) : option str := match hp h i with Some (OText s _) => Some s | _ => None end.
  (** [xml_children]: xast.py 44 (root nodes), tree.py 75 and 182-184; attribute nodes have none *)
  Definition hkids1 (i : ref) : list ref := match hp h i with Some o => okids o | None => [] end.
  Definition hkids (x : hitem) : option (list ref) :=
    match x with HRoot r => Some [docelem r] | HNode i => Some (hkids1 i) | HAttr _ _ _ => None end.
  (** [xml_parent], tree.py 25-27 *)
  Definition hparent (x : hitem) : option ref :=
    match x with
    | HRoot _ => None
    | HNode i => xml_parent h i
    | HAttr i _ _ => match hp h i with Some _ => Some i | None => None end
    end.
  (** uxpath/__init__.py 91-99 [ctx.copy(item=i)]: an empty text node is false *)
  Definition hcopy (x : hitem) (i : ref) : hitem := match htext i with Some [] => x | _ => HNode i end.

  (** xast.py 582-589, 617-620 *)
  Definition htest (t : ntest) (x : hitem) : list hitem :=
    match t with
    | TStar => [x]
    | TName n => match x with
                 | HNode i => match hp h i with
                              | Some (OElem m _ _ _) => if str_eqb m n then [x] else []
                              | _ => []
                              end
                 | _ => []
                 end
    | TNode => [x]
    | TText => match x with HNode i => match htext i with Some _ => [x] | None => [] end | _ => [] end
    end.
  (** [for i in l: yield from node_test.compute(ctx.copy(item=i))] *)
  Definition htest_all (t : ntest) (x : hitem) (l : list ref) : list hitem :=
    flat_map (fun i => htest t (hcopy x i)) l.

  (** The loops with [to_process]: xast.py 445-450, 453-458, 462-467.  Whether it has ended. *)
  Fixpoint hwork (fuel : nat) (l : list ref) : list ref * bool :=
    match l with
    | [] => ([], true)
    | i :: r => match fuel with
                | O => ([], false)
                | S n => let '(l', b) := hwork n (hkids1 i ++ r) in (i :: l', b)
                end
    end.
  (** The loop of 431-435 *)
  Fixpoint hclimb (fuel : nat) (p : option ref) : list ref * bool :=
    match p with
    | None => ([], true)
    | Some i => match fuel with
                | O => ([], false)
                | S n => let '(l, b) := hclimb n (xml_parent h i) in (i :: l, b)
                end
    end.
  (** The nodes of a loop are tested; what comes after it, if it ends *)
  Definition hloop (t : ntest) (x : hitem) (lb : list ref * bool) (after : hres) : hres :=
    let l := htest_all t x (fst lb) in
    if snd lb then (l ++ fst after, snd after) else (l, Cut).
  Definition hnothing : hres := ([], Done).
  Definition hraise (e : xexn) : hres := ([], Exn e).

  (** [yield root_node.get(item)], xast.py 50-62.  What it does to the cache: RootCache. *)
  Definition hroot (x : hitem) : hres :=
    match x with
    | HRoot r => ([HRoot r], Done)
    | HNode i => match get h c (RNode i) with
                 | Some (RGot _ r) => ([HRoot r], Done)
                 | Some RAssertion => hraise AssertionErr
                 | None => ([], Cut)
                 end
    | HAttr _ _ _ => hraise AssertionErr
    end.
  (** [p.xml_children.index(item)]; elements and attribute nodes are equal only to themselves,
      text nodes if their strings are equal.  [None]: ValueError *)
  Definition hindex (p : ref) (x : hitem) : option nat :=
    match x with
    | HNode i => find_index (fun j => node_eqb h j i) (hkids1 p)
    | _ => None
    end.
  (** 460-461, 469-470, 481-482, 491-492 *)
  Definition hsiblings (x : hitem) (k : nat -> list ref -> hres) : hres :=
    match hparent x with
    | None => hnothing
    | Some p => match hindex p x with
                | None => hraise ValueErr
                | Some n => k n (hkids1 p)
                end
    end.

  (** xast.py 414-499 step.compute *)
  Definition hstep (fuel : nat) (ax : axis) (t : ntest) (x : hitem) : hres :=
    match ax with
    | AxSelf => (htest t x, Done)
    | AxChild =>
        match hkids x with
        | None => hraise AttributeErr
        | Some l => (htest_all t x (if is_name_test t then filter helem l else l), Done)
        end
    | AxAttribute =>
        match x with
        | HNode i => match hp h i with
                     | Some (OElem _ ats _ _) =>
                         (map (fun kv => HAttr i (fst kv) (snd kv))
                            (filter (fun kv => str_eqb (test_name t) (lit "*") || str_eqb (test_name t) (fst kv)) ats), Done)
                     | _ => hnothing
                     end
        | _ => hnothing
        end
    | AxAncestor => hloop t x (hclimb fuel (hparent x)) (hroot x)
    | AxAncestorOrSelf =>                (* 440-442: [parent] stays the same *)
        match hparent x with
        | None => (htest t x, Exn AssertionErr)
        | Some p => (htest t x ++ htest_all t x (repeat p fuel), Cut)
        end
    | AxDescendant =>
        match hkids x with
        | None => hraise AttributeErr
        | Some l => hloop t x (hwork fuel l) hnothing
        end
    | AxDescendantOrSelf =>
        match hkids x with
        | None => (htest t x, Exn AttributeErr)
        | Some l => let '(m, f) := hloop t x (hwork fuel l) hnothing in (htest t x ++ m, f)
        end
    | AxFollowing => hsiblings x (fun n l => hloop t x (hwork fuel (skipn (S n) l)) hnothing)
    | AxFollowingSibling => hsiblings x (fun n l => (htest_all t x (skipn (S n) l), Done))
    | AxParent =>
        match hparent x with
        | None => hroot x
        | Some p => (htest_all t x [p], Done)
        end
    | AxPreceding => hsiblings x (fun _ _ => hnothing)       (* 484: list.reverse() returns None *)
    | AxPrecedingSibling => hsiblings x (fun n l => (htest_all t x (rev (firstn n l)), Done))
    end.

  (** xast.py 637-647 abbreviated_step: [.] and [..], which tests nothing *)
  Definition habbrev (up : bool) (x : hitem) : hres :=
    if up then match hparent x with Some p => ([HNode p], Done) | None => hroot x end else ([x], Done).
End Nav.

(** Location paths: steps, [.] and [..], [l/r], [l//step], [/], [/r], [//r], and one predicate,
    a number or again a path. *)
Inductive lpath :=
| LStep (ax : axis) (t : ntest)
| LUp (up : bool)
| LSlash (l r : lpath)
| LDeep (l : lpath) (ax : axis) (t : ntest)
| LRoot
| LAbs (double : bool) (r : lpath)
| LPos (l : lpath) (n : Z)
| LHas (l : lpath) (p : lpath).

Section Paths.
  Variable h : heap.
  Variable c : hitem -> rcache.      (* root_node._cache when it is asked for the root of an item *)

  (** [ctx.copy(item=y)] in the context [x] *)
  Definition hcopy_item (x y : hitem) : hitem := match y with HNode i => hcopy h x i | _ => y end.
  (** [for y in l: yield from k(y)] *)
  Fixpoint hbind (l : list hitem) (f : fin) (k : hitem -> hres) : hres :=
    match l with
    | [] => ([], f)
    | y :: l' => match k y with
                 | (l1, Done) => let '(l2, f2) := hbind l' f k in (l1 ++ l2, f2)
                 | r => r
                 end
    end.
  Definition hthen (a b : hres) : hres :=
    match a with (l1, Done) => (l1 ++ fst b, snd b) | _ => a end.
  (** xast.py 536-556 with one predicate: [Some b] for a truth value, [None] if computing it
      does not end well *)
  Fixpoint hpred (pos : nat) (l : list hitem) (f : fin) (v : nat -> hitem -> bool + fin) : hres :=
    match l with
    | [] => ([], f)
    | y :: l' => match v pos y with
                 | inl true => let '(l2, f2) := hpred (S pos) l' f v in (y :: l2, f2)
                 | inl false => hpred (S pos) l' f v
                 | inr f' => ([], f')
                 end
    end.
  (** 547-554: [next(pred.compute(ctx), False)] and [to_boolean] (xast.py 140-162): an empty
      text node is false *)
  Definition hverdict (r : hres) : bool + fin :=
    match r with
    | (y :: _, _) => inl (match y with HNode i => match htext h i with Some [] => false | _ => true end | _ => true end)
    | ([], Done) => inl false
    | ([], f) => inr f
    end.
  Definition lpath_is_node (p : lpath) : bool := match p with LStep _ TNode => true | _ => false end.
  (** xast.py 255-271, 333-389, 414-499, 536-556, 637-647 *)
  Fixpoint hpath (fuel : nat) (p : lpath) (x : hitem) : hres :=
    match p with
    | LStep ax t => hstep h (c x) fuel ax t x
    | LUp up => habbrev h (c x) up x
    | LSlash l r => let '(a, f) := hpath fuel l x in hbind a f (fun y => hpath fuel r (hcopy_item x y))
    | LDeep l _ t => let '(a, f) := hpath fuel l x in
        hbind a f (fun y => let z := hcopy_item x y in hstep h (c z) fuel AxDescendantOrSelf t z)
    | LRoot => hroot h (c x) x
    | LAbs double r =>
        match hroot h (c x) x with
        | (q :: _, _) =>
            hthen (if lpath_is_node r then [q] else [], Done)
              (hthen (hpath fuel r q)
                 (if double
                  then match hkids h q with
                       | Some l => let '(m, b) := hwork h fuel l in
                                   hbind (map HNode m) (if b then Done else Cut) (fun y => hpath fuel r (hcopy_item x y))
                       | None => hraise AttributeErr
                       end
                  else hnothing))
        | r => r
        end
    | LPos l n => let '(a, f) := hpath fuel l x in
        hpred 1 a f (fun pos _ => inl (Z.eqb n (Z.of_nat pos)))
    | LHas l q => let '(a, f) := hpath fuel l x in
        hpred 1 a f (fun _ y => hverdict (hpath fuel q (hcopy_item x y)))
    end.
End Paths.
