(** node.xml_xpath (tree.py 37-64) and the methods compute of uxpath/xast.py as suspended
    generators over node objects: between two calls of next() anything may happen to the trees.
    What is computed without a [yield] in between (predicates, the operands of a union, the
    arguments of functions) is HeapEval's. *)
From Verif Require Import PyStr Parser XTree Heap RootCache DocOrder XPath XQuery HeapNav HeapEval HeapQuery.

(** The nodes at some time, with the cache of root nodes and the numbers of the nodes as in HeapEval. *)
Record moment := At { mh : heap; mc : hval -> rcache; mv : hval -> numbers }.

(** Where a loop of step.compute is. *)
Inductive place :=
| PKids (r : ref) (i : nat)        (* 419: the list iterator over [r.xml_children] *)
| PList (l : list ref)             (* 471, 474, 496: what is left of a copied list; 419 for a root node *)
| PWork (l : list ref)             (* 445, 454, 463, 376: [to_process] *)
| PSelf                            (* 417: before the test of the item itself *)
| PSelfWork                        (* 452, 375: the same, with 453-458 or 376-381 to come *)
| PWorkLate                        (* 453, 376: the item has been tested, [xml_children] not fetched yet *)
| PSelfUp                          (* 438: the same, with 439-443 to come *)
| PUpLate                          (* 439: the item has been tested, [xml_parent] not fetched yet *)
| PSame (p : ref)                  (* 440-442: [parent] stays the same *)
| PUp (p : option ref)             (* 431: [parent] *)
| PUpFrom (p : ref)                (* 434: [parent] has been tested *)
| PRoot                            (* 435, 479 *)
| PAttrs (r : ref) (n i : nat)     (* 426: the iterator over the items of a dictionary that had [n] of them *)
| PBad (e : xexn).
(** What a loop comes to: a node to be tested ([None]: the item itself), or one that is delivered. *)
Inductive found := NoMore | Bad (f : fin) | Node (y : option ref) (a : place) | Ready (y : hitem) (o : birth) (a : place) | Skip (a : place).

Section Live.
  Variable w : env.                  (* [xparse], [to_float] and [float_str] only *)
  Variable hv : dict hval.           (* the variables of the context *)

  (** 447-448, 456-457, 465-466, 378-379 *)
  Definition work (h : heap) (l : list ref) : found :=
    match l with [] => NoMore | i :: l' => Node (Some i) (PWork (hkids1 h i ++ l')) end.
  Definition climb (p : option ref) : found :=
    match p with Some i => Node (Some i) (PUpFrom i) | None => Skip PRoot end.
  Definition attrs_of (h : heap) (r : ref) : dict str := match hp h r with Some (OElem _ a _ _) => a | _ => [] end.
  (** One turn of a loop in the context of [x].  A dictionary that has changed its size is found
      out by its iterator; one that has got other keys instead is not represented. *)
  Definition move (m : moment) (t : ntest) (x : hitem) (o : birth) (a : place) : found :=
    let h := mh m in
    match a with
    | PKids r i => match nth_error (hkids1 h r) i with Some j => Node (Some j) (PKids r (S i)) | None => NoMore end
    | PList l => match l with [] => NoMore | i :: l' => Node (Some i) (PList l') end
    | PWork l => work h l
    | PSelf => Node None (PList [])
    | PSelfWork => Node None PWorkLate
    | PWorkLate => match hkids h x with Some l => work h l | None => Bad (Exn AttributeErr) end
    | PSelfUp => Node None PUpLate
    | PUpLate => match hparent h x with Some p => Node (Some p) (PSame p) | None => Bad (Exn AssertionErr) end
    | PSame p => Node (Some p) (PSame p)
    | PUp p => climb p
    | PUpFrom p => climb (xml_parent h p)
    | PRoot => match hroot h (mc m (Obj x o)) x with
               | (y :: _, _) => Ready y o (PList [])
               | ([], Done) => NoMore
               | ([], f) => Bad f
               end
    | PAttrs r n i =>
        if Nat.eqb (length (attrs_of h r)) n
        then match nth_error (attrs_of h r) i with
             | Some kv => if str_eqb (test_name t) (lit "*") || str_eqb (test_name t) (fst kv)
                          then Ready (HAttr r (fst kv) (snd kv)) Made (PAttrs r n (S i)) else Skip (PAttrs r n (S i))
             | None => NoMore
             end
        else Bad (Exn RuntimeErr)
    | PBad e => Bad (Exn e)
    end.
  (** 460-463, 469-471, 481-483, 490-495 *)
  Definition beside (h : heap) (x : hitem) (k : nat -> list ref -> place) : place :=
    match hparent h x with
    | None => PList []
    | Some p => match hindex h p x with None => PBad ValueErr | Some n => k n (hkids1 h p) end
    end.
  (** step.compute in the context of [x], up to its loop. *)
  Definition enter (h : heap) (ax : axis) (x : hitem) : place :=
    match ax with
    | AxSelf => PSelf
    | AxChild => match x with HNode r => PKids r 0 | HRoot q => PList [docelem q] | HAttr _ _ _ => PBad AttributeErr end
    | AxAttribute => match x with HNode r => if helem h r then PAttrs r (length (attrs_of h r)) 0 else PList [] | _ => PList [] end
    | AxAncestor => PUp (hparent h x)
    | AxAncestorOrSelf => PSelfUp
    | AxDescendant => match hkids h x with Some l => PWork l | None => PBad AttributeErr end
    | AxDescendantOrSelf => PSelfWork
    | AxFollowing => beside h x (fun n l => PWork (skipn (S n) l))
    | AxFollowingSibling => beside h x (fun n l => PList (skipn (S n) l))
    | AxParent => match hparent h x with Some p => PList [p] | None => PRoot end
    | AxPreceding => beside h x (fun _ _ => PList [])          (* 484: list.reverse() returns None *)
    | AxPrecedingSibling => beside h x (fun n l => PList (rev (firstn n l)))
    end.
  (** What the loop does with a node: a step makes a context (ctx.copy) and tests it, the child
      axis only after 420-422; [//] (380) takes it as it is. *)
  Inductive use := Take | Try (ax : axis) (t : ntest).
  Definition seen (h : heap) (u : use) (x : hitem) (y : option ref) : list hitem :=
    match u, y with
    | Take, None => [x]
    | Take, Some i => [HNode i]
    | Try _ t, None => htest h t x
    | Try AxChild t, Some i => if is_name_test t && negb (helem h i) then [] else htest h t (hcopy h x i)
    | Try _ t, Some i => htest h t (hcopy h x i)
    end.

  (** Suspended generators. *)
  Inductive gen :=
  | GAsk (x : hval) (p : xpath_thing)                            (* tree.py 37-64, not started *)
  | GStart (e : expr) (x : hval)                                 (* [e.compute(ctx)] with the item [x], not started *)
  | GList (l : list hval) (f : fin)                              (* what is left of things that are there already *)
  | GStep (u : use) (x : hitem) (o : birth) (a : place)          (* the loop of a step, or of 375-381 *)
  | GFor (b : hval) (e : expr) (cur : option gen) (src : gen)    (* 258-261, 266-271, 379-381, functions.py 297-299: [e] for what comes from [src] *)
  | GPred (x : hval) (pos : nat) (ps : list expr) (src : gen)    (* 536-556, before item number [pos] of [src] *)
  | GCat (g1 g2 : gen).                                          (* 748-753; 367-373: one after the other *)

  Definition at_once (n : nat) (m : moment) (e : expr) (x : hval) : gen :=
    match heval (mh m) w hv (mc m) (mv m) n e x with (_, Cut) => GList [] Cut | (l, f) => GList l f end.
  (** 265: the axis of the step after [//] *)
  Definition deep (e : expr) : expr := match e with EStep _ t => EStep AxDescendantOrSelf t | _ => e end.
  (** The first turn of compute: up to its loop, or the whole of it if it does not yield before it has
      all results.  fuel: for HeapEval *)
  Definition begin (n : nat) (m : moment) (e : expr) (x : hval) : gen :=
    match e with
    | EBin l OpPath r => GFor x r None (GStart l x)
    | EBin l OpDeep r => GFor x (deep r) None (GStart l x)
    | EAbs d (Some r) =>
        match x with
        | Obj y _ => match hroot (mh m) (mc m x) y with
                     | (HRoot q :: _, _) =>
                         let g := if d then GFor x r None (GStep Take (HRoot q) Made PSelfWork) else GStart r (Obj (HRoot q) Made) in
                         if just_node r then GCat (GList [Obj (HRoot q) Made] Done) g else g
                     | (_, f) => GList [] f
                     end
        | _ => GList [] (Exn AssertionErr)
        end
    | EStep ax t =>
        match x with
        | Obj y o => GStep (Try ax t) y o (enter (mh m) ax y)
        | _ => at_once n m e x
        end
    | EPred l ps => GPred x 1 ps (GStart l x)
    | ESeq [] => GList [] Done
    | ESeq (e1 :: es) => GCat (GStart e1 x) (GStart (ESeq es) x)
    | ECall f [a; b] =>
        match dict_get builtins f with
        | Some FnForEach =>
            match heval (mh m) w hv (mc m) (mv m) n b x with
            | (y :: _, _) => match xparse w (vthe (mh m) (vto_string (mh m) w y)) with inl e1 => GFor x e1 None (GStart a x) | inr z => GList [] (Exn z) end
            | ([], Done) => match xparse w (vthe (mh m) (vto_string (mh m) w (VBool false))) with inl e1 => GFor x e1 None (GStart a x) | inr z => GList [] (Exn z) end
            | ([], f) => GList [] f
            end
        | _ => at_once n m e x
        end
    | _ => at_once n m e x
    end.
  (** tree.py 55-64 and uxpath/__init__.py 76-89, up to the first turn of compute *)
  Definition in_context (m : moment) (x : hval) (e : expr) : gen :=
    match x with
    | Obj y _ => if obj_parent (mh m) x then GStart e x
                 else match hroot (mh m) (mc m x) y with
                      | (HRoot q :: _, _) => GStart e (Obj (HRoot q) Made)
                      | (_, f) => GList [] f
                      end
    | _ => GStart e x
    end.
  Definition ask (m : moment) (x : hval) (p : xpath_thing) : gen :=
    match p with
    | Text s => match xparse w s with inl e => in_context m x e | inr z => GList [] (Exn z) end
    | Parsed e => in_context m x e
    | Neither => GList [] (Exn ValueErr)
    end.

  (** next(); fuel: nested calls.  [None]: not enough of it. *)
  Inductive given := Ended | Failed (e : xexn) | Given (y : hval) (g : gen).
  Fixpoint gnext (n : nat) (m : moment) (g : gen) : option given :=
    match n with
    | 0 => None
    | S k =>
        match g with
        | GAsk x p => gnext k m (ask m x p)
        | GStart e x => gnext k m (begin k m e x)
        | GList (y :: l) f => Some (Given y (GList l f))
        | GList [] Done => Some Ended
        | GList [] (Exn e) => Some (Failed e)
        | GList [] Cut => None
        | GStep u x o a =>
            match move m (match u with Try _ t => t | Take => TNode end) x o a with
            | NoMore => Some Ended
            | Bad (Exn e) => Some (Failed e)
            | Bad _ => None
            | Node y a' => match seen (mh m) u x y with
                           | z :: _ => Some (Given (Obj z o) (GStep u x o a'))
                           | [] => gnext k m (GStep u x o a')
                           end
            | Ready y o' a' => Some (Given (Obj y o') (GStep u x o a'))
            | Skip a' => gnext k m (GStep u x o a')
            end
        | GFor b e None src =>
            match gnext k m src with
            | Some (Given y src') => gnext k m (GFor b e (Some (GStart e (vcopy (mh m) b y))) src')
            | r => r
            end
        | GFor b e (Some g1) src =>
            match gnext k m g1 with
            | Some (Given y g1') => Some (Given y (GFor b e (Some g1') src))
            | Some Ended => gnext k m (GFor b e None src)
            | r => r
            end
        | GPred x pos ps src =>
            match gnext k m src with
            | Some (Given y src') =>
                match vverdict (mh m) pos (vcopy (mh m) x y) (map (heval (mh m) w hv (mc m) (mv m) k) ps) with
                | VKeep => Some (Given y (GPred x (S pos) ps src'))
                | VDrop => gnext k m (GPred x (S pos) ps src')
                | VStop (Exn e) => Some (Failed e)
                | VStop _ => None
                end
            | r => r
            end
        | GCat g1 g2 =>
            match gnext k m g1 with
            | Some (Given y g1') => Some (Given y (GCat g1' g2))
            | Some Ended => gnext k m g2
            | r => r
            end
        end
    end.
End Live.
