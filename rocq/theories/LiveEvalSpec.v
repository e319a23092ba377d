(** What a suspended query has still to deliver, and loops over queries. *)
From Verif Require Import PyStr Parser XTree Heap Builder HeapSpec RootCache DocOrder XPath XQuery HeapNav HeapEval LiveIter LivePath LivePathSpec LiveEval.

Section Spec.
  Variable w : env.
  Variable hv : dict hval.
  Definition gpulls (m : moment) (g : gen) (r : given) : Prop := exists n, gnext w hv n m g = Some r.
  (** What next() delivers again and again while everything stays as it is, and how that ends. *)
  Inductive gcomes (m : moment) : gen -> list hval -> fin -> Prop :=
  | gc_end g : gpulls m g Ended -> gcomes m g [] Done
  | gc_fail g e : gpulls m g (Failed e) -> gcomes m g [] (Exn e)
  | gc_more g y g' l f : gpulls m g (Given y g') -> gcomes m g' l f -> gcomes m g (y :: l) f.
  (** [for y in it: body], as far as it has got. *)
  Variable body : moment -> hval -> moment -> Prop.
  Inductive gloop : moment -> gen -> list hval -> moment -> gen -> Prop :=
  | gl_start m g : gloop m g [] m g
  | gl_turn m g y g1 m1 out m2 g2 : gpulls m g (Given y g1) -> body m y m1 -> gloop m1 g1 out m2 g2 -> gloop m g (y :: out) m2 g2.
End Spec.

(** A body that does anything. *)
Definition whatever (m : moment) (y : hval) (m' : moment) : Prop := True.
(** Expressions that have all their results before they deliver the first: everything but paths
    with steps, predicates, sequences and the function for-each. *)
Definition eager (e : expr) : bool :=
  match e with
  | EBin _ OpPath _ | EBin _ OpDeep _ | EAbs _ (Some _) | EStep _ _ | EPred _ _ | ESeq _ => false
  | ECall f _ => negb (str_eqb f (lit "for-each"))
  | _ => true
  end.
(** [y.xml_parent.xml_remove(y)] *)
Definition takes_out (m : moment) (y : hval) (m' : moment) : Prop :=
  exists i o p, y = Obj (HNode i) o /\ xml_parent (mh m) i = Some p /\ xml_remove (mh m) p (ARef i) = EOk (mh m').
(** [y] is the node object [i]. *)
Definition is_ref (y : hval) (i : ref) : Prop := exists o, y = Obj (HNode i) o.
(** The elements above a node: its parent, the parent of that, ... *)
Inductive above (h : heap) : option ref -> list ref -> Prop :=
| ab_top : above h None []
| ab_up i l : above h (xml_parent h i) l -> above h (Some i) (i :: l).
Definition ename (h : heap) (i : ref) : option str := match hp h i with Some (OElem n _ _ _) => Some n | _ => None end.
(** Nothing happens to the names and the parents of the elements [l]. *)
Definition keeps_up (l : list ref) (m : moment) (y : hval) (m' : moment) : Prop :=
  forall i, In i l -> xml_parent (mh m') i = xml_parent (mh m) i /\ ename (mh m') i = ename (mh m) i.
(** The elements that a name test lets through. *)
Definition by_name (t : ntest) (h : heap) (i : ref) : bool :=
  match t with TName n => match ename h i with Some k => str_eqb k n | None => false end | TText => false | _ => true end.
(** Only the values of the attributes of [r] change. *)
Definition sets_values (r : ref) (m : moment) (y : hval) (m' : moment) : Prop :=
  map fst (attrs_of (mh m') r) = map fst (attrs_of (mh m) r).
Definition attr_name (y : hval) : option str := match y with Obj (HAttr _ k _) _ => Some k | _ => None end.
(** The attributes that a name test lets through. *)
Definition wanted (t : ntest) (k : str) : bool := str_eqb (test_name t) (lit "*") || str_eqb (test_name t) k.

(** The expression of a step, and of steps with slashes in between. *)
Definition estep (s : stage) : expr := EStep (axis_of (fst s)) (snd s).
Definition epath (s : stage) (p : list stage) : expr := fold_left (fun l r => EBin l OpPath (estep r)) p (estep s).
(** The object that stands for an item; loops that edit trees only. *)
Definition is_item (y : hval) (z : hitem) : Prop := exists o, y = Obj z o.
Definition on_heap (body : heap -> hitem -> heap -> Prop) (m : moment) (y : hval) (m' : moment) : Prop := exists z, is_item y z /\ body (mh m) z (mh m').
(** A generator of LiveEval and a stack of LivePath: the same is to come, and the same loops go over them. *)
Definition same_rest w hv c (m : moment) (g : gen) (st : list pframe) : Prop :=
  (forall l f, gcomes w hv m g l f -> exists l0, Forall2 is_item l l0 /\ comes c (mh m) st l0 f) /\
  (forall l0 f, comes c (mh m) st l0 f -> exists l, Forall2 is_item l l0 /\ gcomes w hv m g l f).
Definition same_loops w hv c (m : moment) (g : gen) (st : list pframe) : Prop := forall body,
  (forall out m' g', gloop w hv (on_heap body) m g out m' g' ->
     exists out0 st', Forall2 is_item out out0 /\ qloop c body (mh m) st out0 (mh m') st' /\ same_rest w hv c m' g' st') /\
  (forall out0 h' st', qloop c body (mh m) st out0 h' st' ->
     exists out m' g', Forall2 is_item out out0 /\ mh m' = h' /\ gloop w hv (on_heap body) m g out m' g' /\ same_rest w hv c m' g' st').

(** A loop over [e[ps]] as a loop over [e].  The value of a predicate at an item: its first result. *)
Section Sift.
  Variable w : env.
  Variable hv : dict hval.
  Variable body : moment -> hval -> moment -> Prop.
  Definition pred_value (m : moment) (p : expr) (y z : hval) : Prop :=
    exists n, (exists l f, heval (mh m) w hv (mc m) (mv m) n p y = (z :: l, f)) \/ heval (mh m) w hv (mc m) (mv m) n p y = ([], Done) /\ z = VBool false.
  (** A number stands for the position, other values for their truth. *)
  Definition pred_true (h : heap) (pos : nat) (z : hval) : Prop :=
    match z with VInt k => k = Z.of_nat pos | VFlt d => XPath.number_of (IFlt d) = Some (inl (Z.of_nat pos)) | _ => vto_boolean h z = true end.
  Definition pred_false (h : heap) (pos : nat) (z : hval) : Prop :=
    match z with VInt k => k <> Z.of_nat pos | VFlt d => exists k, XPath.number_of (IFlt d) = Some (inl k) /\ k <> Z.of_nat pos | _ => vto_boolean h z = false end.
  Definition kept (m : moment) (ps : list expr) (pos : nat) (y : hval) : Prop := Forall (fun p => exists z, pred_value m p y z /\ pred_true (mh m) pos z) ps.
  Definition left_out (m : moment) (ps : list expr) (pos : nat) (y : hval) : Prop :=
    exists ps1 p ps2 z, ps = ps1 ++ p :: ps2 /\ kept m ps1 pos y /\ pred_value m p y z /\ pred_false (mh m) pos z.
  (** [for y in it: if (y is kept): body]; [pos]: the position of the next item, [x]: the context. *)
  Inductive sifted (x : hval) (ps : list expr) : nat -> moment -> gen -> list hval -> nat -> moment -> gen -> Prop :=
  | si_start pos m g : sifted x ps pos m g [] pos m g
  | si_keep pos m g y g1 m1 out pos2 m2 g2 : gpulls w hv m g (Given y g1) -> kept m ps pos (vcopy (mh m) x y) -> body m y m1 ->
      sifted x ps (S pos) m1 g1 out pos2 m2 g2 -> sifted x ps pos m g (y :: out) pos2 m2 g2
  | si_drop pos m g y g1 z out pos2 m2 g2 : gpulls w hv m g (Given y g1) -> left_out m ps pos (vcopy (mh m) x y) ->
      sifted x ps (S pos) m g1 (z :: out) pos2 m2 g2 -> sifted x ps pos m g (z :: out) pos2 m2 g2.
  (** Nothing that comes is kept. *)
  Inductive no_more (x : hval) (ps : list expr) (m : moment) : nat -> gen -> Prop :=
  | nm_end pos g : gpulls w hv m g Ended -> no_more x ps m pos g
  | nm_drop pos g y g1 : gpulls w hv m g (Given y g1) -> left_out m ps pos (vcopy (mh m) x y) -> no_more x ps m (S pos) g1 -> no_more x ps m pos g.
End Sift.

(** Predicates that look at names, attributes and texts only: for elements that were there in [h], as long as those are kept. *)
Definition label_at (h : heap) (i : ref) : option ((str * dict str) + str) :=
  match hp h i with Some (OElem n a _ _) => Some (inl (n, a)) | Some (OText s _) => Some (inr s) | None => None end.
Definition by_label (w : env) (hv : dict hval) (h : heap) (ps : list expr) (S : ref -> bool) : Prop :=
  forall m pos i o, (forall j, label_at h j <> None -> label_at (mh m) j = label_at h j) -> elem_of h i = true ->
    (kept w hv m ps pos (Obj (HNode i) o) <-> S i = true) /\ (left_out w hv m ps pos (Obj (HNode i) o) <-> S i = false).
