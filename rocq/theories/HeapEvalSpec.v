(** When an evaluation over node objects is the evaluation over positions. *)
From Verif Require Import PyStr Parser XTree Path Heap Builder HeapSpec RootCache RootSpec DocOrder DocOrderSpec XPath HeapNav HeapNavSpec HeapEval.

(** A value of the positions model stands for an object, in the tree under [r]. *)
Inductive vstands (h : heap) (r : ref) : item -> hval -> Prop :=
| vs_root q o : docelem q = r -> vstands h r IRoot (Obj (HRoot q) o)
| vs_node a i o : follow h r a = Some i -> vstands h r (INode a) (Obj (HNode i) o)
| vs_attr a i k s o : follow h r a = Some i -> vstands h r (IAttr a k s o) (Obj (HAttr i k s) o)
| vs_str s : vstands h r (IStr s) (VStr s)
| vs_int z : vstands h r (IInt z) (VInt z)
| vs_flt f : vstands h r (IFlt f) (VFlt f)
| vs_bool b : vstands h r (IBool b) (VBool b).
Definition vsame (h : heap) (r : ref) (x : list item * fin) (y : list hval * fin) : Prop :=
  Forall2 (vstands h r) (fst x) (fst y) /\ snd x = snd y.
(** The variables have the same names, and hold the same values. *)
Definition same_vars (h : heap) (r : ref) (d : dict item) (d' : dict hval) : Prop :=
  Forall2 (fun p q => fst p = fst q /\ vstands h r (snd p) (snd q)) d d'.

(** Expressions that never yield a root node. *)
Definition narrow (t : ntest) : Prop := match t with TName _ | TText => True | _ => False end.
Fixpoint rootless (e : expr) : Prop :=
  match e with
  | ELit _ | ENeg _ => True
  | EBin l op r =>
      match op with
      | OpPath => rootless r
      | OpDeep => match r with EStep _ t => narrow t | _ => rootless r end
      | OpUnion | OpOr | OpAnd => rootless l /\ rootless r
      | _ => True
      end
  | EAbs _ None => False
  | EAbs _ (Some r) => just_node r = false /\ rootless r
  | EStep ax t =>
      match ax with
      | AxChild | AxAttribute | AxFollowing | AxFollowingSibling | AxPreceding | AxPrecedingSibling => True
      | AxAncestor | AxParent => False
      | _ => narrow t
      end
  | EPred l _ => rootless l
  | ETest t => narrow t
  | EAbbrev _ | EVar _ => False
  | ECall f _ => f <> lit "for-each"
  | ESeq l => fold_right (fun e P => rootless e /\ P) True l
  end.
(** There may be several root node objects for a document.  Expressions in which that is not
    seen: no two root nodes are compared by [!=], and none is in a union.  [D]: the same
    of the expressions that for-each evaluates. *)
Section Careful.
  Variable D : Prop.
  Fixpoint careful (e : expr) : Prop :=
    match e with
    | ELit _ | EStep _ _ | ETest _ | EAbbrev _ | EVar _ | EAbs _ None => True
    | ENeg r | EAbs _ (Some r) => careful r
    | EBin l op r =>
        careful l /\ careful r /\
        match op with
        | OpUnion => rootless l /\ rootless r
        | OpNe => rootless l \/ rootless r
        | _ => True
        end
    | EPred l ps => careful l /\ fold_right (fun e P => careful e /\ P) True ps
    | ECall f args => (f = lit "for-each" -> D) /\ fold_right (fun e P => careful e /\ P) True args
    | ESeq l => fold_right (fun e P => careful e /\ P) True l
    end.
End Careful.

(** What a node is for DocOrder. *)
Definition as_ditem (x : hitem) : ditem :=
  match x with HRoot q => DRoot q | HNode i => DNode i | HAttr i _ _ => DAttr i end.
(** The numbers at a union: after any history, the union has numbered the nodes if need be, and
    so have those in its operands. *)
Definition good_numbers (h : heap) (v : hval -> numbers) : Prop :=
  forall x o, exists u, numbered h u /\ DocOrderSpec.later h (prepare h u (as_ditem x)) (v (Obj x o)).
(** The same position, in the trees under [r] and [r'], or the same value. *)
Definition alike (h : heap) (r : ref) (h' : heap) (r' : ref) (y y' : hval) : Prop := exists x, vstands h r x y /\ vstands h' r' x y'.
