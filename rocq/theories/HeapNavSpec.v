(** Which node object a position of a tree stands for. *)
From Verif Require Import PyStr Parser XTree Path Heap Builder HeapSpec RootCache RootSpec XPath HeapNav.

(** The object reached from [r] by child numbers. *)
Fixpoint follow (h : heap) (r : ref) (a : addr) : option ref :=
  match a with
  | [] => Some r
  | k :: a' => match hp h r with
               | Some o => match nth_error (okids o) k with Some j => follow h j a' | None => None end
               | None => None
               end
  end.
(** An item of the positions model stands for an object, in the tree under [r]. *)
Inductive stands (h : heap) (r : ref) : item -> hitem -> Prop :=
| st_root q : docelem q = r -> stands h r IRoot (HRoot q)
| st_node a i : follow h r a = Some i -> stands h r (INode a) (HNode i)
| st_attr a i k v o : follow h r a = Some i -> stands h r (IAttr a k v o) (HAttr i k v).
(** Results: the same items in the same order, and the same end. *)
Definition same_res (h : heap) (r : ref) (x : list item * fin) (y : list hitem * fin) : Prop :=
  Forall2 (stands h r) (fst x) (fst y) /\ snd x = snd y.
(** [t] is the tree under [r], which has no parent. *)
Definition document (h : heap) (r : ref) (t : xtree) : Prop := parent_is h r None /\ exists ids, holds h None r t ids.
(** The expression of a location path. *)
Fixpoint path_expr (p : lpath) : expr :=
  match p with
  | LStep ax t => EStep ax t
  | LUp up => EAbbrev up
  | LSlash l r => EBin (path_expr l) OpPath (path_expr r)
  | LDeep l ax t => EBin (path_expr l) OpDeep (EStep ax t)
  | LRoot => EAbs false None
  | LAbs double r => EAbs double (Some (path_expr r))
  | LPos l n => EPred (path_expr l) [ELit (LInt n)]
  | LHas l q => EPred (path_expr l) [path_expr q]
  end.
