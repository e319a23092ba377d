(** What microx is to do with sources that have no element. *)
From Verif Require Import PyStr XTree Parser Expat XPath.

(** The location path [e] starts with this step. *)
Inductive begins (ax : axis) (t : ntest) : expr -> Prop :=
| be_step : begins ax t (EStep ax t)
| be_path l r : begins ax t l -> begins ax t (EBin l OpPath r)
| be_deep l r : begins ax t l -> begins ax t (EBin l OpDeep r)
| be_pred l ps : begins ax t l -> begins ax t (EPred l ps).
(** ... or is absolute *)
Inductive absolute : expr -> Prop :=
| ab_abs d r : absolute (EAbs d r)
| ab_path l r : absolute l -> absolute (EBin l OpPath r)
| ab_deep l r : absolute l -> absolute (EBin l OpDeep r)
| ab_pred l ps : absolute l -> absolute (EPred l ps).
(** A step that only looks at the node itself. *)
Definition stays (ax : axis) (t : ntest) : Prop := ax = AxAttribute \/ ax = AxSelf /\ t <> TStar.
(** A step that needs the neighbours of the node, and before that yields nothing. *)
Definition moves (ax : axis) (t : ntest) : Prop := ax <> AxAttribute /\ ax <> AxSelf /\ (ax = AxAncestorOrSelf \/ ax = AxDescendantOrSelf -> t <> TStar).
(** Of this source no start tag has been seen. *)
Definition no_element (cs : list cb) : Prop := exists stk, callbacks [] cs = ([], Some stk).
(** A number or a truth value: like None, neither a node nor a string. *)
Definition plain (i : item) : Prop := match i with IInt _ | IFlt _ | IBool _ => True | _ => False end.
(** --expr e --foreach g: the path e/g *)
Definition joined (e : expr) (foreach : option expr) : expr := match foreach with Some g => EBin e OpPath g | None => e end.
