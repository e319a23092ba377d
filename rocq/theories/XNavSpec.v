(** What paths with conditions select, as sets of nodes: the steps as relations between items,
    a path as their composition, a condition as a truth value.  Where the implementation departs
    from XPath in what a single step selects (see C51-C53), the step is as implemented. *)
From Verif Require Import PyStr XTree Path XPath XPathSpec.
From Coq Require Import Sorted.

(** A document: attributes of an element have different names, no text is empty. *)
Definition proper (w : env) : Prop :=
  document w /\ no_empty_text w /\ forall a n ats ks, subtree (doc w) a = Some (XE n ats ks) -> NoDup (map fst ats).

(** The item passes the test. *)
Definition meets (w : env) (t : ntest) (c : item) : Prop :=
  match c with
  | IRoot => root_passes t
  | INode a => exists u, subtree (doc w) a = Some u /\ passes t u
  | _ => False
  end.
(** From [c] the axis [ax] with test [t] leads to [d]. *)
Inductive goes (w : env) : axis -> ntest -> item -> item -> Prop :=
| go_self t c : meets w t c -> goes w AxSelf t c c
| go_child t c b u : subtree (doc w) b = Some u -> child_of c b -> child_passes t u -> goes w AxChild t c (INode b)
| go_down t c b : below_item c b -> meets w t (INode b) -> goes w AxDescendant t c (INode b)
| go_down_self t c : meets w t c -> goes w AxDescendantOrSelf t c c
| go_down_other t c b : below_item c b -> meets w t (INode b) -> goes w AxDescendantOrSelf t c (INode b)
| go_up t p i : meets w t (INode p) -> goes w AxParent t (INode (p ++ [i])) (INode p)
| go_up_attr t a k v o : meets w t (INode a) -> goes w AxParent t (IAttr a k v o) (INode a)
| go_up_top t c : c = IRoot \/ c = INode [] -> goes w AxParent t c IRoot             (* whatever the test, and from the root itself *)
| go_above t a b : above b a -> meets w t (INode b) -> goes w AxAncestor t (INode a) (INode b)
| go_above_top t c : goes w AxAncestor t c IRoot
| go_after t p i b : later_sibling p i b -> meets w t (INode b) -> goes w AxFollowingSibling t (INode (p ++ [i])) (INode b)
| go_before t p i b : earlier_sibling p i b -> meets w t (INode b) -> goes w AxPrecedingSibling t (INode (p ++ [i])) (INode b)
| go_attr t a n ats ks k v : subtree (doc w) a = Some (XE n ats ks) -> In (k, v) ats -> t = TStar \/ t = TName k -> goes w AxAttribute t (INode a) (IAttr a k v Made).
(** [..] *)
Definition goes_up (c d : item) : Prop :=
  match c with
  | INode a => (a = [] /\ d = IRoot) \/ exists p i, a = p ++ [i] /\ d = INode p
  | IRoot => d = IRoot
  | IAttr a _ _ _ => d = INode a
  | _ => False
  end.

(** Kinds of results: the root or an element; the root or any node; an attribute; and values: a truth
    value, a string, a whole number. *)
Inductive kind := KElem | KNode | KAttr | KBool | KStr | KNum.
Definition of_kind (w : env) (k : kind) (c : item) : Prop :=
  match k with
  | KElem => c = IRoot \/ element_item w c
  | KNode => tree_item w c
  | KAttr => exists a n ats ks k v o, c = IAttr a k v o /\ subtree (doc w) a = Some (XE n ats ks) /\ In (k, v) ats
  | KBool => exists b, c = IBool b
  | KStr => exists s, c = IStr s
  | KNum => exists z, c = IInt z
  end.
Definition is_value (k : kind) : bool := match k with KBool | KStr | KNum => true | _ => false end.
Definition tested (t : ntest) : kind := match t with TName _ => KElem | _ => KNode end.
(** The kind a step leads to from a kind; [None]: not covered. *)
Definition step_kind (k : kind) (ax : axis) (t : ntest) : option kind :=
  match k, ax with
  | KElem, AxSelf => Some (match t with TText => KNode | _ => KElem end)
  | KNode, AxSelf => Some (tested t)
  | (KElem | KNode), AxChild => Some (match t with TStar => KElem | _ => tested t end)
  | (KElem | KNode), (AxDescendant | AxDescendantOrSelf) => Some (tested t)
  | (KElem | KNode | KAttr), AxParent => Some KElem
  | KElem, AxAncestor => Some KElem
  | KElem, (AxFollowingSibling | AxPrecedingSibling) => Some (tested t)
  | (KElem | KNode), AxAttribute => match t with
                                    | TStar => Some KAttr
                                    | TName n => if str_eqb n (lit "*") then None else Some KAttr
                                    | _ => None
                                    end
  | _, _ => None
  end.
(** ** The order of what is selected
    Document order; the attributes of an element are in their own order. *)
Inductive precedes (w : env) : item -> item -> Prop :=
| pr_root b : precedes w IRoot (INode b)
| pr_node a b : doc_before a b -> precedes w (INode a) (INode b)
| pr_attr a b k v k' v' o o' : doc_before a b -> precedes w (IAttr a k v o) (IAttr b k' v' o')
| pr_attrs a n ats ks pre k v mid k' v' post o o' : subtree (doc w) a = Some (XE n ats ks) -> ats = pre ++ (k, v) :: mid ++ (k', v') :: post ->
    precedes w (IAttr a k v o) (IAttr a k' v' o').
(** Paths of child, self and attribute steps; the same with a last descendant step; the same
    where the first step is to the parent or to the following siblings. *)
Fixpoint flat (e : expr) : bool :=
  match e with
  | EStep (AxChild | AxSelf | AxAttribute) _ | EAbbrev false => true
  | EBin l OpPath r => flat l && flat r
  | EPred e _ => flat e
  | _ => false
  end.
Fixpoint down (e : expr) : bool :=
  match e with
  | EStep (AxChild | AxSelf | AxAttribute | AxDescendant | AxDescendantOrSelf) _ | EAbbrev false => true
  | EBin l OpPath r => flat l && down r
  | EBin l OpDeep (EStep _ _) => flat l
  | EPred e _ => down e
  | _ => false
  end.
Fixpoint fan (e : expr) : bool :=
  match e with
  | EStep (AxChild | AxSelf | AxAttribute | AxParent | AxFollowingSibling) _ | EAbbrev _ => true
  | EBin l OpPath r => fan l && flat r
  | EPred e _ => fan e
  | EAbs false (Some e) => fan e
  | _ => false
  end.
Fixpoint orderly (e : expr) : bool :=
  fan e || down e ||
  match e with
  | EBin l OpPath r => fan l && down r
  | EBin l OpDeep (EStep _ _) => fan l
  | EPred e _ => orderly e
  | EAbs false (Some e) => orderly e
  | _ => false
  end.
(** What does not select any node twice: also such paths below [//]. *)
Fixpoint once (e : expr) : bool :=
  orderly e ||
  match e with
  | EBin l OpPath r => once l && flat r
  | EPred e _ => once e
  | EAbs false (Some e) => once e
  | EAbs true (Some e) => flat e
  | _ => false
  end.
(** What does not select the root or a text. *)
Fixpoint elements_only (e : expr) : bool :=
  match e with
  | EStep AxChild (TStar | TName _) | EStep (AxDescendant | AxFollowingSibling | AxPrecedingSibling | AxSelf | AxDescendantOrSelf) (TName _) => true
  | EBin l OpPath r => elements_only r
  | EBin l OpUnion r => elements_only l && elements_only r
  | EBin l OpDeep (EStep _ (TName _)) => true
  | EAbs _ (Some e) | EPred e _ => elements_only e
  | _ => false
  end.
(** A step backwards; then its direction is from the end. *)
Fixpoint backward (e : expr) : bool :=
  match e with
  | EStep (AxPrecedingSibling | AxAncestor) _ => true
  | EPred e _ => backward e
  | _ => false
  end.
Definition direction (w : env) (e : expr) : item -> item -> Prop := if backward e then fun i j => precedes w j i else precedes w.
Definition in_line (e : expr) : bool := backward e || orderly e.

(** ** Paths with conditions
    The expressions covered, and the kind of their results at items of kind [k]: paths of steps
    with conditions, absolute or not, and unions of them.  Conditions are values (numbers are
    positions) or paths.  Values are strings, whole numbers, comparisons, and what the functions
    make of values and paths. *)
Definition no_value (k : option kind) : option kind := match k with Some k' => if is_value k' then None else k | None => None end.
Definition is_fn (f : str) (g : string) : bool := str_eqb f (lit g).
(** A value, or a path in order: there is a first item. *)
Definition has_first (k : kind) (e : expr) : bool := is_value k || in_line e.
Definition comparable (op : binop) (k1 k2 : kind) : bool :=
  match op, k1, k2 with
  | (OpEq | OpNe), KBool, KBool | (OpEq | OpNe | OpGt | OpLt | OpGe | OpLe), KNum, KNum | (OpEq | OpNe | OpGt | OpLt | OpGe | OpLe), KStr, KStr => true
  | OpEq, (KElem | KNode | KAttr), KStr => true
  | _, _, _ => false
  end.
(** The functions, given the kinds of their arguments *)
Definition call0_kind (f : str) (k : kind) : option kind :=
  if is_fn f "true" || is_fn f "false" then Some KBool
  else if is_fn f "last" then Some KNum
  else if is_fn f "name" then Some KStr
  else if is_fn f "string" then match k with KNode => None | _ => Some KStr end
  else None.
Definition call1_kind (f : str) (e : expr) (ke : kind) : option kind :=
  if is_fn f "not" || is_fn f "boolean" then Some KBool
  else if is_fn f "count" then if negb (is_value ke) && once e then Some KNum else None
  else if is_fn f "name" then if negb (is_value ke) && in_line e then Some KStr else None
  else if is_fn f "string" then match ke with KNode => None | _ => if has_first ke e then Some KStr else None end
  else if is_fn f "string-length" then match ke with KStr => Some KNum | _ => None end
  else None.
Definition call2_kind (f : str) (e e' : expr) (k k' : kind) : option kind :=
  if has_first k e && has_first k' e' then
    if is_fn f "contains" || is_fn f "starts-with" then Some KBool
    else match e' with
         | ELit (LStr (_ :: _)) => if is_fn f "substring-after" then Some KStr
                                   else if is_fn f "substring-before" then match k with KNode => None | _ => Some KStr end
                                   else None
         | _ => None
         end
  else None.
Definition call3_kind (f : str) (e e' e'' : expr) (k : kind) : option kind :=
  match e', e'' with
  | ELit (LInt i), ELit (LInt m) => if is_fn f "substring" && has_first k e && (1 <=? i)%Z && (0 <=? m)%Z then Some KStr else None
  | _, _ => None
  end.
Fixpoint kind_of (k : kind) (e : expr) : option kind :=
  match e with
  | ELit (LStr _) => if is_value k then None else Some KStr
  | ELit (LInt _) => if is_value k then None else Some KNum
  | EStep ax t => step_kind k ax t
  | EAbbrev false => if is_value k then None else Some k
  | EAbbrev true => if is_value k then None else Some KElem
  | EBin l op r =>
      match op, r with
      | OpPath, _ => match no_value (kind_of k l) with None => None | Some k1 => no_value (kind_of k1 r) end
      | OpDeep, EStep _ t => match kind_of k l with Some (KElem | KNode) => Some (tested t) | _ => None end
      | OpDeep, _ => None
      | OpUnion, _ => match no_value (kind_of k l), no_value (kind_of k r) with
                      | Some _, Some _ => if elements_only l && elements_only r then Some KElem else None
                      | _, _ => None
                      end
      | (OpAnd | OpOr), _ => match kind_of k l, kind_of k r with Some KBool, Some KBool => Some KBool | _, _ => None end
      | _, _ => match kind_of k l, kind_of k r with
                | Some k1, Some k2 => if comparable op k1 k2 && has_first k1 l then Some KBool else None
                | _, _ => None
                end
      end
  | EAbs false (Some e) => match k with KElem => if just_node e then None else no_value (kind_of KElem e) | _ => None end
  | EAbs true (Some e) => match k with KElem => if just_node e then None else no_value (kind_of KNode e) | _ => None end
  | EPred e ps =>
      match no_value (kind_of k e) with
      | None => None
      | Some k1 =>
          if (fix all l := match l with
                           | [] => true
                           | p :: l => match kind_of k1 p with Some KNum => in_line e | Some _ => true | None => false end && all l
                           end) ps
          then Some k1 else None
      end
  | ECall f l =>
      if is_value k then None
      else if is_fn f "concat" then
        if (fix all l := match l with
                         | [] => true
                         | e :: l => match kind_of k e with Some ke => has_first ke e | None => false end && all l
                         end) l
        then Some KStr else None
      else match l with
           | [] => call0_kind f k
           | [e] => match kind_of k e with Some ke => call1_kind f e ke | None => None end
           | [e; e'] => match kind_of k e, kind_of k e' with Some ke, Some ke' => call2_kind f e e' ke ke' | _, _ => None end
           | [e; e'; e''] => match kind_of k e with Some ke => call3_kind f e e' e'' ke | None => None end
           | _ => None
           end
  | _ => None
  end.

(** ** What is selected *)
Definition verdict (P : Prop) (d : item) : Prop := (d = IBool true /\ P) \/ (d = IBool false /\ ~ P).
(** An item that is not one of the false values *)
Definition stands (j : item) : Prop := j <> IBool false /\ j <> IStr [] /\ j <> IInt 0.
(** The first in the order [R] among those with [P]; the one at position [z] from 1. *)
Definition first_of (R : item -> item -> Prop) (P : item -> Prop) (i : item) : Prop := P i /\ forall j, P j -> j = i \/ R i j.
Definition nth_of (R : item -> item -> Prop) (P : item -> Prop) (z : Z) (d : item) : Prop :=
  exists pre post, StronglySorted R (pre ++ d :: post) /\ (forall i, In i (pre ++ d :: post) <-> P i) /\ z = Z.of_nat (S (length pre)).
Definition how_many (P : item -> Prop) (m : Z) : Prop := exists l, NoDup l /\ (forall i, In i l <-> P i) /\ m = Z.of_nat (length l).
(** The text of the first; "False", or something else, if there is none. *)
Definition text_or (none : str) (w : env) (R : item -> item -> Prop) (P : item -> Prop) (s : str) : Prop :=
  (exists i, first_of R P i /\ string_value w i s) \/ ((forall i, ~ P i) /\ s = none).
Definition first_text : env -> (item -> item -> Prop) -> (item -> Prop) -> str -> Prop := text_or (lit "False").
(** All texts, one after the other *)
Definition all_text (w : env) (R : item -> item -> Prop) (P : item -> Prop) (s : str) : Prop :=
  exists l ss, StronglySorted R l /\ (forall i, In i l <-> P i) /\ Forall2 (string_value w) l ss /\ s = concat ss.
Inductive named (w : env) : item -> str -> Prop :=
| nd_elem a m ats ks : subtree (doc w) a = Some (XE m ats ks) -> named w (INode a) m
| nd_text a s : subtree (doc w) a = Some (XT s) -> named w (INode a) (lit "#text")
| nd_root : named w IRoot []
| nd_attr a k v o : named w (IAttr a k v o) [].                            (* not the name of the attribute *)
(** Comparisons: a node, or a string, with a string; numbers; truth values. *)
Definition equal (w : env) (i j : item) : Prop := match j with IStr s => string_value w i s | _ => i = j end.
Definition less (i j : item) : Prop := match i, j with IInt x, IInt y => (x < y)%Z | IStr s, IStr t => str_before s t | _, _ => False end.
Definition related (w : env) (op : binop) (i j : item) : Prop :=
  match op with OpEq => equal w i j | OpNe => ~ equal w i j | _ => ordered op (less i j) (equal w i j) (less j i) end.
(** What the functions make of what the arguments select *)
Definition call0 (w : env) (f : str) (c d : item) : Prop :=
  if is_fn f "true" then d = IBool true
  else if is_fn f "false" then d = IBool false
  else if is_fn f "last" then d = IInt (-1)                                 (* whatever the context *)
  else if is_fn f "name" then exists s, named w c s /\ d = IStr s
  else exists s, string_value w c s /\ d = IStr s.
Definition call1 (w : env) (f : str) (R : item -> item -> Prop) (P : item -> Prop) (d : item) : Prop :=
  if is_fn f "not" then verdict (~ exists j, P j /\ stands j) d
  else if is_fn f "boolean" then verdict (exists j, P j /\ stands j) d
  else if is_fn f "count" then exists m, how_many P m /\ d = IInt m
  else if is_fn f "name" then exists s, ((exists i, first_of R P i /\ named w i s) \/ ((forall i, ~ P i) /\ s = [])) /\ d = IStr s
  else if is_fn f "string" then exists s, text_or [] w R P s /\ d = IStr s
  else exists s, P (IStr s) /\ d = IInt (Z.of_nat (length s)).
Definition call2 (w : env) (f : str) (R : item -> item -> Prop) (P : item -> Prop) (R' : item -> item -> Prop) (P' : item -> Prop) (d : item) : Prop :=
  exists s x, first_text w R P s /\ first_text w R' P' x /\
  if is_fn f "contains" then verdict (exists p q, s = p ++ x ++ q) d
  else if is_fn f "starts-with" then verdict (exists q, s = x ++ q) d
  else if is_fn f "substring-after" then (exists p q, first_at x s p q /\ d = IStr q) \/ ((forall p q, s <> p ++ x ++ q) /\ d = IStr [])
  else (exists p q, first_at x s p q /\ d = IStr p) \/ ((forall p q, s <> p ++ x ++ q) /\ d = IStr s).   (* XPath has "" there *)
Definition call3 (w : env) (R : item -> item -> Prop) (P : item -> Prop) (i m : Z) (d : item) : Prop :=
  exists s, first_text w R P s /\ d = IStr (firstn (Z.to_nat m) (skipn (Z.to_nat i - 1) s)).
Fixpoint nav (w : env) (e : expr) (c d : item) : Prop :=
  match e with
  | ELit (LStr s) => d = IStr s
  | ELit (LInt z) => d = IInt z
  | EStep ax t => goes w ax t c d
  | EAbbrev false => d = c
  | EAbbrev true => goes_up c d
  | EBin l op r =>
      match op, r with
      | OpPath, _ => exists i, nav w l c i /\ nav w r i d
      | OpDeep, EStep _ t => exists i, nav w l c i /\ goes w AxDescendantOrSelf t i d
      | OpDeep, _ => False
      | OpUnion, _ => nav w l c d \/ nav w r c d
      | OpAnd, _ => exists x y, nav w l c (IBool x) /\ nav w r c (IBool y) /\ d = IBool (x && y)
      | OpOr, _ => exists x y, nav w l c (IBool x) /\ nav w r c (IBool y) /\ d = IBool (x || y)
      | _, _ => verdict (exists i j, first_of (direction w l) (nav w l c) i /\ nav w r c j /\ related w op i j) d
      end
  | EAbs false (Some e) => nav w e IRoot d
  | EAbs true (Some e) => exists i, tree_item w i /\ nav w e i d
  | EPred e ps =>
      nav w e c d /\
      (fix all l := match l with
                    | [] => True
                    | p :: l => (exists j, nav w p d j /\ match j with IInt z => nth_of (direction w e) (nav w e c) z d | _ => stands j end) /\ all l
                    end) ps
  | ECall f l =>
      if is_fn f "concat" then
        exists s, (fix all l s := match l with
                                  | [] => s = []
                                  | e :: l => exists s1 s2, all_text w (direction w e) (nav w e c) s1 /\ all l s2 /\ s = s1 ++ s2
                                  end) l s /\ d = IStr s
      else match l with
           | [] => call0 w f c d
           | [e] => call1 w f (direction w e) (nav w e c) d
           | [e; e'] => call2 w f (direction w e) (nav w e c) (direction w e') (nav w e' c) d
           | [e; e'; e''] => match e', e'' with ELit (LInt i), ELit (LInt m) => call3 w (direction w e) (nav w e c) i m d | _, _ => False end
           | _ => False
           end
  | _ => False
  end.
