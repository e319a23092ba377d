(** exec/microx 110-210 without --partition when there is no element yet: [P] (xml.py 119-129) returns
    [self._root], which is None then, and the command is done on None. *)
From Verif Require Import PyStr Parser XTree Heap HeapSpec Builder Expat.
From Verif Require Import XPath XGram XLex XQuery Microx MicroxMain MicroxBad.

(** What the evaluation at None yields: how many times None, and how it ends. *)
Notation nones := (nat * fin)%type (only parsing).
(** xast.py 582-589 and 617-620: None is neither an element, nor a node, nor a string *)
Definition none_test (t : ntest) : nat := match t with TStar => 1 | _ => 0 end.
(** xast.py 414-500 with [ctx.item] None: None has neither [xml_children] nor [xml_parent]; [attribute] asks for an element first. *)
Definition none_step (ax : axis) (t : ntest) : nones :=
  match ax with
  | AxSelf => (none_test t, Done)
  | AxAttribute => (0, Done)
  | AxAncestorOrSelf | AxDescendantOrSelf => (none_test t, Exn AttributeErr)
  | AxChild | AxAncestor | AxDescendant | AxFollowing | AxFollowingSibling | AxParent | AxPreceding | AxPrecedingSibling => (0, Exn AttributeErr)
  end.
(** [for item in selected: yield from k], where [selected] yields None [m] times and ends with [f] *)
Fixpoint none_each (k : nones) (m : nat) (f : fin) : nones :=
  match m with
  | O => (0, f)
  | S m => match snd k with
           | Done => (fst k + fst (none_each k m f), snd (none_each k m f))
           | x => (fst k, x)
           end
  end.
(** [compute] at None; [None]: not modelled (literals, functions, sequences, operators other than / and //, and
    predicates that are looked at).  [ctx.copy(item=None)] keeps the item, which is None (uxpath/__init__.py 92).
    EAbs: root_node.get(None), xast.py 52-55.  EVar: microx 140, there are no variables. *)
Fixpoint none_eval (e : expr) : option nones :=
  match e with
  | EStep ax t => Some (none_step ax t)                            (* xast.py 414-500 *)
  | ETest t => Some (none_test t, Done)
  | EAbbrev up => Some (if up then (0, Exn AttributeErr) else (1, Done))   (* xast.py 637-647 *)
  | EAbs _ _ => Some (0, Exn AssertionErr)                         (* xast.py 360-361 *)
  | EVar _ => Some (0, Exn KeyErr)                                 (* xast.py 676-677 *)
  | EBin l OpPath r => match none_eval l with                      (* xast.py 257-262 *)
                       | Some (O, f) => Some (0, f)
                       | Some (m, f) => match none_eval r with Some k => Some (none_each k m f) | None => None end
                       | None => None end
  | EBin l OpDeep r => match none_eval l with                      (* xast.py 263-271: the axis of the right side is replaced *)
                       | Some (O, f) => Some (0, f)
                       | Some (m, f) => match match r with EStep _ t => Some (none_step AxDescendantOrSelf t) | _ => none_eval r end with
                                        | Some k => Some (none_each k m f) | None => None end
                       | None => None end
  | EPred l ps => match none_eval l, ps with                       (* xast.py 536-556 *)
                  | Some (O, f), _ => Some (0, f)
                  | o, [] => o
                  | _, _ => None end
  | _ => None
  end.
(** microx 149-167 with [root] None; [print(None)] *)
Definition none_print (e : expr) (foreach : option expr) : option (list str * fin) :=
  match none_eval e with
  | None => None
  | Some (m, f) =>
      match foreach, m with
      | None, _ => Some (repeat (lit "None") m, f)
      | Some _, O => Some ([], f)
      | Some g, _ => match none_eval g with
                     | None => None
                     | Some k => Some (repeat (lit "None") (fst (none_each k m f)), snd (none_each k m f))
                     end
      end
  end.
(** microx 155-189 with [root] None.  match: None is the first of [chain([root], descendants(root))], then descendants(None) (treeutil.py 17) raises. *)
Definition none_run (c : command) (foreach : option expr) : option (list str * fin) :=
  match c with
  | CmdExpr e => none_print e foreach
  | CmdMatch e => match none_print e foreach with Some (ls, Done) => Some (ls, Exn AttributeErr) | o => o end
  | CmdFind _ => Some ([], Exn AttributeErr)
  end.

Section Sources.
  Variable go : xtree -> list str * fin.
  Variable go_none : option (list str * fin).
  (** As [read_sources]; [ra_none], [ra_none_stop]: there is no root yet. *)
  Inductive read_any : bstate -> list source -> list str * ending -> Prop :=
  | ra_end s : read_any s [] ([], Ends Done)
  | ra_next s cs srcs evs stk s' i t ls ls' f :
      callbacks [] cs = (evs, Some stk) -> xml_tree_parse s evs s' (Some i) -> holds_tree (bheap s') i t ->
      go t = (ls, Done) -> read_any s' srcs (ls', f) -> read_any s ((cs, false) :: srcs) (ls ++ ls', f)
  | ra_stop s cs srcs evs stk s' i t ls f :
      callbacks [] cs = (evs, Some stk) -> xml_tree_parse s evs s' (Some i) -> holds_tree (bheap s') i t ->
      go t = (ls, f) -> f <> Done -> read_any s ((cs, false) :: srcs) (ls, Ends f)
  | ra_none s cs srcs evs stk s' ls ls' f :
      callbacks [] cs = (evs, Some stk) -> xml_tree_parse s evs s' None ->
      go_none = Some (ls, Done) -> read_any s' srcs (ls', f) -> read_any s ((cs, false) :: srcs) (ls ++ ls', f)
  | ra_none_stop s cs srcs evs stk s' ls f :
      callbacks [] cs = (evs, Some stk) -> xml_tree_parse s evs s' None ->
      go_none = Some (ls, f) -> f <> Done -> read_any s ((cs, false) :: srcs) (ls, Ends f)
  | ra_bad s cs srcs evs stk : callbacks [] cs = (evs, Some stk) -> read_any s ((cs, true) :: srcs) ([], ExpatError).
End Sources.
(** The program without --partition, as [microx_files]. *)
Inductive microx_any (v : lexenv) (tf : str -> option flt) (fs : flt -> str) (n : nat) (h : heap) (a : options) (srcs : list source) : list str * ending -> Prop :=
| ma_fail x : prepare v a = inr x -> microx_any v tf fs n h a srcs ([], Ends (Exn x))
| ma_sources c fe o : prepare v a = inl (c, fe) -> truthy_opt (o_partition a) = None ->
    read_any (fun t => run (world v [] tf fs t) n c fe (o_limit a) (show_attrs a)) (none_run c fe) (new_builder h) srcs o -> microx_any v tf fs n h a srcs o.
