(** Queries: tree.py 38-65 node.xml_xpath, and uxpath/__init__.py 102-137 qquery. *)
From Verif Require Import PyStr XTree Grammar Parser XPath Lalr XGram XLex Heap HeapSpec Builder.

(** uxpath/__init__.py 63-71 parse *)
Definition uxpath_parse (v : lexenv) (s : str) : expr + xexn :=
  match parse_text v s with POk e => inl e | PExn x => inr x | PFuel => inr RuntimeErr end.
(** The evaluation in a document, with this parser. *)
Definition world (v : lexenv) (vs : dict item) (tf : str -> option flt) (fs : flt -> str) (t : xtree) : env :=
  mkEnv t vs (uxpath_parse v) tf fs.

Inductive xpath_thing := Text (s : str) | Parsed (e : expr) | Neither.
(** [bool(i.xml_parent)] for a node *)
Definition has_parent (i : item) : bool := match i with INode (_ :: _) | IAttr _ _ _ _ => true | _ => false end.
(** [context(i, force_root=...)], and [compute] *)
Definition in_context (w : env) (n : nat) (force_root : bool) (i : item) (e : expr) : res :=
  match initial w force_root i with Some c => eval w n e c | None => raise AssertionErr end.
(** tree.py 55-65 *)
Definition xml_xpath (w : env) (n : nat) (i : item) (x : xpath_thing) : res :=
  match x with
  | Text s => match xparse w s with inl e => in_context w n (negb (has_parent i)) i e | inr x => raise x end
  | Parsed e => in_context w n (negb (has_parent i)) i e
  | Neither => raise ValueErr
  end.
(** 119-137 for a node; 136: [parsed_expr] is unbound, an UnboundLocalError, which is a NameError *)
Definition qquery_node (w : env) (n : nat) (i : item) (x : xpath_thing) : res :=
  if truthy w i then
    match x with
    | Text s => match xparse w s with inl e => in_context w n (negb (has_parent i)) i e | inr x => raise x end
    | _ => match initial w (negb (has_parent i)) i with Some _ => raise NameErr | None => raise AssertionErr end
    end
  else nothing.
(** 123-126: for a text.  [None]: no document element *)
Inductive qquery_str (h : heap) (mk : xtree -> env) (n : nat) (text : str) (x : xpath_thing) : res -> Prop :=
| Q_none s' : tree_parse (new_builder h) text s' None -> qquery_str h mk n text x nothing
| Q_some s' i t : tree_parse (new_builder h) text s' (Some i) -> holds_tree (bheap s') i t -> qquery_str h mk n text x (qquery_node (mk t) n (INode []) x).
