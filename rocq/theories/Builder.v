(** The tree builders: tree.treebuilder and xml.treebuilder. *)
From Verif Require Import PyStr Parser XTree Heap.

(** A builder object with the local variables [new_element] and [new_text] of its running
    [_handler] generator, which keep the last objects alive. *)
Record bstate := mkB {
  bheap : heap;
  broot : option ref;    (* self._root *)
  bpar : option ref;     (* self._parent *)
  belem : option ref;    (* local new_element *)
  btext : option ref }.  (* local new_text *)

Definition opt_list (o : option ref) : list ref := match o with Some i => [i] | None => [] end.
Definition broots (s : bstate) : list ref :=
  opt_list (broot s) ++ opt_list (bpar s) ++ opt_list (belem s) ++ opt_list (btext s).

(** Atomic statements of [_handler] (tree.py 211-228). *)
Inductive bstmt :=
| SNewElem (n : str) (a : dict str)   (* 215 new_element = element(ev[1], ev[2], self._parent) *)
| SAppendElem                         (* 217 if self._parent: self._parent.xml_children.append(new_element) *)
| SDown                               (* 218 self._parent = new_element *)
| SRoot                               (* 221 if not self._root: self._root = new_element *)
| SNewText (t : str)                  (* 223 *)
| SAppendText                         (* 224 *)
| SUp.                                (* 226-227 if self._parent: self._parent = self._parent.xml_parent *)

(** tree.py 211-228 *)
Definition handler_stmts (e : event) : list bstmt :=
  match e with
  | EvStart n a _ => [SNewElem n a; SAppendElem; SDown; SRoot]
  | EvChars t => [SNewText t; SAppendText]
  | EvEnd _ _ => [SUp]
  end.

Definition exec (st : bstmt) (s : bstate) : bstate :=
  match st with
  | SNewElem n a => let '(h, i) := alloc (bheap s) (OElem n a [] (bpar s)) in
      mkB h (broot s) (bpar s) (Some i) (btext s)
  | SAppendElem =>
      match bpar s, belem s with
      | Some p, Some i => mkB (append_kid (bheap s) p i) (broot s) (bpar s) (belem s) (btext s)
      | _, _ => s
      end
  | SDown => mkB (bheap s) (broot s) (belem s) (belem s) (btext s)
  | SRoot => match broot s with Some _ => s | None => mkB (bheap s) (belem s) (bpar s) (belem s) (btext s) end
  | SNewText t => let '(h, i) := alloc (bheap s) (OText t (bpar s)) in
      mkB h (broot s) (bpar s) (belem s) (Some i)
  | SAppendText =>
      match bpar s, btext s with
      | Some p, Some i => mkB (append_kid (bheap s) p i) (broot s) (bpar s) (belem s) (btext s)
      | _, _ => s
      end
  | SUp => match bpar s with
           | Some p => mkB (bheap s) (broot s) (xml_parent (bheap s) p) (belem s) (btext s)
           | None => s
           end
  end.

(** Garbage collection between statements. *)
Definition collect (s s' : bstate) : Prop :=
  gc (broots s) (bheap s) (bheap s') /\
  broot s' = broot s /\ bpar s' = bpar s /\ belem s' = belem s /\ btext s' = btext s.

(** All executions of a statement list: a collection may happen before, between and after statements. *)
Inductive runs : bstate -> list bstmt -> bstate -> Prop :=
| runs_nil s s' : collect s s' -> runs s [] s'
| runs_cons s s1 st l s' : collect s s1 -> runs (exec st s1) l s' -> runs s (st :: l) s'.

Definition run_events (s : bstate) (evs : list event) (s' : bstate) : Prop :=
  runs s (flat_map handler_stmts evs) s'.

(** tree.py 232-234: reset, and a new generator. *)
Definition reset (s : bstate) : bstate := mkB (bheap s) None None None None.

(** tree.py 230-238 treebuilder.parse(doc): what the parser sends for [doc] followed by the
    empty final piece is handled by the builder; the result is [self._root]. *)
Inductive tree_parse : bstate -> str -> bstate -> option ref -> Prop :=
| tp s doc evs g s' :
    sends new_parser [(doc, false); ([], true)] = (evs, Suspended g) ->
    run_events (reset s) evs s' ->
    tree_parse s doc s' (broot s').
(** tree.py 207-209 *)
Definition new_builder (h : heap) : bstate := mkB h None None None None.

(** xml.py 119-129 xml.treebuilder.parse(source): a new generator, but neither [_root] nor
    [_parent] are reset.  [evs] are the events sent by the expat callbacks. *)
Inductive xml_tree_parse : bstate -> list event -> bstate -> option ref -> Prop :=
| xtp s evs s' :
    run_events (mkB (bheap s) (broot s) (bpar s) None None) evs s' ->
    xml_tree_parse s evs s' (broot s').
