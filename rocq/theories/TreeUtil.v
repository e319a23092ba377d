(** treeutil.py.  Elements are immutable values (type [xtree]) with positions;
    following_siblings, which needs identities and parents, works on the heap. *)
From Verif Require Import PyStr XTree Tree Nodes Pattern Heap.

Definition is_elemb (t : xtree) : bool := match t with XE _ _ _ => true | XT _ => false end.

(** treeutil.py 13-20 *)
Fixpoint descendants (t : xtree) : list located :=
  match t with
  | XE _ _ ks => over (fun k => match k with XE _ _ _ => ([], k) :: descendants k | XT _ => [] end) 0 ks
  | XT _ => []
  end.

(** The argument [source] of the select functions: an element, or an iterable of nodes
    (each with some position).  Iterables with other things in them are outside the model. *)
Inductive source := SrcElem (t : xtree) | SrcItems (l : list located).
(** treeutil.py 28-29, 57-58.  A text node as source is an iterable of characters, not modelled. *)
Definition source_items (s : source) : list located :=
  match s with
  | SrcElem (XE _ _ ks) => over (fun k => [([], k)]) 0 ks
  | SrcElem (XT _) => []
  | SrcItems l => l
  end.
(** treeutil.py 23-30 *)
Definition select_elements (s : source) : list located :=
  filter (fun x => is_elemb (snd x)) (source_items s).
Definition elem_name (t : xtree) : str := match t with XE n _ _ => n | XT _ => lit "#text" end.
Definition elem_attrs (t : xtree) : dict str := match t with XE _ a _ => a | XT _ => [] end.
(** treeutil.py 33-39 *)
Definition select_name (s : source) (name : str) : list located :=
  filter (fun x => str_eqb (elem_name (snd x)) name) (select_elements s).
(** treeutil.py 42-48; [pat]: whether [pat.match] finds a match *)
Definition select_name_pattern (s : source) (pat : str -> bool) : list located :=
  filter (fun x => pat (elem_name (snd x))) (select_elements s).
(** treeutil.py 51-59 *)
Definition select_value (s : source) (val : str) : list located :=
  filter (fun x => str_eqb (xml_value (snd x)) val) (source_items s).
(** treeutil.py 62-74 *)
Definition attr_check (name : str) (val : option str) (t : xtree) : bool :=
  match val, dict_get (elem_attrs t) name with
  | _, None => false
  | None, Some _ => true
  | Some v, Some w => str_eqb w v
  end.
Definition select_attribute (s : source) (name : str) (val : option str) : list located :=
  filter (fun x => attr_check name val (snd x)) (select_elements s).

(** itertools.dropwhile *)
Fixpoint dropwhile {A} (p : A -> bool) (l : list A) : list A :=
  match l with [] => [] | x :: r => if p x then dropwhile p r else l end.
(** treeutil.py 76-82; [None]: AttributeError, as there is no parent. *)
Definition following_siblings (h : heap) (i : nat) : option (list nat) :=
  match xml_parent h i with
  | Some p => match hp h p with
              | Some o => Some (tl (dropwhile (fun x => negb (node_eqb h x i)) (okids o)))
              | None => None
              end
  | None => None
  end.

(** Calling a state with a node: treeutil.py 94-119. *)
Definition node_step (s : pst) (t : xtree) : sres :=
  match t with
  | XE n _ _ => pst_step s n
  | XT _ => match s with
            | PMatched => SType
            | PUntil _ => SState s      (* 112 *)
            | _ => SNone
            end
  end.
(** [for child in node.xml_children]: what is yielded, and whether a TypeError ends it. *)
Section Kids.
  Variable f : xtree -> list located * bool.
  Fixpoint sel_kids (i : nat) (ks : list xtree) : list located * bool :=
    match ks with
    | [] => ([], false)
    | k :: r => let '(l, e) := f k in
                if e then (under i l, true)
                else let '(l2, e2) := sel_kids (S i) r in (under i l ++ l2, e2)
    end.
End Kids.
(** treeutil.py 168-175 *)
Fixpoint select_state (t : xtree) (s : pst) : list located * bool :=
  match t with
  | XE _ _ ks =>
      sel_kids (fun k => match node_step s k with
                         | SType => ([], true)
                         | SState PMatched => ([([], k)], false)
                         | SState s' => select_state k s'
                         | SNone => ([], false)
                         end) 0 ks
  | XT _ => ([], false)
  end.
(** treeutil.py 141-166 with 121-138.  134: [name_test] is the function with two
    parameters (94), so a tuple with a name in it is a TypeError; 117: the empty tuple
    matches nothing. *)
Definition bad_stage (st : stage) : bool := match st with StAlt (_ :: _) => true | _ => false end.
Definition select_pattern (t : xtree) (p : list stage) : list located * bool :=
  if existsb bad_stage p then ([], true) else select_state t (prep_from PMatched p).

(** ** make_pretty *)

(** str.isspace for one character: what str.strip() removes (Unicode White_Space and the
    bidirectional types WS, B, S; CPython Objects/unicodetype_db.h _PyUnicode_IsWhitespace). *)
Definition py_isspace (c : chr) : bool :=
  ((9 <=? c) && (c <=? 13) || (28 <=? c) && (c <=? 32) || (c =? 133) || (c =? 160) || (c =? 5760)
   || (8192 <=? c) && (c <=? 8202) || (c =? 8232) || (c =? 8233) || (c =? 8239) || (c =? 8287)
   || (c =? 12288))%N.
(** [not s.strip()] *)
Definition blankb (s : str) : bool := forallb py_isspace s.
Definition ind_text (indent : str) (depth : nat) : xtree := XT (c_nl :: str_repeat indent depth).

(** treeutil.py 207-236: the new child list from [ix = updated_child_ix] on, with [f] the
    call for a child element (220) and [depth] already incremented (206). *)
Section Pretty.
  Variable f : xtree -> xtree.
  Fixpoint pretty_kids (indent : str) (depth ix : nat) (ks : list xtree) : list xtree :=
    match ks with
    | [] => if Nat.even ix then [ind_text indent (depth - 1)] else []
    | (XE _ _ _ as k) :: r =>
        if Nat.odd ix then f k :: pretty_kids indent depth (ix + 1) r
        else ind_text indent depth :: f k :: pretty_kids indent depth (ix + 2) r
    | XT s :: r =>
        (if blankb s then ind_text indent depth else XT s) :: pretty_kids indent depth (ix + 1) r
    end.
End Pretty.
Definition default_indent : str := lit "  ".
(** treeutil.py 177-238 *)
Fixpoint make_pretty (depth : nat) (indent : str) (t : xtree) : xtree :=
  match t with
  | XE n a ks => XE n a (pretty_kids (make_pretty (S depth) default_indent) indent (S depth) 0 ks)
  | XT s => XT s (* not an element: outside the model *)
  end.
