(** html5.py: the tree that html5lib edits.  html5lib itself is not modelled; these are the
    methods it calls on the nodes. *)
From Verif Require Import PyStr Parser XTree Heap.

(** A node argument: an object of the heap, a plain [str], or a comment object that html5lib made.
    html5.py 162-184 comment: its [str] content is [data] (tree.py 163-165, text.__new__), but
    [str(comment)] is the empty string (183-184). *)
Inductive harg := HRef (i : ref) | HStr (s : str) | HComment (data : str).

(** What xml_insert makes of an argument: tree.py 132-133 copies every [str] through
    [text(child)], which asks a comment for [str(child)]. *)
Definition insert_arg (x : harg) : node_arg :=
  match x with HRef i => ARef i | HStr s => AStr s | HComment _ => AStr [] end.
(** [item == x] *)
Definition harg_eqb (h : heap) (x : harg) (item : ref) : bool :=
  match x with
  | HRef i => node_eqb h item i
  | HStr s => node_str_eqb h item s
  | HComment d => node_str_eqb h item d
  end.
(** [bool(x)]: elements have neither [__bool__] nor [__len__]; strings are true unless empty. *)
Definition truthy_str (s : str) : bool := match s with [] => false | _ => true end.
Definition harg_truthy (h : heap) (x : harg) : bool :=
  match x with
  | HRef i => match hp h i with Some (OText s _) => truthy_str s | _ => true end
  | HStr s => truthy_str s
  | HComment d => truthy_str d
  end.

(** list.index: the position of the first item for which [p] holds. *)
Fixpoint find_index {A} (p : A -> bool) (l : list A) : option nat :=
  match l with
  | [] => None
  | x :: r => if p x then Some 0 else match find_index p r with Some n => Some (S n) | None => None end
  end.

(** html5.py 56-57 *)
Definition h_appendChild (h : heap) (self : ref) (x : harg) : edit_res := xml_append h self (insert_arg x).
(** html5.py 59-60: list.remove only; the removed node keeps its parent link. *)
Definition h_removeChild (h : heap) (self : ref) (x : harg) : edit_res :=
  match hp h self with
  | Some (OElem n a ks p) =>
      if existsb (harg_eqb h x) ks then EOk (upd h self (OElem n a (remove_first (harg_eqb h x) ks) p)) else EExn h ValueErr_
  | _ => EExn h AttributeErr
  end.
(** html5.py 71-76 *)
Definition h_insertBefore (h : heap) (self : ref) (x refNode : harg) : edit_res :=
  match hp h self with
  | Some (OElem n a ks p) =>
      match find_index (harg_eqb h refNode) ks with
      | Some k => xml_insert h self (insert_arg x) (Z.of_nat k)
      | None => EExn h ValueErr_
      end
  | _ => EExn h AttributeErr
  end.
(** html5.py 62-69; [tree.text(data)] is copied again by xml_insert, so only its value matters. *)
Definition h_insertText (h : heap) (self : ref) (data : str) (refNode : option harg) : edit_res :=
  match refNode with
  | Some r => if harg_truthy h r then h_insertBefore h self (HStr data) r else xml_append h self (AStr data)
  | None => xml_append h self (AStr data)
  end.
(** html5.py 84-87 *)
Definition h_hasContent (h : heap) (self : ref) : bool :=
  match hp h self with Some o => match okids o with [] => false | _ => true end | None => false end.
(** html5.py 153-158 (element); the name and namespace kept for html5lib are not copied, see
    [c_clone]. *)
Definition h_cloneNode (h : heap) (self : ref) : option (heap * ref) :=
  match hp h self with
  | Some (OElem n a _ _) => Some (alloc h (OElem n a [] None))
  | _ => None
  end.
(** html5.py 125-129: the old list is only dropped. *)
Fixpoint append_all (h : heap) (self : ref) (l : list harg) : edit_res :=
  match l with
  | [] => EOk h
  | x :: r => match xml_append h self (insert_arg x) with
              | EOk h1 => append_all h1 self r
              | e => e
              end
  end.
Definition h_set_childNodes (h : heap) (self : ref) (l : list harg) : edit_res :=
  match hp h self with
  | Some (OElem n a _ p) => append_all (upd h self (OElem n a [] p)) self l
  | _ => EExn h AttributeErr
  end.

(** html5.py 93-94 qname_to_local: what follows the last colon; [w] is the part since the last
    colon seen, reversed. *)
Fixpoint after_colon (w s : str) : str :=
  match s with
  | [] => rev w
  | c :: r => if N.eqb c 58%N then after_colon [] r else after_colon (c :: w) r
  end.
Definition qname_to_local (s : str) : str := after_colon [] s.

(** str.startswith *)
Fixpoint starts_with (p s : str) : bool :=
  match p, s with
  | [], _ => true
  | c :: p', d :: s' => N.eqb c d && starts_with p' s'
  | _, _ => false
  end.
(** html5.py 138-146: html5lib's keys are strings or (prefix, local name, namespace) triples. *)
Inductive akey := KStr (s : str) | KTuple (prefix : option str) (local : str) (ns : str).
Fixpoint set_attributes (a : dict str) (l : list (akey * str)) : dict str :=
  match l with
  | [] => a
  | (KTuple _ k _, v) :: r => set_attributes (dict_set a (qname_to_local k) v) r
  | (KStr k, v) :: r => if starts_with (lit "xmlns") k then set_attributes a r else set_attributes (dict_set a k v) r
  end.
Definition h_set_attributes (h : heap) (self : ref) (l : list (akey * str)) : edit_res :=
  match hp h self with
  | Some (OElem n a ks p) => EOk (upd h self (OElem n (set_attributes a l) ks p))
  | _ => EExn h AttributeErr
  end.

(** html5.py 107-119: [lib_name] and [lib_ns] are the instance attributes xml_html5lib_name and
    xml_html5lib_namespace, [None] if never set. *)
Record helem := mkHE { x_name : str; lib_name : option (option str); lib_ns : option (option str) }.
Definition he_name (e : helem) : option str := match lib_name e with Some n => n | None => Some (x_name e) end.
Definition he_namespace (e : helem) : option str := match lib_ns e with Some n => n | None => None end.
Definition he_nameTuple (e : helem) : option str * option str := (he_namespace e, he_name e).

Definition xhtml_ns : str := lit "http://www.w3.org/1999/xhtml".
Definition unnamed : str := lit "UNNAMED_BY_HTML5LIB".
(** html5.py 265-288 eclass *)
Definition opt_str_eqb (a b : option str) : bool :=
  match a, b with Some x, Some y => str_eqb x y | None, None => true | _, _ => false end.
Definition opt_truthy (a : option str) : bool := match a with Some s => truthy_str s | None => false end.
Definition eclass (use_xhtml_ns : bool) (name ns : option str) : helem :=
  let null := negb use_xhtml_ns && opt_str_eqb ns (Some xhtml_ns) in
  let l_ns := if null then Some ns else None in
  let ns1 := if null then None else ns in
  let l_name := if opt_truthy name then None else Some name in
  let name1 := match name with Some (c :: r) => c :: r | _ => unnamed end in
  let l_ns := if char_in 58%N name1 && negb (opt_truthy ns1) then Some ns1 else l_ns in
  mkHE (qname_to_local name1) l_name l_ns.
(** html5.py 153-158 *)
Definition c_clone (e : helem) : helem := mkHE (x_name e) None None.

(** html5.py 214-224, 322-323: the root nodes as html5lib appended them; the result of parse is
    the first that is an html5.element.  Doctypes are plain tree.element objects (256-258) and
    comments are text. *)
Inductive root_node := RElement (i : ref) | RDoctype | RComment (data : str).
Fixpoint first_element (l : list root_node) : option ref :=
  match l with
  | [] => None
  | RElement i :: _ => Some i
  | _ :: r => first_element r
  end.

(** html5.py 341-350: [IndexErr] is raised by the subscripts, outside the [try]. *)
Inductive lax_res := LaxOk (h : heap) (top : ref) | LaxIndexError | LaxAttributeError | LaxEdit (h : heap) (e : edit_exn).
Definition parse_lax (h : heap) (false_top : option ref) : lax_res :=
  match false_top with
  | None => LaxAttributeError
  | Some t =>
      match hp h t with
      | None => LaxAttributeError
      | Some o =>
          match nth_error (okids o) 1 with
          | None => LaxIndexError
          | Some body =>
              match hp h body with
              | None => LaxAttributeError
              | Some ob =>
                  match nth_error (okids ob) 0 with
                  | None => LaxIndexError
                  | Some top =>
                      match xml_remove h body (ARef top) with
                      | EOk h' => LaxOk h' top
                      | EExn h' e => LaxEdit h' e
                      end
                  end
              end
          end
      end
  end.
