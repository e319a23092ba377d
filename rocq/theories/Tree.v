(** tree.py: element and text nodes as immutable values (type [xtree]), their
    serialisation and string value.  Children that are neither [element] nor [str]
    (line 102-103) are outside the model: the class documentation (68-70) disclaims them. *)
From Verif Require Import PyStr Parser XTree.

(** [if indent:] tree.py 91, 97: [None] and the empty string are both false; the
    argument [indent] is [[]] for both. *)
Definition indent_bits (indent : str) (depth : nat) : list str :=
  match indent with
  | [] => []
  | _ => [[c_nl]; str_repeat indent depth]
  end.

(** tree.py 88-89 *)
Definition attr_bits (attrs : dict str) : list str :=
  flat_map (fun kv => [[c_sp]; fst kv; [c_eq]; py_quoteattr (snd kv)]) attrs.

(** tree.py 78-105 element.xml_encode(indent, depth) as the list [strbits];
    a [text] child is a [str] (162), so it takes the branch 100-101. *)
Fixpoint element_encode (indent : str) (depth : nat) (t : xtree) : str :=
  match t with
  | XE n a ks =>
      py_join ([[c_lt]; n] ++ attr_bits a ++ [[c_gt]] ++ indent_bits indent depth
        ++ flat_map (fun k =>
             match k with
             | XE _ _ _ => element_encode indent (S depth) k :: indent_bits indent depth
             | XT s => [py_escape s]
             end) ks
        ++ [lit "</"; n; [c_gt]])
  | XT s => s      (* 175-176 text.xml_encode: no escaping *)
  end.
Definition xml_encode (t : xtree) : str := element_encode [] 0 t.

(** tree.py 108-114 element.xml_value, 178-180 text.xml_value *)
Fixpoint xml_value (t : xtree) : str :=
  match t with
  | XE _ _ ks => py_join (map xml_value ks)
  | XT s => s
  end.

(** tree.py 190-203 strval(node, outermost=False) for an element: the accumulator *)
Fixpoint strval_acc (t : xtree) : list str :=
  match t with
  | XE _ _ ks => flat_map (fun k => match k with XT s => [xml_value k] | XE _ _ _ => strval_acc k end) ks
  | XT s => [xml_value t]
  end.
(** strval(node) *)
Definition strval (t : xtree) : str :=
  match t with XE _ _ _ => py_join (strval_acc t) | XT s => xml_value t end.
