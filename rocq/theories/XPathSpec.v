(** What MicroXPath expressions should select, in terms of positions in the document. *)
From Verif Require Import PyStr XTree Path XPath.

(** A node of the document, or its root. *)
Definition tree_item (w : env) (c : item) : Prop :=
  match c with IRoot => True | INode a => exists u, subtree (doc w) a = Some u | _ => False end.
Definition element_item (w : env) (c : item) : Prop :=
  exists a n ats ks, c = INode a /\ subtree (doc w) a = Some (XE n ats ks).
(** The document element is an element. *)
Definition document (w : env) : Prop := is_element (doc w).
(** True of parsed documents: C24. *)
Definition no_empty_text (w : env) : Prop := forall a s, subtree (doc w) a = Some (XT s) -> s <> [].

Definition is_text (u : xtree) : Prop := exists s, u = XT s.
(** The node test as a condition on nodes. *)
Definition passes (t : ntest) (u : xtree) : Prop :=
  match t with
  | TStar | TNode => True
  | TName n => exists a ks, u = XE n a ks
  | TText => is_text u
  end.
(** On the child axis a star selects elements only. *)
Definition child_passes (t : ntest) (u : xtree) : Prop :=
  match t with TStar => is_element u | _ => passes t u end.
(** Whether the root node passes. *)
Definition root_passes (t : ntest) : Prop := t = TStar \/ t = TNode.

(** The nodes of a listing as items. *)
Definition nodes (l : list (addr * xtree)) : list item := map (fun x => INode (fst x)) l.

Definition child_of (c : item) (b : addr) : Prop :=
  match c with IRoot => b = [] | INode a => exists i, b = a ++ [i] | _ => False end.
Definition below_item (c : item) (b : addr) : Prop :=
  match c with IRoot => True | INode a => above a b | _ => False end.
(** The siblings after and before the node at [p ++ [i]]. *)
Definition later_sibling (p : addr) (i : nat) (b : addr) : Prop := exists j, b = p ++ [j] /\ i < j.
Definition earlier_sibling (p : addr) (i : nat) (b : addr) : Prop := exists j, b = p ++ [j] /\ j < i.
Definition in_later_sibling (p : addr) (i : nat) (b : addr) : Prop := exists j r, b = p ++ j :: r /\ i < j.

(** A node set: an evaluation that ends normally with these nodes, in document order and
    each once, or in the reverse order. *)
Definition selects (w : env) (P : addr -> xtree -> Prop) (r : list item * fin) : Prop :=
  exists l, listing (doc w) P l /\ r = (nodes l, Done).
Definition selects_back (w : env) (P : addr -> xtree -> Prop) (r : list item * fin) : Prop :=
  exists l, listing (doc w) P l /\ r = (rev (nodes l), Done).

(** An expression that has been evaluated: the axis of some steps after '//' is overwritten. *)
Inductive evaluated : expr -> expr -> Prop :=
| ev_lit l : evaluated (ELit l) (ELit l)
| ev_neg e e' : evaluated e e' -> evaluated (ENeg e) (ENeg e')
| ev_bin l l' op r r' : evaluated l l' -> evaluated r r' -> evaluated (EBin l op r) (EBin l' op r')
| ev_deep l l' ax t : evaluated l l' -> evaluated (EBin l OpDeep (EStep ax t)) (EBin l' OpDeep (EStep AxDescendantOrSelf t))
| ev_root d : evaluated (EAbs d None) (EAbs d None)
| ev_abs d e e' : evaluated e e' -> evaluated (EAbs d (Some e)) (EAbs d (Some e'))
| ev_step ax t : evaluated (EStep ax t) (EStep ax t)
| ev_pred e e' ps ps' : evaluated e e' -> Forall2 evaluated ps ps' -> evaluated (EPred e ps) (EPred e' ps')
| ev_test t : evaluated (ETest t) (ETest t)
| ev_abbrev u : evaluated (EAbbrev u) (EAbbrev u)
| ev_var n : evaluated (EVar n) (EVar n)
| ev_call f l l' : Forall2 evaluated l l' -> evaluated (ECall f l) (ECall f l')
| ev_seq l l' : Forall2 evaluated l l' -> evaluated (ESeq l) (ESeq l').

(** An item that exists in the document: a value, the root, a node, or an attribute. *)
Definition of_document (w : env) (i : item) : Prop :=
  match i with
  | INode a => exists u, subtree (doc w) a = Some u
  | IAttr a k v _ => exists n ats ks, subtree (doc w) a = Some (XE n ats ks) /\ In (k, v) ats
  | _ => True
  end.

(** ** Values *)

(** [s] is the decimal notation of an integer, without superfluous zeros. *)
Fixpoint digits_value (z : Z) (s : str) : option Z :=
  match s with
  | [] => Some z
  | c :: s' => if ((48 <=? c) && (c <=? 57))%N then digits_value (10 * z + (Z.of_N c - 48)) s' else None
  end.
Definition decimal (z : Z) (s : str) : Prop :=
  exists ds, s = (if (z <? 0)%Z then lit "-" ++ ds else ds) /\ digits_value 0 ds = Some (Z.abs z) /\ ds <> [] /\ forall r, ds = lit "0" ++ r -> r = [].

(** The string value of an item, as the documentation of string() has it for nodes; the
    strings of floats are Python's. *)
Inductive string_value (w : env) : item -> str -> Prop :=
| sv_root : string_value w IRoot []
| sv_node a u : subtree (doc w) a = Some u -> string_value w (INode a) (tree_text u)
| sv_attr a k v o : string_value w (IAttr a k v o) v
| sv_str s : string_value w (IStr s) s
| sv_int z s : decimal z s -> string_value w (IInt z) s
| sv_flt f : string_value w (IFlt f) (float_str w f)
| sv_true : string_value w (IBool true) (lit "True")
| sv_false : string_value w (IBool false) (lit "False").

(** Falsehood of an item *)
Definition falsy (w : env) (i : item) : Prop :=
  i = IBool false \/ i = IInt 0 \/ (exists e, i = IFlt (FFin 0 e)) \/ i = IStr [] \/
  (exists a, i = INode a /\ subtree (doc w) a = Some (XT [])).

(** The number a predicate value stands for. *)
Inductive position_of : item -> Z -> Prop :=
| po_int z : position_of (IInt z) z
| po_whole m e : (0 <= e)%Z -> position_of (IFlt (FFin m e)) (m * 2 ^ e)
| po_fraction m e : (e < 0)%Z -> position_of (IFlt (FFin m e)) (Z.quot m (2 ^ (- e))).
Definition is_number (i : item) : Prop := match i with IInt _ | IFlt _ => True | _ => False end.
Definition holds_as (w : env) (v : item) (pos : nat) : Prop :=
  (is_number v /\ position_of v (Z.of_nat pos)) \/ (~ is_number v /\ ~ falsy w v).

(** [kept P pos l l']: [l'] are the items of [l], in order, that satisfy [P] at their
    position, the first one being at [pos]. *)
Inductive kept (P : nat -> item -> Prop) : nat -> list item -> list item -> Prop :=
| k_nil pos : kept P pos [] []
| k_keep pos i l l' : P pos i -> kept P (S pos) l l' -> kept P pos (i :: l) (i :: l')
| k_drop pos i l l' : ~ P pos i -> kept P (S pos) l l' -> kept P pos (i :: l) l'.

(** Equality of values (not nodes): strings with strings, numbers and booleans by value. *)
Definition number_value (i : item) : option flt :=
  match i with IInt z => Some (FFin z 0) | IFlt f => Some f | IBool true => Some (FFin 1 0) | IBool false => Some (FFin 0 0) | _ => None end.
Inductive same_number : flt -> flt -> Prop :=
| sn_inf b : same_number (FInf b) (FInf b)
| sn_fin m e m' e' k : (0 <= e + k)%Z -> (0 <= e' + k)%Z -> (m * 2 ^ (e + k) = m' * 2 ^ (e' + k))%Z -> same_number (FFin m e) (FFin m' e').
Inductive same_value : item -> item -> Prop :=
| same_str s : same_value (IStr s) (IStr s)
| same_num i j x y : number_value i = Some x -> number_value j = Some y -> same_number x y -> same_value i j.

(** Occurrences of strings *)
Definition first_at (x s p q : str) : Prop :=
  s = p ++ x ++ q /\ forall p' q', s = p' ++ x ++ q' -> length p <= length p'.

(** Stepping from the context item [c] to [i]: falsy items are not stepped to. *)
Definition moved (w : env) (c i j : item) : Prop := (~ falsy w i /\ j = i) \/ (falsy w i /\ j = c).
(** What '=' compares for an item on the left: the text of a node, or the value. *)
Definition compared (w : env) (i x : item) : Prop :=
  match i with
  | IRoot | INode _ | IAttr _ _ _ _ => exists s, string_value w i s /\ x = IStr s
  | _ => x = i
  end.
Definition is_node_item (i : item) : Prop := match i with IRoot | INode _ | IAttr _ _ _ _ => True | _ => False end.
(** The value of a predicate or argument: its first item, or false if there is none. *)
Definition first_value (r : list item * fin) (v : item) : Prop :=
  (exists l f, r = (v :: l, f)) \/ (r = ([], Done) /\ v = IBool false).
(** Document order of nodes and the root *)
Inductive item_before : item -> item -> Prop :=
| ib_root i : item_before IRoot i
| ib_same i : item_before i i
| ib_node a b : doc_before a b -> item_before (INode a) (INode b).
(** A predicate value that is a finite number, if it is a number. *)
Definition usable (v : item) : Prop := v <> IFlt FNan /\ forall b, v <> IFlt (FInf b).
(** Operators that fail on an empty left operand; order comparisons and what they demand. *)
(** Expressions whose results come from an attribute step. *)
Inductive attributes_of : expr -> Prop :=
| at_step t : attributes_of (EStep AxAttribute t)
| at_path l r : attributes_of r -> attributes_of (EBin l OpPath r)
| at_pred e ps : attributes_of e -> attributes_of (EPred e ps).
Definition strict (op : binop) : Prop := In op [OpOr; OpAnd; OpNe; OpGt; OpLt; OpGe; OpLe].
Definition is_order (op : binop) : Prop := In op [OpGt; OpLt; OpGe; OpLe].
Definition ordered (op : binop) (less same more : Prop) : Prop :=
  match op with OpLt => less | OpGt => more | OpLe => less \/ same | OpGe => more \/ same | _ => False end.

(** The string a function makes of an argument. *)
Definition arg_string (w : env) (r : list item * fin) (s : str) : Prop := exists v, first_value r v /\ string_value w v s.

(** The whole number a literal argument stands for. *)
Inductive whole_number (w : env) : literal -> Z -> Prop :=
| wn_int z : whole_number w (LInt z) z
| wn_flt f z : position_of (IFlt f) z -> whole_number w (LFlt f) z
| wn_str s f z : to_float w s = Some f -> position_of (IFlt f) z -> whole_number w (LStr s) z.
(** The position that an index of a slice means in a sequence of [n] items: from the end if negative. *)
Inductive slice_pos (n : nat) : Z -> nat -> Prop :=
| sp_in p : p <= n -> slice_pos n (Z.of_nat p) p
| sp_past z : (Z.of_nat n < z)%Z -> slice_pos n z n
| sp_back k : 0 < k -> k <= n -> slice_pos n (- Z.of_nat k) (n - k)
| sp_front z : (z < - Z.of_nat n)%Z -> slice_pos n z 0.

(** Expressions that neither use ancestor-or-self nor evaluate computed expressions.  The
    step after an inner '//' may have any axis, as it is overwritten. *)
Inductive tame : expr -> Prop :=
| tm_lit l : tame (ELit l)
| tm_neg e : tame e -> tame (ENeg e)
| tm_bin l op r : tame l -> tame r -> tame (EBin l op r)
| tm_deep l ax t : tame l -> tame (EBin l OpDeep (EStep ax t))
| tm_root d : tame (EAbs d None)
| tm_abs d e : tame e -> tame (EAbs d (Some e))
| tm_step ax t : ax <> AxAncestorOrSelf -> tame (EStep ax t)
| tm_pred e ps : tame e -> Forall tame ps -> tame (EPred e ps)
| tm_test t : tame (ETest t)
| tm_abbrev u : tame (EAbbrev u)
| tm_var n : tame (EVar n)
| tm_call f l : f <> lit "for-each" -> Forall tame l -> tame (ECall f l)
| tm_seq l : Forall tame l -> tame (ESeq l).

(** Order of values: strings by code points, numbers by value. *)
Inductive str_before : str -> str -> Prop :=
| sb_end a s : str_before [] (a :: s)
| sb_less a b s t : (a < b)%N -> str_before (a :: s) (b :: t)
| sb_same a s t : str_before s t -> str_before (a :: s) (a :: t).
Inductive num_before : flt -> flt -> Prop :=
| nb_neg m e : num_before (FInf true) (FFin m e)
| nb_infs : num_before (FInf true) (FInf false)
| nb_pos m e : num_before (FFin m e) (FInf false)
| nb_fin m e m' e' k : (0 <= e + k)%Z -> (0 <= e' + k)%Z -> (m * 2 ^ (e + k) < m' * 2 ^ (e' + k))%Z -> num_before (FFin m e) (FFin m' e').
(** The plain string of a string or text node. *)
Inductive text_item (w : env) : item -> str -> Prop :=
| ti_str s : text_item w (IStr s) s
| ti_node a s : subtree (doc w) a = Some (XT s) -> text_item w (INode a) s.
(** Conversion of a string to a number *)
Definition converted (w : env) (s : str) : list item * fin := match to_float w s with Some f => ([IFlt f], Done) | None => ([], Exn ValueErr) end.

(** The functions and how many arguments they take, at least and at most. *)
Definition signatures : list (string * (nat * option nat)) :=
  [("name", (0, Some 1)); ("last", (0, Some 0)); ("count", (1, Some 1)); ("string", (0, Some 1)); ("concat", (0, None));
   ("starts-with", (2, Some 2)); ("contains", (2, Some 2)); ("substring-before", (2, Some 2)); ("substring-after", (2, Some 2));
   ("substring", (3, Some 3)); ("string-length", (0, Some 1)); ("normalize-space", (1, Some 1)); ("translate", (2, Some 2));
   ("same-lang", (2, Some 2)); ("boolean", (1, Some 1)); ("not", (1, Some 1)); ("true", (0, Some 0)); ("false", (0, Some 0));
   ("number", (0, Some 1)); ("for-each", (2, Some 2)); ("lookup", (2, Some 2)); ("sum", (1, Some 1)); ("floor", (1, Some 1));
   ("ceiling", (1, Some 1)); ("round", (1, Some 1))]%string.
Definition not_implemented : list string := ["normalize-space"; "translate"; "same-lang"; "sum"; "floor"; "ceiling"; "round"]%string.
Definition takes (lo : nat) (hi : option nat) (n : nat) : Prop := lo <= n /\ match hi with Some k => n <= k | None => True end.
