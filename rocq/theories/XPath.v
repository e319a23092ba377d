(** uxpath/xast.py and uxpath/functions.py: evaluation of MicroXPath expressions over one
    document, whose tree is not edited meanwhile.

    Generators: a computation is the list of the items it yields and how it ends.  As
    generators are lazy, [next] looks only at the first item, and what would happen after it
    does not happen.  Loops that may not end and evaluations of computed expressions use
    fuel; running out of it ([Cut]) means that there is more to come.  XPathFacts shows that
    more fuel only continues the result.

    Simplifications:
    - one document; variables hold strings, numbers, booleans and nodes of that document;
    - the functions of the context are the built in ones;
    - root nodes and attribute nodes are compared (by !=) by what they stand for, not by
      object identity;
    - exception messages are dropped; the recursion limit is not modelled;
    - the syntax (lexrules.py, parserules.py and the ply library) is not modelled: for-each
      uses an arbitrary function from strings to expressions. *)
From Verif Require Import PyStr XTree Tree Path TreeUtil.
From Coq Require Decimal.

(** ** Numbers *)

(** Floats: [FFin m e] is m * 2^e.  Negative zero is not distinguished. *)
Inductive flt := FNan | FInf (negative : bool) | FFin (m e : Z).
Definition flt_cmp (a b : flt) : option comparison :=
  match a, b with
  | FNan, _ | _, FNan => None
  | FInf true, FInf true | FInf false, FInf false => Some Eq
  | FInf true, _ | _, FInf false => Some Lt
  | FInf false, _ | _, FInf true => Some Gt
  | FFin m e, FFin m' e' =>
      let k := Z.min e e' in Some ((m * 2 ^ (e - k)) ?= (m' * 2 ^ (e' - k)))%Z
  end.
Definition flt_true (f : flt) : bool := match f with FFin m _ => negb (m =? 0)%Z | _ => true end.

(** ** Items *)

(** Attribute nodes are objects made anew whenever the attribute axis is computed, and they are
    compared by identity (tree.py 19-65: [node] defines no [__eq__]): [Made] by a step in the
    expression at hand, the object that is the context item where it is compared ([Here]), or
    an object that the caller gave as the value of variables. *)
Inductive birth := Made | Here | Given (n : nat).
Inductive item :=
| IRoot                              (* xast.py 34-62 root_node *)
| INode (a : addr)                   (* the element or text node at a position *)
| IAttr (a : addr) (k v : str) (o : birth)  (* xast.py 65-78 attribute_node; 69 resets its xml_name to '' *)
| IStr (s : str)
| IInt (z : Z)
| IFlt (f : flt)
| IBool (b : bool).

Inductive xexn := AttributeErr | AssertionErr | TypeErr | RuntimeErr | ValueErr | KeyErr | NotImplErr | NameErr | OverflowErr.
Inductive fin := Done | Exn (e : xexn) | Cut.
Notation res := (list item * fin)%type (only parsing).

Definition yield1 (i : item) : res := ([i], Done).
Definition nothing : res := ([], Done).
Definition raise (e : xexn) : res := ([], Exn e).
(** [for item in r: yield from k(item)] *)
Fixpoint bindl (l : list item) (f : fin) (k : item -> res) : res :=
  match l with
  | [] => ([], f)
  | i :: l' => match k i with
               | (l1, Done) => let '(l2, f2) := bindl l' f k in (l1 ++ l2, f2)
               | (l1, f1) => (l1, f1)
               end
  end.
Definition bind (r : res) (k : item -> res) : res := bindl (fst r) (snd r) k.
(** One generator after the other. *)
Definition seq2 (r1 r2 : res) : res :=
  match r1 with
  | (l1, Done) => let '(l2, f2) := r2 in (l1 ++ l2, f2)
  | _ => r1
  end.
Fixpoint seq_all (l : list res) : res :=
  match l with [] => nothing | r :: l' => seq2 r (seq_all l') end.
(** [next(r, default)]: continue with the first item. *)
Definition first (r : res) (none : res) (k : item -> res) : res :=
  match r with
  | (i :: _, _) => k i
  | ([], Done) => none
  | ([], f) => ([], f)
  end.
(** [list(r)]: continue with all items. *)
Definition collected (r : res) (k : list item -> res) : res :=
  match r with
  | (l, Done) => k l
  | (_, f) => ([], f)
  end.

(** ** Expressions: the classes of xast.py *)
Inductive axis := AxSelf | AxChild | AxAttribute | AxAncestor | AxAncestorOrSelf | AxDescendant | AxDescendantOrSelf
| AxFollowing | AxFollowingSibling | AxParent | AxPreceding | AxPrecedingSibling.
(** 559-620: name_test, for '*' and for a name, and node_type_test *)
Inductive ntest := TStar | TName (n : str) | TNode | TText.
Inductive binop := OpPath | OpDeep | OpUnion | OpEq | OpNe | OpGt | OpLt | OpGe | OpLe | OpOr | OpAnd
| OpOther (name : str).
Inductive literal := LStr (s : str) | LInt (z : Z) | LFlt (f : flt).
Inductive expr :=
| ELit (l : literal)                      (* 165-186 literal_wrapper *)
| ENeg (e : expr)                         (* 189-215 unary_expression *)
| EBin (l : expr) (op : binop) (r : expr) (* 221-330 binary_expression *)
| EAbs (double : bool) (r : option expr)  (* 333-383 absolute_path *)
| EStep (ax : axis) (t : ntest)           (* 392-505 step *)
| EPred (e : expr) (ps : list expr)       (* 508-556 predicated_expression *)
| ETest (t : ntest)                       (* 592-620: a node type test that is not part of a step *)
| EAbbrev (up : bool)                     (* 623-653 abbreviated_step *)
| EVar (n : str)                          (* 656-677 variable_reference *)
| ECall (f : str) (args : list expr)      (* 680-716 function_call *)
| ESeq (l : list expr).                   (* 719-753 Sequence *)

(** What an evaluation depends on: the document element, the variables, uxpath.parse
    ([inr e]: it raises), and the decimal conversions float(s) and str(f). *)
Record env := mkEnv {
  doc : xtree;
  vars : dict item;
  xparse : str -> expr + xexn;
  to_float : str -> option flt;
  float_str : flt -> str }.

(** str(z) for an integer *)
Fixpoint digits (d : Decimal.uint) : str :=
  match d with
  | Decimal.Nil => []
  | Decimal.D0 d => 48 :: digits d | Decimal.D1 d => 49 :: digits d | Decimal.D2 d => 50 :: digits d | Decimal.D3 d => 51 :: digits d
  | Decimal.D4 d => 52 :: digits d | Decimal.D5 d => 53 :: digits d | Decimal.D6 d => 54 :: digits d | Decimal.D7 d => 55 :: digits d
  | Decimal.D8 d => 56 :: digits d | Decimal.D9 d => 57 :: digits d
  end%N.
Definition int_str (z : Z) : str :=
  match Z.to_int z with Decimal.Pos d => digits d | Decimal.Neg d => 45%N :: digits d end.

Section Eval.
  Variable w : env.

  Definition node_at (a : addr) : option xtree := subtree (doc w) a.
  Definition is_elem_at (a : addr) : bool := match node_at a with Some (XE _ _ _) => true | _ => false end.
  Definition text_at (a : addr) : option str := match node_at a with Some (XT s) => Some s | _ => None end.

  (** [isinstance(i, node)], [isinstance(i, element)]; the string of a [str], text nodes being
      strings (tree.py 162). *)
  Definition is_node (i : item) : bool := match i with IRoot | INode _ | IAttr _ _ _ _ => true | _ => false end.
  Definition as_str (i : item) : option str := match i with INode a => text_at a | IStr s => Some s | _ => None end.
  Definition as_num (i : item) : option flt :=
    match i with
    | IInt z => Some (FFin z 0)
    | IFlt f => Some f
    | IBool b => Some (FFin (if b then 1 else 0) 0)
    | _ => None
    end.
  (** [bool(i)] *)
  Definition truthy (i : item) : bool :=
    match i with
    | IStr [] => false
    | IInt z => negb (z =? 0)%Z
    | IFlt f => flt_true f
    | IBool b => b
    | INode a => match text_at a with Some [] => false | _ => true end
    | _ => true
    end.
  (** uxpath/__init__.py 91-99 [ctx.copy(item=i)].  The only part of the context that changes
      and is looked at is the item. *)
  Definition copy (c i : item) : item := if truthy i then i else c.

  (** [i.xml_children]; [None]: AttributeError *)
  Definition kid_addrs (a : addr) : list addr :=
    match node_at a with
    | Some (XE _ _ ks) => map (fun i => a ++ [i]) (seq 0 (length ks))
    | _ => []
    end.
  Definition kids (i : item) : option (list addr) :=
    match i with
    | IRoot => Some [[]]
    | INode a => Some (kid_addrs a)
    | _ => None
    end.
  (** [i.xml_parent]; [None]: AttributeError *)
  Definition parent (i : item) : option (option addr) :=
    match i with
    | IRoot => Some None
    | INode [] => Some None
    | INode a => Some (Some (removelast a))
    | IAttr a _ _ _ => Some (Some a)
    | _ => None
    end.
  (** xast.py 52-62 root_node.get: the cache, and that it does not matter, see RootCache *)
  Definition root_of (i : item) : option item :=
    match i with
    | IRoot => Some IRoot
    | INode a => if is_elem_at a then Some IRoot else None
    | _ => None
    end.
  Definition with_root (i : item) (k : item -> res) : res :=
    match root_of i with Some r => k r | None => raise AssertionErr end.

  (** The loops with [to_process]: xast.py 445-450, 453-458, 462-467, 378-383. *)
  Fixpoint worklist (fuel : nat) (l : list addr) : list addr :=
    match fuel, l with
    | S n, a :: r => a :: worklist n (kid_addrs a ++ r)
    | _, _ => []
    end.
  Definition process (l : list addr) : list addr := worklist (tree_size (doc w)) l.

  (** [parent.xml_children.index(i)]: text nodes are equal if their strings are.
      [None]: ValueError *)
  Fixpoint find_index {A} (p : A -> bool) (l : list A) : option nat :=
    match l with
    | [] => None
    | x :: r => if p x then Some 0 else option_map S (find_index p r)
    end.
  Definition same_node (i : item) (b : addr) : bool :=
    match i with
    | INode a => if list_eq_dec Nat.eq_dec a b then true
                 else match text_at a, text_at b with Some s, Some s' => str_eqb s s' | _, _ => false end
    | _ => false
    end.
  Definition sibling_index (p : addr) (i : item) : option nat := find_index (same_node i) (kid_addrs p).

  (** xast.py 582-589, 617-620: the test at a context item *)
  Definition test (t : ntest) (c : item) : res :=
    match t with
    | TStar => yield1 c
    | TName n => match c with
                 | INode a => match node_at a with
                              | Some (XE m _ _) => if str_eqb m n then yield1 c else nothing
                              | _ => nothing
                              end
                 | _ => nothing
                 end
    | TNode => if is_node c || (match as_str c with Some _ => true | None => false end) then yield1 c else nothing
    | TText => match as_str c with Some _ => yield1 c | None => nothing end
    end.
  Definition test_name (t : ntest) : str :=
    match t with TStar => lit "*" | TName n => n | TNode => lit "node" | TText => lit "text" end.
  Definition is_name_test (t : ntest) : bool := match t with TStar | TName _ => true | _ => false end.
  (** [for x in l: yield from node_test.compute(ctx.copy(item=x))] *)
  Definition test_all (t : ntest) (c : item) (l : list addr) : res :=
    bindl (map INode l) Done (fun i => test t (copy c i)).

  (** The chain of parents (xast.py 431-435). *)
  Fixpoint ancestors_of (a : addr) (n : nat) : list addr :=
    match n with O => [] | S n => match a with [] => [] | _ => removelast a :: ancestors_of (removelast a) n end end.

  (** xast.py 414-499 step.compute *)
  Definition step (fuel : nat) (ax : axis) (t : ntest) (c : item) : res :=
    match ax with
    | AxSelf => test t c
    | AxChild =>
        match kids c with
        | None => raise AttributeErr
        | Some l => test_all t c (if is_name_test t then filter is_elem_at l else l)
        end
    | AxAttribute =>
        match c with
        | INode a => match node_at a with
                     | Some (XE _ ats _) =>
                         (map (fun kv => IAttr a (fst kv) (snd kv) Made)
                            (filter (fun kv => str_eqb (test_name t) (lit "*") || str_eqb (test_name t) (fst kv)) ats), Done)
                     | _ => nothing
                     end
        | _ => nothing
        end
    | AxAncestor =>
        match parent c with
        | None => raise AttributeErr
        | Some p =>
            seq2 (test_all t c (match p with Some a => a :: ancestors_of a (length a) | None => [] end))
                 (with_root c yield1)
        end
    | AxAncestorOrSelf =>
        seq2 (test t c)
             (match parent c with
              | None => raise AttributeErr
              | Some None => raise AssertionErr
              | Some (Some p) => let '(l, _) := test_all t c (repeat p fuel) in (l, Cut)
              end)
    | AxDescendant =>
        match kids c with
        | None => raise AttributeErr
        | Some l => test_all t c (process l)
        end
    | AxDescendantOrSelf =>
        seq2 (test t c)
             (match kids c with
              | None => raise AttributeErr
              | Some l => test_all t c (process l)
              end)
    | AxFollowing =>
        match parent c with
        | None => raise AttributeErr
        | Some None => nothing
        | Some (Some p) =>
            match sibling_index p c with
            | None => raise ValueErr
            | Some i => test_all t c (process (skipn (S i) (kid_addrs p)))
            end
        end
    | AxFollowingSibling =>
        match parent c with
        | None => raise AttributeErr
        | Some None => nothing
        | Some (Some p) =>
            match sibling_index p c with
            | None => raise ValueErr
            | Some i => test_all t c (skipn (S i) (kid_addrs p))
            end
        end
    | AxParent =>
        match parent c with
        | None => raise AttributeErr
        | Some None => with_root c yield1
        | Some (Some p) => test_all t c [p]
        end
    | AxPreceding =>                    (* 484: list.reverse() returns None *)
        match parent c with
        | None => raise AttributeErr
        | Some None => nothing
        | Some (Some p) => match sibling_index p c with None => raise ValueErr | Some _ => nothing end
        end
    | AxPrecedingSibling =>
        match parent c with
        | None => raise AttributeErr
        | Some None => nothing
        | Some (Some p) =>
            match sibling_index p c with
            | None => raise ValueErr
            | Some i => test_all t c (rev (firstn i (kid_addrs p)))
            end
        end
    end.

  (** xast.py 637-647 *)
  Definition abbrev (up : bool) (c : item) : res :=
    if up
    then match parent c with
         | None => raise AttributeErr
         | Some (Some p) => yield1 (INode p)
         | Some None => with_root c yield1
         end
    else yield1 c.

  (** ** Casts, for one item (the other branches of 93-162 concern sequences) *)

  (** [xml_value] of a node *)
  Definition node_value (i : item) : option str :=
    match i with
    | IRoot => Some []
    | INode a => option_map xml_value (node_at a)
    | IAttr _ _ v _ => Some v
    | _ => None
    end.
  (** tree.py 190-203 *)
  Definition node_strval (i : item) : option str :=
    match i with
    | INode a => option_map strval (node_at a)
    | _ => node_value i
    end.
  (** xast.py 93-114: strings, also text nodes, are yielded as they are; [True] is an [int] (109) *)
  Definition to_string (i : item) : item :=
    match as_str i with
    | Some _ => i
    | None =>
        match node_strval i with
        | Some s => IStr s
        | None => match i with
                  | IInt z => IStr (int_str z)
                  | IFlt f => IStr (float_str w f)
                  | IBool true => IStr (lit "True")
                  | IBool false => IStr (lit "False")
                  | _ => i
                  end
        end
    end.
  Definition the_str (i : item) : str := match as_str (to_string i) with Some s => s | None => [] end.
  Definition float_item (s : str) : item + xexn :=
    match to_float w s with Some f => inl (IFlt f) | None => inr ValueErr end.
  (** xast.py 117-137 *)
  Definition to_number (i : item) : item + xexn :=
    match as_str i with
    | Some s => float_item s
    | None => match node_strval i with
              | Some s => float_item s
              | None => inl i
              end
    end.
  (** xast.py 140-162; 155 comes before 157 *)
  Definition to_boolean (i : item) : bool :=
    match as_str i with
    | Some [] => false
    | Some _ => true
    | None => if is_node i then true else truthy i
    end.

  (** ** Comparison *)
  Fixpoint str_cmp (s t : str) : comparison :=
    match s, t with
    | [], [] => Eq
    | [], _ => Lt
    | _, [] => Gt
    | a :: s', b :: t' => match (a ?= b)%N with Eq => str_cmp s' t' | r => r end
    end.
  (** Two attribute nodes, one from each operand: objects made in the operands are different. *)
  Definition one_object (o o' : birth) : bool :=
    match o, o' with Here, Here => true | Given n, Given m => Nat.eqb n m | _, _ => false end.
  Definition here (c : item) : item := match c with IAttr a k v Made => IAttr a k v Here | _ => c end.
  (** [i == j] *)
  Definition py_eq (i j : item) : bool :=
    match as_str i, as_str j with
    | Some s, Some t => str_eqb s t
    | None, None =>
        match as_num i, as_num j with
        | Some x, Some y => match flt_cmp x y with Some Eq => true | _ => false end
        | None, None => match i, j with
                        | IRoot, IRoot => true
                        | INode a, INode b => if list_eq_dec Nat.eq_dec a b then true else false
                        | IAttr _ _ _ o, IAttr _ _ _ o' => one_object o o'
                        | _, _ => false
                        end
        | _, _ => false
        end
    | _, _ => false
    end.
  (** [i < j] and the like: the comparison, [None] for NaN; outer [None]: TypeError *)
  Definition py_cmp (i j : item) : option (option comparison) :=
    match as_str i, as_str j with
    | Some s, Some t => Some (Some (str_cmp s t))
    | None, None => match as_num i, as_num j with Some x, Some y => Some (flt_cmp x y) | _, _ => None end
    | _, _ => None
    end.
  Definition rel (op : binop) (c : option comparison) : bool :=
    match op, c with
    | OpGt, Some Gt | OpLt, Some Lt | OpGe, Some Gt | OpGe, Some Eq | OpLe, Some Lt | OpLe, Some Eq => true
    | _, _ => false
    end.

  (** xast.py 283-295.  [rhs] is a generator, so only the first item of the left side is
      compared with anything; the other items of the left side are computed nevertheless.
      290: i becomes a plain value, so that 291 fails for every node on the right. *)
  Fixpoint eq_scan (x : item) (l : list item) (f : fin) : bool + fin :=
    match l with
    | [] => match f with Done => inl false | _ => inr f end
    | j :: l' => if is_node j then inr (Exn AttributeErr)
                 else if py_eq x j then inl true else eq_scan x l' f
    end.
  Definition plain (i : item) : item := match node_value i with Some s => IStr s | None => i end.
  Definition equality (lhs rhs : res) : res :=
    match lhs with
    | ([], Done) => yield1 (IBool false)
    | ([], f) => ([], f)
    | (i :: _, f) =>
        match eq_scan (plain i) (fst rhs) (snd rhs) with
        | inl true => yield1 (IBool true)
        | inl false => match f with Done => yield1 (IBool false) | _ => ([], f) end
        | inr f' => ([], f')
        end
    end.

  (** ** Union *)

  (** xast.py 81-89: the elements in document order.  The numbers are the same for every
      query, up to the root node, which has one only if it is the context item. *)
  Definition elements (t : xtree) : list addr := [] :: map fst (descendants t).
  Definition docorder (c i : item) : option nat :=
    match i with
    | IRoot => match c with IRoot => Some 0 | _ => None end
    | INode a => option_map S (find_index (fun b => if list_eq_dec Nat.eq_dec a b then true else false) (elements (doc w)))
    | _ => None
    end.
  (** list.sort(key) is stable. *)
  Fixpoint insert_by (x : nat * item) (l : list (nat * item)) : list (nat * item) :=
    match l with
    | [] => [x]
    | y :: r => if Nat.leb (fst x) (fst y) then x :: l else y :: insert_by x r
    end.
  Definition sort_by (l : list (nat * item)) : list (nat * item) := fold_right insert_by [] l.
  Fixpoint keyed (c : item) (l : list item) : option (list (nat * item)) :=
    match l with
    | [] => Some []
    | i :: r => match docorder c i, keyed c r with
                | Some n, Some l' => Some ((n, i) :: l')
                | _, _ => None
                end
    end.
  (** xast.py 272-280; [index_docorder] needs [xml_parent] *)
  Definition union (c : item) (lhs rhs : res) : res :=
    match parent c with
    | None => raise AttributeErr
    | Some _ =>
        collected lhs (fun l => collected rhs (fun r =>
          match keyed c (l ++ r) with
          | Some ks => (map snd (sort_by ks), Done)
          | None => raise AttributeErr
          end))
    end.

  (** xast.py 255-330.  267: the axis of the right side is overwritten if it is a [step];
      [eval] below evaluates such a step with the rewritten axis. *)
  Definition binary (op : binop) (c : item) (lhs rhs : item -> res) : res :=
    match op with
    | OpPath | OpDeep => bind (lhs c) (fun i => rhs (copy c i))
    | OpUnion => union c (lhs c) (rhs c)
    | OpEq => equality (lhs c) (rhs c)
    | OpNe => first (lhs (here c)) (raise RuntimeErr) (fun i => first (rhs (here c)) (raise RuntimeErr) (fun j => yield1 (IBool (negb (py_eq i j)))))
    | OpGt | OpLt | OpGe | OpLe =>
        first (lhs c) (raise RuntimeErr) (fun i => first (rhs c) (raise RuntimeErr) (fun j =>
          match py_cmp i j with Some r => yield1 (IBool (rel op r)) | None => raise TypeErr end))
    | OpOr => first (lhs c) (raise RuntimeErr) (fun i => if truthy i then yield1 i else first (rhs c) (raise RuntimeErr) yield1)
    | OpAnd => first (lhs c) (raise RuntimeErr) (fun i => if truthy i then first (rhs c) (raise RuntimeErr) yield1 else yield1 i)
    | OpOther _ => raise NotImplErr
    end.

  (** xast.py 536-556: the items with their positions, from [pos] on *)
  Inductive verdict := VKeep | VDrop | VStop (f : fin).
  Definition number_of (i : item) : option (Z + xexn) :=
    match i with
    | IInt z => Some (inl z)
    | IFlt (FFin m e) => Some (inl (if (0 <=? e)%Z then m * 2 ^ e else Z.quot m (2 ^ (- e)))%Z)
    | IFlt FNan => Some (inr ValueErr)
    | IFlt (FInf _) => Some (inr OverflowErr)
    | _ => None
    end.
  Fixpoint verdict_of (pos : nat) (c : item) (ps : list (item -> res)) : verdict :=
    match ps with
    | [] => VKeep
    | p :: ps' =>
        let v := match p c with (i :: _, _) => inl i | ([], Done) => inl (IBool false) | ([], f) => inr f end in
        match v with
        | inr f => VStop f
        | inl i =>
            match number_of i with
            | Some (inr e) => VStop (Exn e)
            | Some (inl z) => if (z =? Z.of_nat pos)%Z then verdict_of pos c ps' else VDrop
            | None => if to_boolean i then verdict_of pos c ps' else VDrop
            end
        end
    end.
  Fixpoint predicated (pos : nat) (c : item) (l : list item) (f : fin) (ps : list (item -> res)) : res :=
    match l with
    | [] => ([], f)
    | i :: l' =>
        match verdict_of pos (copy c i) ps with
        | VKeep => let '(l2, f2) := predicated (S pos) c l' f ps in (i :: l2, f2)
        | VDrop => predicated (S pos) c l' f ps
        | VStop f' => ([], f')
        end
    end.

  (** xast.py 386-389 *)
  Definition just_node (e : expr) : bool := match e with EStep _ TNode => true | _ => false end.
  (** xast.py 360-383; [rel] is the relative path, if any *)
  Definition absolute (double : bool) (c : item) (r : option (bool * (item -> res))) : res :=
    with_root c (fun root =>
      match r with
      | None => yield1 root
      | Some (jn, ev) =>
          seq2 (if jn then yield1 root else nothing)
            (seq2 (ev root)
              (if double then bindl (map INode (process [[]])) Done (fun i => ev (copy c i)) else nothing))
      end).

  (** ** Functions (functions.py) *)

  (** [x in s], [s.startswith(x)], [s.partition(x)] *)
  Fixpoint prefixb (x s : str) : bool :=
    match x, s with
    | [], _ => true
    | a :: x', b :: s' => (a =? b)%N && prefixb x' s'
    | _, [] => false
    end.
  Fixpoint find_sub (x s : str) : option nat :=
    if prefixb x s then Some 0
    else match s with [] => None | _ :: s' => option_map S (find_sub x s') end.
  (** [s[i:j]] *)
  Definition clamp (i : Z) (n : nat) : nat :=
    Z.to_nat (if (i <? 0)%Z then Z.max 0 (i + Z.of_nat n) else Z.min i (Z.of_nat n)).
  Definition py_slice (s : str) (i j : Z) : str :=
    let a := clamp i (length s) in let b := clamp j (length s) in skipn a (firstn b s).
  (** int(next(to_number(x))) for an argument that is not computed: only literals have a value (functions.py 176-177) *)
  Definition int_arg (e : expr) : Z + xexn :=
    match e with
    | ELit (LInt z) => inl z
    | ELit (LFlt f) => match number_of (IFlt f) with Some r => r | None => inr TypeErr end
    | ELit (LStr s) => match to_float w s with
                       | Some f => match number_of (IFlt f) with Some r => r | None => inr TypeErr end
                       | None => inr ValueErr
                       end
    | _ => inr RuntimeErr
    end.
  Definition lit_item (l : literal) : item := match l with LStr s => IStr s | LInt z => IInt z | LFlt f => IFlt f end.
  (** next(string_arg(ctx, obj)): 34-40, [False] if there is no item *)
  Definition string_arg (r : res) (k : item -> res) : res := first r (k (to_string (IBool false))) (fun i => k (to_string i)).
  Definition item_name (i : item) : str :=
    match i with
    | INode a => match node_at a with Some (XE n _ _) => n | Some (XT _) => lit "#text" | None => [] end
    | _ => []
    end.
  Definition or_raise (r : item + xexn) : res := match r with inl i => yield1 i | inr e => raise e end.
  Definition str_of (i : item) : str := match as_str i with Some s => s | None => [] end.

  (** functions.py 44-55: the names given to the functions by their decorators *)
  Inductive fname :=
  | FnName | FnLast | FnCount | FnString | FnConcat | FnStartsWith | FnContains | FnBefore | FnAfter | FnSubstring
  | FnLength | FnBoolean | FnNot | FnTrue | FnFalse | FnNumber | FnForEach | FnLookup
  | FnStub (min : nat).    (* raises NotImplementedError; the number of parameters *)
  Definition builtins : list (str * fname) :=
    [(lit "name", FnName); (lit "last", FnLast); (lit "count", FnCount); (lit "string", FnString); (lit "concat", FnConcat);
     (lit "starts-with", FnStartsWith); (lit "contains", FnContains); (lit "substring-before", FnBefore);
     (lit "substring-after", FnAfter); (lit "substring", FnSubstring); (lit "string-length", FnLength);
     (lit "normalize-space", FnStub 1); (lit "translate", FnStub 2); (lit "same-lang", FnStub 2); (lit "boolean", FnBoolean);
     (lit "not", FnNot); (lit "true", FnTrue); (lit "false", FnFalse); (lit "number", FnNumber); (lit "for-each", FnForEach);
     (lit "lookup", FnLookup); (lit "sum", FnStub 1); (lit "floor", FnStub 1); (lit "ceiling", FnStub 1); (lit "round", FnStub 1)].

  (** [raw] are the argument expressions, [args] their computations, [dyn] evaluates an
      expression computed at run time ([None]: out of fuel).  A wrong number of arguments is
      a TypeError.  xast.py 711-716; the numbers at the cases are lines of functions.py. *)
  Definition call (dyn : option (expr -> item -> res)) (f : str) (raw : list expr) (args : list (item -> res)) (c : item) : res :=
    match dict_get builtins f with
    | None => raise RuntimeErr
    | Some fn =>
        match fn, args with
        (* 58-73 *)
        | FnName, [] => yield1 (IStr (item_name c))
        | FnName, [x] => first (x c) (yield1 (IStr [])) (fun i => yield1 (IStr (item_name i)))
        (* 77-81 *)
        | FnLast, [] => yield1 (IInt (-1))
        (* 85-89 *)
        | FnCount, [x] => collected (x c) (fun l => yield1 (IInt (Z.of_nat (length l))))
        (* 93-112 *)
        | FnString, [] => yield1 (to_string c)
        | FnString, [x] => first (x c) (yield1 (IStr [])) (fun i => yield1 (to_string i))
        (* 115-127 *)
        | FnConcat, _ => collected (seq_all (map (fun x => x c) args)) (fun l => yield1 (IStr (flat_map the_str l)))
        (* 131-137 *)
        | FnStartsWith, [x; y] => string_arg (x c) (fun full => string_arg (y c) (fun part => yield1 (IBool (prefixb (str_of part) (str_of full)))))
        (* 141-147 *)
        | FnContains, [x; y] => string_arg (x c) (fun full => string_arg (y c) (fun part =>
            yield1 (IBool (match find_sub (str_of part) (str_of full) with Some _ => true | None => false end))))
        (* 151-157 *)
        | FnBefore, [x; y] => string_arg (x c) (fun full => string_arg (y c) (fun part =>
            match str_of part with
            | [] => raise ValueErr
            | p => match find_sub p (str_of full) with Some i => yield1 (IStr (firstn i (str_of full))) | None => yield1 full end
            end))
        (* 161-167 *)
        | FnAfter, [x; y] => string_arg (x c) (fun full => string_arg (y c) (fun part =>
            match str_of part with
            | [] => raise ValueErr
            | p => match find_sub p (str_of full) with
                   | Some i => yield1 (IStr (skipn (i + length p) (str_of full)))
                   | None => yield1 (IStr [])
                   end
            end))
        (* 171-178 *)
        | FnSubstring, [x; _; _] => string_arg (x c) (fun full =>
            match raw with
            | [_; y; z] => match int_arg y with
                           | inr e => raise e
                           | inl i => match int_arg z with
                                      | inr e => raise e
                                      | inl n => yield1 (IStr (py_slice (str_of full) (i - 1) (i - 1 + n)))
                                      end
                           end
            | _ => raise TypeErr
            end)
        (* 182-190 *)
        | FnLength, [] => raise AttributeErr
        | FnLength, [x] => first (x c) (yield1 (IInt 0)) (fun i => match as_str i with Some s => yield1 (IInt (Z.of_nat (length s))) | None => raise TypeErr end)
        (* 224-238 *)
        | FnBoolean, [x] => first (x c) (yield1 (IBool false)) (fun i => yield1 (IBool (to_boolean i)))
        (* 16-22, 242-246 *)
        | FnNot, [x] => first (x c) (yield1 (IBool true)) (fun i => yield1 (IBool (negb (to_boolean i))))
        (* 250-254 *)
        | FnTrue, [] => yield1 (IBool true)
        (* 258-262 *)
        | FnFalse, [] => yield1 (IBool false)
        (* 266-278 *)
        | FnNumber, [] => yield1 (IInt 0)
        | FnNumber, [x] => first (x c) (or_raise (float_item [])) (fun i => or_raise (to_number i))
        (* 282-299 *)
        | FnForEach, [x; y] => string_arg (y c) (fun s =>
            match xparse w (str_of s) with
            | inr e => raise e
            | inl e => bind (x c) (fun i => match dyn with Some ev => ev e (copy c i) | None => ([], Cut) end)
            end)
        (* 303-315 *)
        | FnLookup, [x; y] => string_arg (x c) (fun _ => string_arg (y c) (fun _ => raise NameErr))
        (* 194-220, 319-355 *)
        | FnStub n, _ => if Nat.eqb (length args) n then raise NotImplErr else raise TypeErr
        | _, _ => raise TypeErr
        end
    end.

  (** ** Evaluation: the methods [compute] *)
  Fixpoint eval (fuel : nat) : expr -> item -> res :=
    fix ev (e : expr) (c : item) {struct e} : res :=
      match e with
      | ELit l => yield1 (lit_item l)
      | ENeg r => first (ev r c) (raise TypeErr) (fun _ => raise TypeErr)   (* 215: minus a generator *)
      | EBin l op r => binary op c (ev l) (match op, r with
                                           | OpDeep, EStep _ t => step fuel AxDescendantOrSelf t
                                           | _, _ => ev r
                                           end)
      | EAbs d None => absolute d c None
      | EAbs d (Some r) => absolute d c (Some (just_node r, ev r))
      | EStep ax t => step fuel ax t c
      | EPred l ps => predicated 1 c (fst (ev l c)) (snd (ev l c)) (map ev ps)
      | ETest t => test t c
      | EAbbrev up => abbrev up c
      | EVar n => match dict_get (vars w) n with Some i => yield1 i | None => raise KeyErr end
      | ECall f args => call (match fuel with O => None | S n => Some (eval n) end) f args (map ev args) c
      | ESeq l => seq_all (map (fun x => ev x c) l)
      end.
End Eval.

(** uxpath/__init__.py 75-89 context(item): [force_root] replaces a node by its root.
    [None]: an exception *)
Definition initial (w : env) (force_root : bool) (i : item) : option item :=
  if force_root && is_node i then root_of w i else Some i.

(** ** Serialisation: xast.py 756-769 and the methods [_serialize] *)
Definition axis_name (a : axis) : str :=
  match a with
  | AxSelf => lit "self" | AxChild => lit "child" | AxAttribute => lit "attribute" | AxAncestor => lit "ancestor"
  | AxAncestorOrSelf => lit "ancestor-or-self" | AxDescendant => lit "descendant" | AxDescendantOrSelf => lit "descendant-or-self"
  | AxFollowing => lit "following" | AxFollowingSibling => lit "following-sibling" | AxParent => lit "parent"
  | AxPreceding => lit "preceding" | AxPrecedingSibling => lit "preceding-sibling"
  end.
Definition op_name (op : binop) : str :=
  match op with
  | OpPath => lit "/" | OpDeep => lit "//" | OpUnion => lit "|" | OpEq => lit "=" | OpNe => lit "!=" | OpGt => lit ">"
  | OpLt => lit "<" | OpGe => lit ">=" | OpLe => lit "<=" | OpOr => lit "or" | OpAnd => lit "and" | OpOther s => s
  end.
(** 218, 239-244 *)
Definition op_text (op : binop) : str :=
  let s := op_name op in
  if str_eqb s (lit "or") || str_eqb s (lit "and") || str_eqb s (lit "div") || str_eqb s (lit "mod")
  then lit " " ++ s ++ lit " " else s.
Definition test_text (t : ntest) : str :=
  match t with TNode | TText => test_name t ++ lit "()" | _ => test_name t end.
Fixpoint commas (l : list str) : str :=
  match l with [] => [] | [x] => x | x :: r => x ++ lit "," ++ commas r end.
Section Serialize.
  Variable w : env.
  Definition literal_text (l : literal) : str :=       (* 176: str(obj), without quotes *)
    match l with LStr s => s | LInt z => int_str z | LFlt f => float_str w f end.
  Fixpoint serialize (e : expr) : str :=
    match e with
    | ELit l => literal_text l
    | ENeg r => lit "-" ++ serialize r
    | EBin l op r => serialize l ++ op_text op ++ serialize r
    | EAbs d None => if d then lit "//" else lit "/"
    | EAbs d (Some r) => (if d then lit "//" else lit "/") ++ serialize r
    | EStep ax t => (match ax with AxAttribute => lit "@" | _ => axis_name ax ++ lit "::" end) ++ test_text t
    | EPred l ps => serialize l ++ flat_map (fun p => lit "[" ++ serialize p ++ lit "]") ps
    | ETest t => test_text t
    | EAbbrev up => if up then lit ".." else lit "."
    | EVar n => lit "$" ++ n
    | ECall f args => f ++ lit "(" ++ commas (map serialize args) ++ lit ")"
    | ESeq l => lit "(" ++ commas (map serialize l) ++ lit ")"
    end.
End Serialize.
