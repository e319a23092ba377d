(** uxpath/xast.py and uxpath/functions.py over node objects: the whole of the expression
    language, where HeapNav has the location paths.  Any number of documents; variables hold
    nodes of any of them.  The tree is not edited during an evaluation.  As in XPath, a
    generator is the list of what it yields and how it ends. *)
From Verif Require Import PyStr Parser XTree Tree Heap RootCache DocOrder XPath HeapNav.

(** Nodes (for attribute nodes with their identity, as in XPath), strings, numbers and truth values. *)
Inductive hval := Obj (x : hitem) (o : birth) | VStr (s : str) | VInt (z : Z) | VFlt (f : flt) | VBool (b : bool).
Notation vres := (list hval * fin)%type (only parsing).

Definition vyield (x : hval) : vres := ([x], Done).
Definition vnothing : vres := ([], Done).
Definition vraise (e : xexn) : vres := ([], Exn e).
(** [for x in r: yield from k(x)] *)
Fixpoint vfor (l : list hval) (f : fin) (k : hval -> vres) : vres :=
  match l with
  | [] => ([], f)
  | x :: l' => match k x with
               | (l1, Done) => let '(l2, f2) := vfor l' f k in (l1 ++ l2, f2)
               | r => r
               end
  end.
Definition vthen (a b : vres) : vres := match a with (l, Done) => (l ++ fst b, snd b) | _ => a end.
Fixpoint vchain (l : list vres) : vres := match l with [] => vnothing | r :: l' => vthen r (vchain l') end.
(** [next(r, none)] *)
Definition vnext (r : vres) (none : vres) (k : hval -> vres) : vres :=
  match r with (x :: _, _) => k x | ([], Done) => none | ([], f) => ([], f) end.
(** [list(r)] *)
Definition vlist (r : vres) (k : list hval -> vres) : vres := match r with (l, Done) => k l | (_, f) => ([], f) end.

Section Eval.
  Variable h : heap.
  Variable w : env.                  (* [xparse], [to_float] and [float_str] only *)
  Variable hv : dict hval.           (* the variables of the context *)
  Variable c : hval -> rcache.       (* root_node._cache when the root of an item is asked for *)
  Variable v : hval -> numbers.      (* the numbers of the nodes when a union at an item sorts (xast.py 279) *)

  (** [isinstance(x, str)] with the string; [isinstance(x, node)]; numbers *)
  Definition vstring (x : hval) : option str :=
    match x with Obj (HNode i) _ => htext h i | VStr s => Some s | _ => None end.
  Definition vnode (x : hval) : bool := match x with Obj _ _ => true | _ => false end.
  Definition vnum (x : hval) : option flt :=
    match x with
    | VInt z => Some (FFin z 0)
    | VFlt f => Some f
    | VBool b => Some (FFin (if b then 1 else 0) 0)
    | _ => None
    end.
  (** [bool(x)] *)
  Definition vtrue (x : hval) : bool :=
    match vstring x, x with
    | Some [], _ => false
    | Some _, _ => true
    | None, VInt z => negb (z =? 0)%Z
    | None, VFlt f => flt_true f
    | None, VBool b => b
    | None, _ => true
    end.
  (** uxpath/__init__.py 91-99 *)
  Definition vcopy (x y : hval) : hval := if vtrue y then y else x.

  (** xast.py 582-589, 617-620 *)
  Definition vtest (t : ntest) (x : hval) : vres :=
    match x with
    | Obj y o => (map (fun z => Obj z o) (htest h t y), Done)
    | VStr _ => match t with TName _ => vnothing | _ => vyield x end
    | _ => match t with TStar => vyield x | _ => vnothing end
    end.
  (** xast.py 414-499.  Values have no [xml_parent] and no [xml_children]; [self] needs none of
      them, and 416 asks for an element.  The loops visit no more nodes than there are, except
      for [ancestor-or-self], which does not end. *)
  Definition vstep (fuel : nat) (ax : axis) (t : ntest) (x : hval) : vres :=
    match x with
    | Obj y o =>
        let '(l, f) := hstep h (c x) (match ax with AxAncestorOrSelf => fuel | _ => nxt h end) ax t y in
        (map (fun z => Obj z (match ax with AxAttribute => Made | _ => o end)) l, f)
    | _ => match ax with
           | AxSelf => vtest t x
           | AxAttribute => vnothing
           | AxAncestorOrSelf | AxDescendantOrSelf => vthen (vtest t x) (vraise AttributeErr)
           | _ => vraise AttributeErr
           end
    end.
  (** xast.py 637-647 *)
  Definition vabbrev (up : bool) (x : hval) : vres :=
    match x with
    | Obj y o => let '(l, f) := habbrev h (c x) up y in (map (fun z => Obj z o) l, f)
    | _ => if up then vraise AttributeErr else vyield x
    end.
  (** xast.py 50-62 *)
  Definition vroot (x : hval) (k : root -> vres) : vres :=
    match x with
    | Obj y _ => match hroot h (c x) y with
                 | (HRoot q :: _, _) => k q
                 | (_, f) => ([], f)
                 end
    | _ => vraise AssertionErr
    end.

  (** tree.py 108-114, 178-180 [xml_value]; no deeper than there are objects *)
  Fixpoint value_of (fuel : nat) (i : ref) : str :=
    match fuel with
    | O => []
    | S n => match hp h i with
             | Some (OElem _ _ ks _) => py_join (map (value_of n) ks)
             | Some (OText s _) => s
             | None => []
             end
    end.
  Definition vvalue (x : hval) : option str :=
    match x with
    | Obj (HRoot _) _ => Some []
    | Obj (HNode i) _ => Some (value_of (nxt h) i)
    | Obj (HAttr _ _ s) _ => Some s
    | _ => None
    end.
  (** tree.py 190-203 strval: the accumulator of an element *)
  Fixpoint acc_of (fuel : nat) (ks : list ref) : list str :=
    match fuel with
    | O => []
    | S n => flat_map (fun k => match hp h k with
                                | Some (OElem _ _ ks' _) => acc_of n ks'
                                | Some (OText s _) => [s]
                                | None => []
                                end) ks
    end.
  Definition vstrval (x : hval) : option str :=
    match x with
    | Obj (HNode i) _ => match hp h i with
                         | Some (OElem _ _ ks _) => Some (py_join (acc_of (nxt h) ks))
                         | _ => vvalue x
                         end
    | _ => vvalue x
    end.
  (** xast.py 93-162 *)
  Definition vto_string (x : hval) : hval :=
    match vstring x with
    | Some _ => x
    | None =>
        match vstrval x with
        | Some s => VStr s
        | None => match x with
                  | VInt z => VStr (int_str z)
                  | VFlt f => VStr (float_str w f)
                  | VBool true => VStr (lit "True")
                  | VBool false => VStr (lit "False")
                  | _ => x
                  end
        end
    end.
  Definition vfloat (s : str) : vres := match to_float w s with Some f => vyield (VFlt f) | None => vraise ValueErr end.
  Definition vto_number (x : hval) : vres :=
    match vstring x with
    | Some s => vfloat s
    | None => match vstrval x with Some s => vfloat s | None => vyield x end
    end.
  Definition vto_boolean (x : hval) : bool :=
    match vstring x with
    | Some [] => false
    | Some _ => true
    | None => if vnode x then true else vtrue x
    end.

  (** [x == y]: strings and text nodes by their strings, other nodes by identity *)
  Definition veq (x y : hval) : bool :=
    match vstring x, vstring y with
    | Some s, Some t => str_eqb s t
    | None, None =>
        match vnum x, vnum y with
        | Some a, Some b => match flt_cmp a b with Some Eq => true | _ => false end
        | None, None => match x, y with
                        | Obj (HRoot p) _, Obj (HRoot q) _ => root_eqb p q
                        | Obj (HNode i) _, Obj (HNode j) _ => Nat.eqb i j
                        | Obj (HAttr _ _ _) o, Obj (HAttr _ _ _) o' => one_object o o'
                        | _, _ => false
                        end
        | _, _ => false
        end
    | _, _ => false
    end.
  Definition vcmp (x y : hval) : option (option comparison) :=
    match vstring x, vstring y with
    | Some s, Some t => Some (Some (str_cmp s t))
    | None, None => match vnum x, vnum y with Some a, Some b => Some (flt_cmp a b) | _, _ => None end
    | _, _ => None
    end.
  (** xast.py 283-295 *)
  Fixpoint vscan (x : hval) (l : list hval) (f : fin) : bool + fin :=
    match l with
    | [] => match f with Done => inl false | _ => inr f end
    | y :: l' => if vnode y then inr (Exn AttributeErr)
                 else if veq x y then inl true else vscan x l' f
    end.
  Definition vplain (x : hval) : hval := match vvalue x with Some s => VStr s | None => x end.
  Definition vequal (a b : vres) : vres :=
    match a with
    | ([], Done) => vyield (VBool false)
    | ([], f) => ([], f)
    | (x :: _, f) =>
        match vscan (vplain x) (fst b) (snd b) with
        | inl true => vyield (VBool true)
        | inl false => match f with Done => vyield (VBool false) | _ => ([], f) end
        | inr f' => ([], f')
        end
    end.

  (** xast.py 272-280.  The numbers are those after 275 and after the operands. *)
  Definition vnumber (u : numbers) (x : hval) : option nat :=
    match x with
    | Obj (HNode i) _ => en u i
    | Obj (HRoot q) _ => rn u q
    | _ => None
    end.
  Fixpoint vput (x : nat * hval) (l : list (nat * hval)) : list (nat * hval) :=
    match l with
    | [] => [x]
    | y :: r => if Nat.leb (fst x) (fst y) then x :: l else y :: vput x r
    end.
  Fixpoint vkeys (u : numbers) (l : list hval) : option (list (nat * hval)) :=
    match l with
    | [] => Some []
    | x :: r => match vnumber u x, vkeys u r with Some n, Some l' => Some ((n, x) :: l') | _, _ => None end
    end.
  Definition vunion (x : hval) (a b : vres) : vres :=
    if vnode x
    then vlist a (fun l => vlist b (fun r =>
           match vkeys (v x) (l ++ r) with
           | Some ks => (map snd (fold_right vput [] ks), Done)
           | None => vraise AttributeErr
           end))
    else vraise AttributeErr.

  Definition vhere (x : hval) : hval := match x with Obj (HAttr i k s) Made => Obj (HAttr i k s) Here | _ => x end.
  (** xast.py 255-330 *)
  Definition vbinary (op : binop) (x : hval) (a b : hval -> vres) : vres :=
    match op with
    | OpPath | OpDeep => vfor (fst (a x)) (snd (a x)) (fun y => b (vcopy x y))
    | OpUnion => vunion x (a x) (b x)
    | OpEq => vequal (a x) (b x)
    | OpNe => vnext (a (vhere x)) (vraise RuntimeErr) (fun y => vnext (b (vhere x)) (vraise RuntimeErr) (fun z => vyield (VBool (negb (veq y z)))))
    | OpGt | OpLt | OpGe | OpLe =>
        vnext (a x) (vraise RuntimeErr) (fun y => vnext (b x) (vraise RuntimeErr) (fun z =>
          match vcmp y z with Some r => vyield (VBool (rel op r)) | None => vraise TypeErr end))
    | OpOr => vnext (a x) (vraise RuntimeErr) (fun y => if vtrue y then vyield y else vnext (b x) (vraise RuntimeErr) vyield)
    | OpAnd => vnext (a x) (vraise RuntimeErr) (fun y => if vtrue y then vnext (b x) (vraise RuntimeErr) vyield else vyield y)
    | OpOther _ => vraise NotImplErr
    end.

  (** xast.py 536-556 *)
  Definition vindex (x : hval) : option (Z + xexn) :=
    match x with VInt z => Some (inl z) | VFlt f => XPath.number_of (IFlt f) | _ => None end.
  Fixpoint vverdict (pos : nat) (x : hval) (ps : list (hval -> vres)) : verdict :=
    match ps with
    | [] => VKeep
    | p :: ps' =>
        let first := match p x with (y :: _, _) => inl y | ([], Done) => inl (VBool false) | ([], f) => inr f end in
        match first with
        | inr f => VStop f
        | inl y =>
            match vindex y with
            | Some (inr e) => VStop (Exn e)
            | Some (inl z) => if (z =? Z.of_nat pos)%Z then vverdict pos x ps' else VDrop
            | None => if vto_boolean y then vverdict pos x ps' else VDrop
            end
        end
    end.
  Fixpoint vpredicated (pos : nat) (x : hval) (l : list hval) (f : fin) (ps : list (hval -> vres)) : vres :=
    match l with
    | [] => ([], f)
    | y :: l' =>
        match vverdict pos (vcopy x y) ps with
        | VKeep => let '(l2, f2) := vpredicated (S pos) x l' f ps in (y :: l2, f2)
        | VDrop => vpredicated (S pos) x l' f ps
        | VStop f' => ([], f')
        end
    end.
  (** xast.py 360-383 *)
  Definition vabsolute (double : bool) (x : hval) (r : option (bool * (hval -> vres))) : vres :=
    vroot x (fun q =>
      let rt := Obj (HRoot q) Made in
      match r with
      | None => vyield rt
      | Some (jn, ev) =>
          vthen (if jn then vyield rt else vnothing)
            (vthen (ev rt)
              (if double
               then let '(l, b) := hwork h (nxt h) [docelem q] in
                    vfor (map (fun i => Obj (HNode i) Made) l) (if b then Done else Cut) (fun y => ev (vcopy x y))
               else vnothing))
      end).

  (** functions.py 34-40, and the lines noted in XPath *)
  Definition vstring_arg (r : vres) (k : hval -> vres) : vres := vnext r (k (vto_string (VBool false))) (fun x => k (vto_string x)).
  Definition vname (x : hval) : str :=
    match x with
    | Obj (HNode i) _ => match hp h i with Some (OElem n _ _ _) => n | Some (OText _ _) => lit "#text" | None => [] end
    | _ => []
    end.
  Definition vthe (x : hval) : str := match vstring x with Some s => s | None => [] end.
  Definition vcall (dyn : option (expr -> hval -> vres)) (f : str) (raw : list expr) (args : list (hval -> vres)) (x : hval) : vres :=
    match dict_get builtins f with
    | None => vraise RuntimeErr
    | Some fn =>
        match fn, args with
        | FnName, [] => vyield (VStr (vname x))
        | FnName, [a] => vnext (a x) (vyield (VStr [])) (fun y => vyield (VStr (vname y)))
        | FnLast, [] => vyield (VInt (-1))
        | FnCount, [a] => vlist (a x) (fun l => vyield (VInt (Z.of_nat (length l))))
        | FnString, [] => vyield (vto_string x)
        | FnString, [a] => vnext (a x) (vyield (VStr [])) (fun y => vyield (vto_string y))
        | FnConcat, _ => vlist (vchain (map (fun a => a x) args)) (fun l => vyield (VStr (flat_map (fun y => vthe (vto_string y)) l)))
        | FnStartsWith, [a; b] => vstring_arg (a x) (fun full => vstring_arg (b x) (fun part => vyield (VBool (prefixb (vthe part) (vthe full)))))
        | FnContains, [a; b] => vstring_arg (a x) (fun full => vstring_arg (b x) (fun part =>
            vyield (VBool (match find_sub (vthe part) (vthe full) with Some _ => true | None => false end))))
        | FnBefore, [a; b] => vstring_arg (a x) (fun full => vstring_arg (b x) (fun part =>
            match vthe part with
            | [] => vraise ValueErr
            | p => match find_sub p (vthe full) with Some n => vyield (VStr (firstn n (vthe full))) | None => vyield full end
            end))
        | FnAfter, [a; b] => vstring_arg (a x) (fun full => vstring_arg (b x) (fun part =>
            match vthe part with
            | [] => vraise ValueErr
            | p => match find_sub p (vthe full) with
                   | Some n => vyield (VStr (skipn (n + length p) (vthe full)))
                   | None => vyield (VStr [])
                   end
            end))
        | FnSubstring, [a; _; _] => vstring_arg (a x) (fun full =>
            match raw with
            | [_; y; z] => match int_arg w y with
                           | inr e => vraise e
                           | inl i => match int_arg w z with
                                      | inr e => vraise e
                                      | inl n => vyield (VStr (py_slice (vthe full) (i - 1) (i - 1 + n)))
                                      end
                           end
            | _ => vraise TypeErr
            end)
        | FnLength, [] => vraise AttributeErr
        | FnLength, [a] => vnext (a x) (vyield (VInt 0)) (fun y => match vstring y with Some s => vyield (VInt (Z.of_nat (length s))) | None => vraise TypeErr end)
        | FnBoolean, [a] => vnext (a x) (vyield (VBool false)) (fun y => vyield (VBool (vto_boolean y)))
        | FnNot, [a] => vnext (a x) (vyield (VBool true)) (fun y => vyield (VBool (negb (vto_boolean y))))
        | FnTrue, [] => vyield (VBool true)
        | FnFalse, [] => vyield (VBool false)
        | FnNumber, [] => vyield (VInt 0)
        | FnNumber, [a] => vnext (a x) (vfloat []) vto_number
        | FnForEach, [a; b] => vstring_arg (b x) (fun s =>
            match xparse w (vthe s) with
            | inr e => vraise e
            | inl e => vfor (fst (a x)) (snd (a x)) (fun y => match dyn with Some ev => ev e (vcopy x y) | None => ([], Cut) end)
            end)
        | FnLookup, [a; b] => vstring_arg (a x) (fun _ => vstring_arg (b x) (fun _ => vraise NameErr))
        | FnStub n, _ => if Nat.eqb (length args) n then vraise NotImplErr else vraise TypeErr
        | _, _ => vraise TypeErr
        end
    end.

  (** The methods [compute] *)
  Fixpoint heval (fuel : nat) : expr -> hval -> vres :=
    fix ev (e : expr) (x : hval) {struct e} : vres :=
      match e with
      | ELit l => vyield (match l with LStr s => VStr s | LInt z => VInt z | LFlt f => VFlt f end)
      | ENeg r => vnext (ev r x) (vraise TypeErr) (fun _ => vraise TypeErr)
      | EBin l op r => vbinary op x (ev l) (match op, r with
                                            | OpDeep, EStep _ t => vstep fuel AxDescendantOrSelf t
                                            | _, _ => ev r
                                            end)
      | EAbs d None => vabsolute d x None
      | EAbs d (Some r) => vabsolute d x (Some (just_node r, ev r))
      | EStep ax t => vstep fuel ax t x
      | EPred l ps => vpredicated 1 x (fst (ev l x)) (snd (ev l x)) (map ev ps)
      | ETest t => vtest t x
      | EAbbrev up => vabbrev up x
      | EVar n => match dict_get hv n with Some y => vyield y | None => vraise KeyErr end
      | ECall f args => vcall (match fuel with O => None | S n => Some (heval n) end) f args (map ev args) x
      | ESeq l => vchain (map (fun e' => ev e' x) l)
      end.
End Eval.
