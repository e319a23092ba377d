(** xml.py 51-83: the bookkeeping of namespaces in [ns_expat_callbacks], for an object that has been
    initialised as in lines 54-64.  (Its own [__init__] fails at line 53, see C120; a subclass may
    have another one.)  expat's calls are the input. *)
From Verif Require Import PyStr Parser TreeUtil Expat.

(** Dictionaries with keys that are strings or [None] *)
Definition omap (A : Type) : Type := list (option str * A).
Definition ostr_eqb (a b : option str) : bool :=
  match a, b with Some x, Some y => str_eqb x y | None, None => true | _, _ => false end.
Fixpoint oget {A} (d : omap A) (k : option str) : option A :=
  match d with [] => None | (k', v) :: d' => if ostr_eqb k' k then Some v else oget d' k end.
Fixpoint oset {A} (d : omap A) (k : option str) (v : A) : omap A :=
  match d with [] => [(k, v)] | (k', v') :: d' => if ostr_eqb k' k then (k', v) :: d' else (k', v') :: oset d' k v end.
Fixpoint odel {A} (d : omap A) (k : option str) : omap A :=
  match d with [] => [] | (k', v') :: d' => if ostr_eqb k' k then d' else (k', v') :: odel d' k end.

(** The calls.  A default namespace has the prefix [None]; [xmlns=""] gives it the namespace [None]. *)
Inductive nscall :=
| NsDecl (prefix ns : option str)
| NsEnd (prefix : option str)
| NsStart (name : str) (attrs : dict str)
| NsClose (name : str)
| NsText (data : str).
(** As the base class sees them. *)
Definition plain_call (c : nscall) : cb :=
  match c with NsDecl _ _ | NsEnd _ => CbNamespace | NsStart n a => CbStart n a | NsClose n => CbEnd n | NsText d => CbChars d end.

(** The object: [_elem_stack], [prefixes], [prefixes_rev], [ns_portfolio] (18, 55-56, 64). *)
Record nsobj := mkNs { nstack : list str; prefixes : omap (option str); prefixes_rev : omap (option str); portfolio : dict (option str * option str) }.
Definition new_ns : nsobj := mkNs [] [] [] [].
Inductive nexn := NKey | NValue | NIndex.

(** 76 and 80: [name.split() if ' ' in name else (None, name)], unpacked into two; [None]: a ValueError. *)
Definition ns_split (name : str) : option (option str * str) :=
  if char_in c_space name then match py_split name with [a; b] => Some (Some a, b) | _ => None end else Some (None, name).
(** 79-81; [prefixes_rev.get(ans, '')] *)
Fixpoint note_attrs (rev : omap (option str)) (pf : dict (option str * option str)) (attrs : dict str) : dict (option str * option str) * bool :=
  match attrs with
  | [] => (pf, true)
  | (k, _) :: l => match ns_split k with
                   | Some (ans, alocal) => note_attrs rev (dict_set pf (lit "@" ++ alocal) (ans, match oget rev ans with Some p => p | None => Some [] end)) l
                   | None => (pf, false)
                   end
  end.
(** One call; the last component is the exception. *)
Definition ns_call (stream : bool) (o : nsobj) (c : nscall) : nsobj * list event * option nexn :=
  let base o := match callback (nstack o) (plain_call c) with
                | Some (evs, stk) => (mkNs stk (prefixes o) (prefixes_rev o) (portfolio o), evs, None)
                | None => (o, [], Some NIndex)
                end in
  match c with
  | NsDecl p ns => (mkNs (nstack o) (oset (prefixes o) p ns) (oset (prefixes_rev o) ns p) (portfolio o), [], None)        (* 67-69 *)
  | NsEnd p =>                                                                                                             (* 71-72 *)
      if stream then match oget (prefixes o) p with
                     | Some _ => (mkNs (nstack o) (odel (prefixes o) p) (prefixes_rev o) (portfolio o), [], None)
                     | None => (o, [], Some NKey)
                     end
      else (o, [], None)
  | NsStart name attrs =>                                                                                                  (* 74-82 *)
      match ns_split name with
      | None => (o, [], Some NValue)
      | Some (ns, local) =>
          match (match dict_get (portfolio o) local, oget (prefixes_rev o) ns with
                 | Some _, _ => Some (portfolio o)
                 | None, Some p => Some (dict_set (portfolio o) local (ns, p))
                 | None, None => None
                 end) with
          | None => (o, [], Some NKey)
          | Some pf => let (pf', ok) := note_attrs (prefixes_rev o) pf attrs in
                       let o' := mkNs (nstack o) (prefixes o) (prefixes_rev o) pf' in
                       if ok then base o' else (o', [], Some NValue)
          end
      end
  | NsClose _ | NsText _ => base o
  end.
(** A sequence of calls, up to an exception. *)
Fixpoint ns_calls (stream : bool) (o : nsobj) (cs : list nscall) : nsobj * list event * option nexn :=
  match cs with
  | [] => (o, [], None)
  | c :: cs' => match ns_call stream o c with
                | (o', evs, Some x) => (o', evs, Some x)
                | (o', evs, None) => let '(o2, evs2, x) := ns_calls stream o' cs' in (o2, evs ++ evs2, x)
                end
  end.
