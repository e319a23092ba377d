(** treeiter.sender: the element patterns, the event stacks, and the handler that builds and
    sends subtrees.  xmliter.sender and html5iter.sender (xmliter.py 21-53,
    html5iter.py) use the same handler with other sources of events. *)
From Verif Require Import PyStr Parser XTree Heap Builder Pattern.

(** ** Construction *)

(** Pattern components as written, and the argument [patterns]. *)
Inductive rstage := RStr (s : str) | RTup (ns : list str).
Inductive parg := ATuple (l : list rstage) | AList (ps : list (list rstage)).
(** treeiter.py 97-109: one component.  The characters of a component that is a string
    where a pattern is expected are components themselves (iterating over a [str]). *)
Definition stage_of (r : rstage) : stage :=
  match r with
  | RStr s => if str_eqb s (lit "*") then StAny else if str_eqb s (lit "**") then StDeep else StName s
  | RTup ns => StAlt ns
  end.
Definition as_pattern (r : rstage) : list rstage :=
  match r with RStr s => map (fun c => RStr [c]) s | RTup ns => map RStr ns end.
(** treeiter.py 48-52: the list of patterns; [None]: ValueError (or IndexError for the
    empty tuple). *)
Definition norm_patterns (a : parg) (nsinks : nat) : option (list (list stage)) :=
  let ps := match a with
            | ATuple [] => None
            | ATuple (RStr s :: r) => Some [RStr s :: r]
            | ATuple l => Some (map as_pattern l)
            | AList l => Some l
            end in
  match ps with
  | Some ps => if Nat.eqb nsinks (length ps) then Some (map (map stage_of) ps) else None
  | None => None
  end.
(** treeiter.py 93-111: [next_state] is not reset for each pattern. *)
Fixpoint prep_all (next : pst) (ps : list (list stage)) : list pst :=
  match ps with
  | [] => []
  | p :: r => let s := prep_from next p in s :: prep_all s r
  end.
Definition stateses (ps : list (list stage)) : list pst := prep_all PMatched ps.

(** treeiter.py 113-121; [None]: a TypeError *)
Fixpoint match_state (s : pst) (stack : list str) : option bool :=
  match stack with
  | [] => Some false
  | n :: r => match pst_step s n with
              | SType => None
              | SState PMatched => Some true
              | SNone => Some false
              | SState s' => match_state s' r
              end
  end.

(** ** The handler *)

(** Atomic statements (treeiter.py 123-163). *)
Inductive tstmt :=
| TLoad (ix : nat)                    (* 128 parent = self._parents[ix] *)
| TNewElem (n : str) (a : dict str)   (* 138 *)
| TAppendElem                         (* 141 *)
| TDown (ix : nat)                    (* 142 *)
| TRoot (ix : nat)                    (* 145 *)
| TNewText (t : str)                  (* 148 *)
| TAppendText                         (* 149 *)
| TSend (ix : nat)                    (* 157 *)
| TUp (ix : nat).                     (* 159-160 *)

(** The part of the state that decides what is done.  The event stacks are one list object
    (56: [[[]] * n]); of the start events in it only the names matter. *)
Record ctl := mkC { cstack : list str; cdepths : list nat }.
Inductive texn := TypeErr | IndexErr.

Fixpoint set_nth {A} (i : nat) (x : A) (l : list A) : list A :=
  match l, i with
  | [], _ => []
  | _ :: r, O => x :: r
  | y :: r, S i => y :: set_nth i x r
  end.

(** treeiter.py 127-160 for one pattern *)
Definition ctl_one (s : pst) (ix : nat) (c : ctl) (e : event) : list tstmt * ctl * option texn :=
  let d := nth ix (cdepths c) 0 in
  match e with
  | EvStart n a _ =>
      let stack := cstack c ++ [n] in
      if Nat.eqb d 0
      then match match_state s stack with
           | None => ([TLoad ix], mkC stack (cdepths c), Some TypeErr)
           | Some true => ([TLoad ix; TNewElem n a; TAppendElem; TDown ix; TRoot ix], mkC stack (set_nth ix 1 (cdepths c)), None)
           | Some false => ([TLoad ix], mkC stack (cdepths c), None)
           end
      else ([TLoad ix; TNewElem n a; TAppendElem; TDown ix], mkC stack (set_nth ix (S d) (cdepths c)), None)
  | EvChars t => (TLoad ix :: (if Nat.eqb d 0 then [] else [TNewText t; TAppendText]), c, None)
  | EvEnd _ _ =>
      match cstack c with
      | [] => ([TLoad ix], c, Some IndexErr)
      | _ => let stack := removelast (cstack c) in
             if Nat.eqb d 0 then ([TLoad ix], mkC stack (cdepths c), None)
             else ([TLoad ix] ++ (if Nat.eqb d 1 then [TSend ix] else []) ++ [TUp ix], mkC stack (set_nth ix (d - 1) (cdepths c)), None)
      end
  end.
(** treeiter.py 126: all patterns *)
Fixpoint ctl_all (ss : list pst) (ix : nat) (c : ctl) (e : event) : list tstmt * ctl * option texn :=
  match ss with
  | [] => ([], c, None)
  | s :: r => match ctl_one s ix c e with
              | (l, c', Some x) => (l, c', Some x)
              | (l, c', None) => let '(l2, c2, x) := ctl_all r (S ix) c' e in (l ++ l2, c2, x)
              end
  end.

(** A sender with the locals of its running handler, what the sinks still hold, and, for
    the specification, a record of what was sent and the heap at that moment. *)
Record tstate := mkT {
  theap : heap;
  troots : list (option ref);  (* self._roots *)
  tpars : list (option ref);   (* self._parents *)
  tctl : ctl;
  tpar : option ref;           (* local parent *)
  telem : option ref;          (* local new_element *)
  ttext : option ref;          (* local new_text *)
  tkept : list ref;
  tsent : list (nat * option ref * heap) }.

Definition tlive (s : tstate) : list ref :=
  flat_map opt_list (troots s) ++ flat_map opt_list (tpars s) ++ opt_list (tpar s) ++ opt_list (telem s) ++ opt_list (ttext s) ++ tkept s.

(** A sink may keep what it gets. *)
Inductive texec : tstmt -> tstate -> tstate -> Prop :=
| te_load ix s :
    texec (TLoad ix) s (mkT (theap s) (troots s) (tpars s) (tctl s) (nth ix (tpars s) None) (telem s) (ttext s) (tkept s) (tsent s))
| te_new n a s :
    texec (TNewElem n a) s (mkT (fst (alloc (theap s) (OElem n a [] (tpar s)))) (troots s) (tpars s) (tctl s) (tpar s)
                                (Some (nxt (theap s))) (ttext s) (tkept s) (tsent s))
| te_append s :
    texec TAppendElem s (mkT (match tpar s, telem s with Some p, Some i => append_kid (theap s) p i | _, _ => theap s end)
                             (troots s) (tpars s) (tctl s) (tpar s) (telem s) (ttext s) (tkept s) (tsent s))
| te_down ix s :
    texec (TDown ix) s (mkT (theap s) (troots s) (set_nth ix (telem s) (tpars s)) (tctl s) (telem s) (telem s) (ttext s) (tkept s) (tsent s))
| te_root ix s :
    texec (TRoot ix) s (mkT (theap s) (set_nth ix (telem s) (troots s)) (tpars s) (tctl s) (tpar s) (telem s) (ttext s) (tkept s) (tsent s))
| te_newtext t s :
    texec (TNewText t) s (mkT (fst (alloc (theap s) (OText t (tpar s)))) (troots s) (tpars s) (tctl s) (tpar s)
                              (telem s) (Some (nxt (theap s))) (tkept s) (tsent s))
| te_appendtext s :
    texec TAppendText s (mkT (match tpar s, ttext s with Some p, Some i => append_kid (theap s) p i | _, _ => theap s end)
                             (troots s) (tpars s) (tctl s) (tpar s) (telem s) (ttext s) (tkept s) (tsent s))
| te_send ix s kept : kept = tkept s \/ kept = opt_list (tpar s) ++ tkept s ->
    texec (TSend ix) s (mkT (theap s) (troots s) (tpars s) (tctl s) (tpar s) (telem s) (ttext s) kept
                            (tsent s ++ [(ix, tpar s, theap s)]))
| te_up ix s :
    texec (TUp ix) s (match tpar s with
                      | Some p => let q := xml_parent (theap s) p in
                          mkT (theap s) (troots s) (set_nth ix q (tpars s)) (tctl s) q (telem s) (ttext s) (tkept s) (tsent s)
                      | None => s
                      end).

(** Between statements: the sinks may let go of anything they keep, and unreachable objects may be reclaimed. *)
Definition tcollect (s s' : tstate) : Prop :=
  incl (tkept s') (tkept s) /\ gc (tlive s) (theap s) (theap s') /\
  troots s' = troots s /\ tpars s' = tpars s /\ tctl s' = tctl s /\ tpar s' = tpar s /\ telem s' = telem s /\
  ttext s' = ttext s /\ tsent s' = tsent s.
Inductive truns : tstate -> list tstmt -> tstate -> Prop :=
| tr_nil s s' : tcollect s s' -> truns s [] s'
| tr_cons s s1 s2 st l s' : tcollect s s1 -> texec st s1 s2 -> truns s2 l s' -> truns s (st :: l) s'.

Definition set_ctl (s : tstate) (c : ctl) : tstate :=
  mkT (theap s) (troots s) (tpars s) c (tpar s) (telem s) (ttext s) (tkept s) (tsent s).
(** The handler fed with events; the last component: the exception that ended it. *)
Inductive thandle (ss : list pst) : tstate -> list event -> tstate -> option texn -> Prop :=
| th_nil s s' : tcollect s s' -> thandle ss s [] s' None
| th_step s e evs l c s1 s' x :
    ctl_all ss 0 (tctl s) e = (l, c, None) -> truns s l s1 -> thandle ss (set_ctl s1 c) evs s' x ->
    thandle ss s (e :: evs) s' x
| th_exn s e evs l c s1 x :
    ctl_all ss 0 (tctl s) e = (l, c, Some x) -> truns s l s1 -> thandle ss s (e :: evs) (set_ctl s1 c) (Some x).

(** treeiter.py 53-63, 94-111 *)
Definition new_sender (h : heap) (ps : list (list stage)) : tstate :=
  let n := length ps in
  mkT h (repeat None n) (repeat None n) (mkC [] (repeat 0 n)) None None None [] [].
(** treeiter.py 165-170: a new handler generator; nothing else is reset. *)
Definition new_handler (s : tstate) : tstate :=
  mkT (theap s) (troots s) (tpars s) (tctl s) None None None (tkept s) (tsent s).
Inductive send_parse (ps : list (list stage)) : tstate -> str -> tstate -> option texn -> Prop :=
| sp s doc evs g s' x :
    sends new_parser [(doc, false); ([], true)] = (evs, Suspended g) ->
    thandle (stateses ps) (new_handler s) evs s' x ->
    send_parse ps s doc s' x.
