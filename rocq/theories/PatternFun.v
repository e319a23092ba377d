(** treeiter.sender with functions in the patterns (treeiter.py 87-91, 105-107), for any number of
    patterns.  The model in TreeIter.v has names only.  A function is called with the start event of
    an element; it is a function of the event here (it neither changes anything nor sees changes of
    the attribute dictionary in the event). *)
From Verif Require Import PyStr Parser XTree Heap Builder Pattern TreeIter.

(** A component of a tuple: a name, or a function; [None]: the function raises an exception. *)
Inductive falt := ByName (n : str) | ByFun (f : event -> option bool).
Inductive fstage := FName (n : str) | FAny | FDeep | FAlt (l : list falt).

(** The chain of closures. *)
Inductive fst_ :=
| SMatched
| SOnly (n : str) (next : fst_)        (* treeiter.py 66-70 *)
| SAnyName (next : fst_)               (* treeiter.py 72-76 *)
| SUntil (next : fst_)                 (* treeiter.py 78-85 *)
| SAny (l : list falt) (next : fst_).  (* treeiter.py 87-91 *)

Inductive fexn := FTypeErr | FIndexErr | FRaised.
(** tree.py 241-244 *)
Definition call_test (x : falt) (e : event) : option bool :=
  match x with
  | ByName n => Some (match e with EvStart m _ _ => str_eqb m n | _ => false end)
  | ByFun f => f e
  end.
(** 89 [any(func(ev) for func in funcs)]: up to the first that is true, or raises. *)
Fixpoint any_test (l : list falt) (e : event) : option bool :=
  match l with
  | [] => Some false
  | x :: r => match call_test x e with
              | None => None
              | Some true => Some true
              | Some false => any_test r e
              end
  end.
Inductive fres := FExn (x : fexn) | FNone | FState (s : fst_).
Definition start_name (e : event) : option str := match e with EvStart n _ _ => Some n | _ => None end.
Fixpoint fstep (s : fst_) (e : event) : fres :=
  match s with
  | SMatched => FExn FTypeErr
  | SOnly m next => match start_name e with Some n => if str_eqb n m then FState next else FNone | None => FNone end
  | SAnyName next => match start_name e with Some _ => FState next | None => FNone end
  | SUntil next => match start_name e with
                   | Some _ => match fstep next e with FNone => FState s | r => r end
                   | None => FState s
                   end
  | SAny l next => match any_test l e with
                   | None => FExn FRaised
                   | Some true => FState next
                   | Some false => FNone
                   end
  end.
(** treeiter.py 96-109, and 93-111 for all patterns *)
Definition fprep_stage (st : fstage) (next : fst_) : fst_ :=
  match st with
  | FAny => SAnyName next
  | FDeep => SUntil next
  | FName n => SOnly n next
  | FAlt l => SAny l next
  end.
Definition fprep_from (next : fst_) (p : list fstage) : fst_ := fold_right fprep_stage next p.
Fixpoint fprep_all (next : fst_) (ps : list (list fstage)) : list fst_ :=
  match ps with
  | [] => []
  | p :: r => let s := fprep_from next p in s :: fprep_all s r
  end.
Definition fstates (ps : list (list fstage)) : list fst_ := fprep_all SMatched ps.

(** treeiter.py 113-121; the stack has start events *)
Fixpoint fmatch (s : fst_) (stack : list event) : bool + fexn :=
  match stack with
  | [] => inl false
  | e :: r => match fstep s e with
              | FExn x => inr x
              | FState SMatched => inl true
              | FNone => inl false
              | FState s' => fmatch s' r
              end
  end.

(** ** The handler: treeiter.py 123-163, as in TreeIter.v but with a stack of events *)
Record fctl := mkF { fstack : list event; fdepths : list nat }.
Definition fctl_one (s : fst_) (ix : nat) (c : fctl) (e : event) : list tstmt * fctl * option fexn :=
  let d := nth ix (fdepths c) 0 in
  match e with
  | EvStart n a _ =>
      let stack := fstack c ++ [e] in
      if Nat.eqb d 0
      then match fmatch s stack with
           | inr x => ([TLoad ix], mkF stack (fdepths c), Some x)
           | inl true => ([TLoad ix; TNewElem n a; TAppendElem; TDown ix; TRoot ix], mkF stack (set_nth ix 1 (fdepths c)), None)
           | inl false => ([TLoad ix], mkF stack (fdepths c), None)
           end
      else ([TLoad ix; TNewElem n a; TAppendElem; TDown ix], mkF stack (set_nth ix (S d) (fdepths c)), None)
  | EvChars t => (TLoad ix :: (if Nat.eqb d 0 then [] else [TNewText t; TAppendText]), c, None)
  | EvEnd _ _ =>
      match fstack c with
      | [] => ([TLoad ix], c, Some FIndexErr)
      | _ => let stack := removelast (fstack c) in
             if Nat.eqb d 0 then ([TLoad ix], mkF stack (fdepths c), None)
             else ([TLoad ix] ++ (if Nat.eqb d 1 then [TSend ix] else []) ++ [TUp ix], mkF stack (set_nth ix (d - 1) (fdepths c)), None)
      end
  end.
Fixpoint fctl_all (ss : list fst_) (ix : nat) (c : fctl) (e : event) : list tstmt * fctl * option fexn :=
  match ss with
  | [] => ([], c, None)
  | s :: r => match fctl_one s ix c e with
              | (l, c', Some x) => (l, c', Some x)
              | (l, c', None) => let '(l2, c2, x) := fctl_all r (S ix) c' e in (l ++ l2, c2, x)
              end
  end.
(** The handler fed with events; the statements and the objects are those of TreeIter.v, whose own
    control state is not used. *)
Inductive fhandle (ss : list fst_) : fctl -> tstate -> list event -> fctl -> tstate -> option fexn -> Prop :=
| fh_nil c s s' : tcollect s s' -> fhandle ss c s [] c s' None
| fh_step c s e evs l c1 s1 c' s' x :
    fctl_all ss 0 c e = (l, c1, None) -> truns s l s1 -> fhandle ss c1 s1 evs c' s' x ->
    fhandle ss c s (e :: evs) c' s' x
| fh_exn c s e evs l c1 s1 x :
    fctl_all ss 0 c e = (l, c1, Some x) -> truns s l s1 -> fhandle ss c s (e :: evs) c1 s1 (Some x).
(** treeiter.py 53-63 *)
Definition new_fctl (k : nat) : fctl := mkF [] (repeat 0 k).
Definition new_fsender (h : heap) (k : nat) : tstate :=
  mkT h (repeat None k) (repeat None k) (mkC [] []) None None None [] [].
(** treeiter.py 165-170 *)
Inductive fsend_parse (ps : list (list fstage)) : fctl -> tstate -> str -> fctl -> tstate -> option fexn -> Prop :=
| fsp c s doc evs g c' s' x :
    sends new_parser [(doc, false); ([], true)] = (evs, Suspended g) ->
    fhandle (fstates ps) c (new_handler s) evs c' s' x ->
    fsend_parse ps c s doc c' s' x.

(** ** The argument [patterns] (treeiter.py 48-52): tuples and lists of strings, functions and tuples *)
Inductive fcomp := CStr (s : str) | CTup (l : list falt).
Inductive fparg := FTuple (l : list fcomp) | FList (ps : list (list fcomp)).
Definition comp_stage (r : fcomp) : fstage :=
  match r with
  | CStr s => if str_eqb s (lit "*") then FAny else if str_eqb s (lit "**") then FDeep else FName s
  | CTup l => FAlt l
  end.
(** A component taken for a pattern: a function in it cannot be interpreted (109). *)
Fixpoint comp_pattern (l : list falt) : option (list fcomp) :=
  match l with
  | [] => Some []
  | ByName n :: r => option_map (cons (CStr n)) (comp_pattern r)
  | ByFun _ :: _ => None
  end.
Definition as_fpattern (r : fcomp) : option (list fcomp) :=
  match r with CStr s => Some (map (fun c => CStr [c]) s) | CTup l => comp_pattern l end.
Fixpoint all_some {A} (l : list (option A)) : option (list A) :=
  match l with
  | [] => Some []
  | Some x :: r => option_map (cons x) (all_some r)
  | None :: _ => None
  end.
(** [None]: ValueError, or IndexError for the empty tuple *)
Definition norm_fpatterns (a : fparg) (nsinks : nat) : option (list (list fstage)) :=
  let ps := match a with
            | FTuple [] => None
            | FTuple (CStr s :: r) => Some [Some (CStr s :: r)]
            | FTuple l => Some (map as_fpattern l)
            | FList l => Some (map Some l)
            end in
  match ps with
  | Some ps => if Nat.eqb nsinks (length ps) then option_map (map (map comp_stage)) (all_some ps) else None
  | None => None
  end.
