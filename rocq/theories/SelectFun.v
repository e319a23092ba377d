(** treeutil.select_pattern with functions in the tuples of the pattern (treeutil.py 115-119,
    133-135).  The model in TreeUtil.v has no functions.  A function is called with a node; here the
    node is named by its position below the node where the selection starts, and the function
    depends on nothing else (the tree does not change meanwhile). *)
From Verif Require Import PyStr XTree Path Nodes.

(** A component of a tuple: a string, or a function; [None]: the function raises an exception.
    attr_test(True, 'k') (88-92) is such a function. *)
Inductive galt := GStr (n : str) | GFun (f : addr -> option bool).
Inductive gstage := GName (n : str) | GAny | GDeep | GTup (l : list galt).
Inductive gexn := GTypeErr | GRaised.

(** The chain of closures; [GMatched] is MATCHED_STATE. *)
Inductive gst :=
| GMatched
| GOnly (n : str) (next : gst)                           (* treeutil.py 94-98 *)
| GElem (next : gst)                                     (* treeutil.py 100-104 *)
| GUntil (next : gst)                                    (* treeutil.py 106-113 *)
| GOneOf (l : list (addr -> option bool)) (next : gst).  (* treeutil.py 115-119 *)
(** 117: up to the first that is true, or raises. *)
Fixpoint any_fun (l : list (addr -> option bool)) (a : addr) : option bool :=
  match l with
  | [] => Some false
  | f :: r => match f a with
              | None => None
              | Some true => Some true
              | Some false => any_fun r a
              end
  end.
Inductive gres := GExn (x : gexn) | GNone | GTo (s : gst).
(** Calling a state with the node [t] at [a]. *)
Fixpoint gstep (s : gst) (a : addr) (t : xtree) : gres :=
  match s with
  | GMatched => GExn GTypeErr
  | GOnly m next => match t with XE n _ _ => if str_eqb n m then GTo next else GNone | XT _ => GNone end
  | GElem next => match t with XE _ _ _ => GTo next | XT _ => GNone end
  | GUntil next => match t with
                   | XE _ _ _ => match gstep next a t with GNone => GTo s | r => r end
                   | XT _ => GTo s
                   end
  | GOneOf l next => match any_fun l a with
                     | None => GExn GRaised
                     | Some true => GTo next
                     | Some false => GNone
                     end
  end.
(** treeutil.py 121-138.  134: a string in a tuple is a TypeError, as name_test (94) needs two arguments. *)
Fixpoint functions (l : list galt) : option (list (addr -> option bool)) :=
  match l with
  | [] => Some []
  | GStr _ :: _ => None
  | GFun f :: r => option_map (cons f) (functions r)
  end.
Definition gprep_stage (st : gstage) (next : gst) : option gst :=
  match st with
  | GAny => Some (GElem next)
  | GDeep => Some (GUntil next)
  | GName n => Some (GOnly n next)
  | GTup l => option_map (fun fs => GOneOf fs next) (functions l)
  end.
Fixpoint gprep (p : list gstage) : option gst :=
  match p with
  | [] => Some GMatched
  | st :: r => match gprep r with Some s => gprep_stage st s | None => None end
  end.
(** [for child in node.xml_children]: what is yielded, and the exception that ends it. *)
Section Kids.
  Variable f : nat -> xtree -> list located * option gexn.
  Fixpoint gkids (i : nat) (ks : list xtree) : list located * option gexn :=
    match ks with
    | [] => ([], None)
    | k :: r => match f i k with
                | (l, Some x) => (under i l, Some x)
                | (l, None) => let '(l2, x) := gkids (S i) r in (under i l ++ l2, x)
                end
    end.
End Kids.
(** treeutil.py 168-175; [here]: the position of [t] *)
Fixpoint gselect (here : addr) (t : xtree) (s : gst) : list located * option gexn :=
  match t with
  | XE _ _ ks =>
      gkids (fun i k => match gstep s (here ++ [i]) k with
                        | GExn x => ([], Some x)
                        | GNone => ([], None)
                        | GTo GMatched => ([([], k)], None)
                        | GTo s' => gselect (here ++ [i]) k s'
                        end) 0 ks
  | XT _ => ([], None)
  end.
(** treeutil.py 141-175 *)
Definition select_fun (t : xtree) (p : list gstage) : list located * option gexn :=
  match gprep p with
  | Some s => gselect [] t s
  | None => ([], Some GTypeErr)
  end.
