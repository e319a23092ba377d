(** exec/microx: what the commands print.  The command line and the sources are in MicroxMain and
    MicroxHtml. *)
From Verif Require Import PyStr XTree Tree Path Nodes TreeUtil XPath.

(** The lines printed, and how it ended. *)
Notation out := (list str * fin)%type (only parsing).
(** [for x in l: k(x)], where the iterator [l] ends with [f] *)
Section Each.
  Context {A : Type}.
  Variable k : A -> out.
  Fixpoint each (l : list A) (f : fin) : out :=
    match l with
    | [] => ([], f)
    | x :: r => match k x with
                | (ls, Done) => let '(ls', f') := each r f in (ls ++ ls', f')
                | o => o
                end
    end.
End Each.

Section Microx.
  Variable w : env.
  (** microx 149-153 print_item; xml_encode of the root node is that of [node] (tree.py 31-32), of
      an attribute node xast.py 74-75, where the name is already lost. *)
  Definition print_item (i : item) : out :=
    match i with
    | IRoot => ([], Exn NotImplErr)
    | INode a => match node_at w a with Some t => ([xml_encode t], Done) | None => ([], Done) end
    | IAttr _ _ v _ => ([lit "{=""" ++ v ++ lit """}"], Done)
    | _ => ([the_str w i], Done)
    end.

  Variable fuel : nat.
  (** microx 160-167, 174-181 *)
  Definition print_foreach (foreach : option expr) (i : item) : out :=
    match foreach with
    | None => print_item i
    | Some e => each print_item (fst (eval w fuel e i)) (snd (eval w fuel e i))
    end.
  Definition print_results (e : expr) (foreach : option expr) (c : item) : out :=
    each (print_foreach foreach) (fst (eval w fuel e c)) (snd (eval w fuel e c)).

  (** microx 156-167: context(root) starts at the root node *)
  Definition cmd_expr (e : expr) (foreach : option expr) : out := print_results e foreach IRoot.
  (** [chain([root], descendants(root))] *)
  Definition all_elements : list addr := [] :: map fst (descendants (doc w)).
  (** microx 169-181 *)
  Definition cmd_match (e : expr) (foreach : option expr) : out := each (fun a => print_results e foreach (INode a)) all_elements Done.

  (** microx 113-126 xpath_to.  The loop appends the step of every parent. *)
  Definition attr_step (t : xtree) (sattr : str) : str :=
    match dict_get (elem_attrs t) sattr with
    | Some v => lit "[@" ++ sattr ++ lit "=""" ++ v ++ lit """]"
    | None => []
    end.
  Definition one_step (show : list str) (a : addr) : str :=
    match node_at w a with
    | Some t => elem_name t ++ concat (map (attr_step t) show)
    | None => []
    end.
  Fixpoint parent_steps (show : list str) (a : addr) (n : nat) : list str :=
    match n with
    | O => []
    | S n => match a with [] => [] | _ => one_step show (removelast a) :: parent_steps show (removelast a) n end
    end.
  (** ['/'.join(l)] *)
  Fixpoint join_slash (l : list str) : str :=
    match l with
    | [] => []
    | [x] => x
    | x :: r => x ++ 47%N :: join_slash r
    end.
  Definition xpath_to (show : list str) (a : addr) : str := join_slash (rev (parent_steps show a (length a))).
  (** microx 183-189 *)
  Definition has_text (search : str) (t : option xtree) : bool :=
    match t with Some (XT s) => match find_sub search s with Some _ => true | None => false end | _ => false end.
  Definition cmd_find_text (search : str) (show : list str) : out :=
    each (fun a => (map (fun _ => xpath_to show a) (filter (fun b => has_text search (node_at w b)) (kid_addrs w a)), Done)) all_elements Done.

  (** microx 129-212 run: [limit] is a parameter that nobody looks at. *)
  Inductive command := CmdExpr (e : expr) | CmdMatch (e : expr) | CmdFind (search : str).
  Definition run (c : command) (foreach : option expr) (limit : option nat) (show : list str) : out :=
    match c with
    | CmdExpr e => cmd_expr e foreach
    | CmdMatch e => cmd_match e foreach
    | CmdFind s => cmd_find_text s show
    end.
End Microx.
