(** node.xml_xpath and qquery on node objects (tree.py 38-65, uxpath/__init__.py 76-89, 119-137);
    XQuery has them over positions. *)
From Verif Require Import PyStr Parser XTree Heap RootCache DocOrder XPath XQuery HeapNav HeapEval.

Section Query.
  Variable h : heap.
  Variable w : env.                  (* [xparse], [to_float] and [float_str] only *)
  Variable hv : dict hval.           (* [vars] *)
  Variable c : hval -> rcache.       (* as in HeapEval *)
  Variable v : hval -> numbers.
  (** [bool(x.xml_parent)], tree.py 25-27: elements are true *)
  Definition obj_parent (x : hval) : bool :=
    match x with Obj y _ => match hparent h y with Some _ => true | None => false end | _ => false end.
  (** uxpath/__init__.py 76-89 [context(x, force_root=...)], and [compute] *)
  Definition obj_context (n : nat) (force_root : bool) (x : hval) (e : expr) : vres :=
    if force_root && vnode x then vroot h c x (fun q => heval h w hv c v n e (Obj (HRoot q) Made)) else heval h w hv c v n e x.
  (** tree.py 55-65 *)
  Definition obj_xpath (n : nat) (x : hval) (p : xpath_thing) : vres :=
    match p with
    | Text s => match xparse w s with inl e => obj_context n (negb (obj_parent x)) x e | inr z => vraise z end
    | Parsed e => obj_context n (negb (obj_parent x)) x e
    | Neither => vraise ValueErr
    end.
  (** uxpath/__init__.py 119-137 for a node; 133-134: an expression that is no string is not bound to [parsed_expr] *)
  Definition obj_qquery (n : nat) (x : hval) (p : xpath_thing) : vres :=
    if vtrue h x then
      match p with
      | Text s => match xparse w s with inl e => obj_context n (negb (obj_parent x)) x e | inr z => vraise z end
      | _ => if negb (obj_parent x) then vroot h c x (fun _ => vraise NameErr) else vraise NameErr
      end
    else vnothing.
End Query.
