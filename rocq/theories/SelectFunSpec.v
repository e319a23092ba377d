(** Specification of the selection with functions in the pattern. *)
From Verif Require Import PyStr Parser XTree Path PatternFun PatternFunSpec SelectFun.

(** The nodes from the child of the start down to the position [a], with their positions. *)
Fixpoint line (here : addr) (t : xtree) (a : addr) : list (addr * xtree) :=
  match t, a with
  | XE _ _ ks, i :: a' => match nth_error ks i with Some k => (here ++ [i], k) :: line (here ++ [i]) k a' | None => [] end
  | _, _ => []
  end.
Definition gstage_ok (st : gstage) (x : addr * xtree) : Prop :=
  match st with
  | GName n => exists at_ ks, snd x = XE n at_ ks
  | GAny => is_element (snd x)
  | GDeep => False
  | GTup l => exists f, In (GFun f) l /\ f (fst x) = Some true
  end.
(** '**' stands for any number of elements, and an element follows. *)
Inductive gmatches : list gstage -> list (addr * xtree) -> Prop :=
| gm_nil : gmatches [] []
| gm_one st p x es : gstage_ok st x -> gmatches p es -> gmatches (st :: p) (x :: es)
| gm_deep p l x es : is_element (snd x) -> gmatches p (x :: es) -> gmatches (GDeep :: p) (l ++ x :: es).

Definition no_gdeep (p : list gstage) : Prop := ~ In GDeep p.
(** The tuples have functions only, and these raise no exceptions. *)
Definition only_functions (p : list gstage) : Prop := forall l n, In (GTup l) p -> ~ In (GStr n) l.
Definition gsafe (p : list gstage) : Prop := forall l f a, In (GTup l) p -> In (GFun f) l -> f a <> None.

(** The component of a sender's pattern and the one of a selection pattern mean the same in the tree:
    functions of the former are called with events, those of the latter with nodes, and reject texts. *)
Definition same_stage (t : xtree) (st : fstage) (g : gstage) : Prop :=
  match st, g with
  | FName n, GName m => n = m
  | FAny, GAny | FDeep, GDeep => True
  | FAlt l, GTup l' =>
      (forall a n at_ ks anc, subtree t a = Some (XE n at_ ks) ->
         ((exists x, In x l /\ alt_ok x (EvStart n at_ anc)) <-> exists f, In (GFun f) l' /\ f a = Some true)) /\
      (forall a s f, subtree t a = Some (XT s) -> In (GFun f) l' -> f a <> Some true)
  | _, _ => False
  end.
