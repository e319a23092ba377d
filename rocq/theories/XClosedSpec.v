(** Expressions that say themselves where they begin. *)
From Verif Require Import PyStr XPath.

(** At a node, there are only nodes among the results. *)
Fixpoint nodes_only (e : expr) : bool :=
  match e with
  | EStep _ _ | ETest _ | EAbbrev _ | EAbs _ None => true
  | EAbs _ (Some r) => nodes_only r
  | EBin l (OpPath | OpDeep | OpUnion) r => nodes_only l && nodes_only r
  | EPred l _ => nodes_only l
  | _ => false
  end.
(** What would depend on the context begins at the root, in a variable or in a literal.  What is evaluated at
    each of some nodes (after a slash, in a predicate, in the text of for-each) may be any expression.
    [u]: unions are allowed. *)
Fixpoint closed (u : bool) (e : expr) : Prop :=
  match e with
  | ELit _ | EVar _ | EAbs _ _ => True
  | ENeg r => closed u r
  | EBin l (OpPath | OpDeep) _ => closed u l /\ nodes_only l = true
  | EBin l OpUnion r => u = true /\ closed u l /\ closed u r
  | EBin l _ r => closed u l /\ closed u r
  | EPred l _ => closed u l /\ nodes_only l = true
  | ECall f args => fold_right (fun a rest => closed u a /\ rest) True args /\
      (args = [] -> f <> lit "name" /\ f <> lit "string") /\
      (f = lit "for-each" -> match args with a :: _ => nodes_only a = true | [] => True end)
  | ESeq l => fold_right (fun a rest => closed u a /\ rest) True l
  | EStep _ _ | ETest _ | EAbbrev _ => False
  end.
