(** Element trees: the content of a MicroXML document, independent of the code. *)
From Verif Require Import PyStr Parser.

Inductive xtree :=
| XE (name : str) (attrs : dict str) (kids : list xtree)
| XT (text : str).

(** Induction through the list of children. *)
Section Ind.
  Variable P : xtree -> Prop.
  Hypothesis HE : forall n a ks, Forall P ks -> P (XE n a ks).
  Hypothesis HT : forall t, P (XT t).
  Fixpoint xtree_ind' (t : xtree) : P t :=
    match t with
    | XE n a ks => HE n a ks
        ((fix go (l : list xtree) : Forall P l :=
            match l with
            | [] => Forall_nil P
            | x :: l' => Forall_cons x (xtree_ind' x) (go l')
            end) ks)
    | XT t => HT t
    end.
End Ind.

(** The events of a tree inside the open elements [anc] (outermost first). *)
Fixpoint tree_events (anc : list str) (t : xtree) : list event :=
  match t with
  | XE n a ks => EvStart n a anc :: flat_map (tree_events (anc ++ [n])) ks ++ [EvEnd n anc]
  | XT s => [EvChars s]
  end.
Definition forest_events (anc : list str) (ks : list xtree) : list event :=
  flat_map (tree_events anc) ks.
Definition doc_events (t : xtree) : list event := tree_events [] t.

Fixpoint tree_size (t : xtree) : nat :=
  match t with
  | XE _ _ ks => S (fold_right (fun k n => tree_size k + n) 0 ks)
  | XT _ => 1
  end.

(** All text of a tree in document order. *)
Fixpoint tree_text (t : xtree) : str :=
  match t with
  | XE _ _ ks => flat_map tree_text ks
  | XT s => s
  end.
