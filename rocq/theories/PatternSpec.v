(** What a pattern means. *)
From Verif Require Import PyStr Pattern. (* only for the type [stage] *)

Definition stage_ok (st : stage) (n : str) : Prop :=
  match st with
  | StName m => n = m
  | StAny => True
  | StDeep => False
  | StAlt ns => In n ns
  end.

(** [matches p names]: the pattern matches the sequence of names; '**' stands for any number of names. *)
Inductive matches : list stage -> list str -> Prop :=
| ma_nil : matches [] []
| ma_one st p n names : stage_ok st n -> matches p names -> matches (st :: p) (n :: names)
| ma_deep p ns names : matches p names -> matches (StDeep :: p) (ns ++ names).

Definition no_deep (p : list stage) : Prop := ~ In StDeep p.
Definition ends_deep (p : list stage) : Prop := exists q, p = q ++ [StDeep].
Definition no_alt (p : list stage) : Prop := forall ns, ~ In (StAlt ns) p.

(** [names] is matched, and no proper beginning of it. *)
Definition first_match (p : list stage) (names : list str) : Prop :=
  matches p names /\ forall a b, names = a ++ b -> b <> [] -> ~ matches p a.
