(** What the microx commands are to print. *)
From Verif Require Import PyStr XTree Path XPath Microx.

(** One after the other, up to the first that fails. *)
Inductive in_turn {A} (k : A -> list str * fin) : list A -> list str * fin -> Prop :=
| it_nil : in_turn k [] ([], Done)
| it_ok x l ls ls' f : k x = (ls, Done) -> in_turn k l (ls', f) -> in_turn k (x :: l) (ls ++ ls', f)
| it_stop x l ls f : k x = (ls, f) -> f <> Done -> in_turn k (x :: l) (ls, f).

Definition contains (s t : str) : Prop := exists p q, s = p ++ t ++ q.
(** One step of a path: the name and the attributes to be shown. *)
Definition shown (ats : dict str) (k : str) : str :=
  match dict_get ats k with Some v => lit "[@" ++ k ++ lit "=""" ++ v ++ lit """]" | None => [] end.
Definition step_line (show : list str) (t : option xtree) : str :=
  match t with Some (XE n ats _) => n ++ flat_map (shown ats) show | _ => [] end.
(** Steps separated by "/" *)
Inductive slashed : list str -> str -> Prop :=
| sl_nil : slashed [] []
| sl_one x : slashed [x] x
| sl_more x y l s : slashed (y :: l) s -> slashed (x :: y :: l) (x ++ lit "/" ++ s).
Definition kids_of (t : xtree) : list xtree := match t with XE _ _ ks => ks | XT _ => [] end.
