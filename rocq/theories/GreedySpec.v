(** What patterns with '**' anywhere select: '**' skips as few elements as possible, whatever comes after. *)
From Verif Require Import PyStr Parser XTree Path Pattern PatternSpec PatternFun PatternFunSpec SelectFun SelectFunSpec.

(** '**' skips the names up to the first one that the component after it accepts; two in a row are one. *)
Inductive greedy : list stage -> list str -> Prop :=
| gr_nil : greedy [] []
| gr_one st p n names : stage_ok st n -> greedy p names -> greedy (st :: p) (n :: names)
| gr_deep st p skipped n names : (forall k, In k skipped -> ~ stage_ok st k) -> stage_ok st n -> greedy p names ->
    greedy (StDeep :: st :: p) (skipped ++ n :: names)
| gr_twice p names : greedy (StDeep :: p) names -> greedy (StDeep :: StDeep :: p) names.

(** The same for patterns with functions, which see the start events. *)
Inductive fgreedy : list fstage -> list event -> Prop :=
| fg_nil : fgreedy [] []
| fg_one st p e es : fstage_ok st e -> fgreedy p es -> fgreedy (st :: p) (e :: es)
| fg_deep st p skipped e es : (forall k, In k skipped -> ~ fstage_ok st k) -> fstage_ok st e -> fgreedy p es ->
    fgreedy (FDeep :: st :: p) (skipped ++ e :: es)
| fg_twice p es : fgreedy (FDeep :: p) es -> fgreedy (FDeep :: FDeep :: p) es.
(** What sink [ix] gets to see of the path begins with something its joined pattern selects. *)
Definition greached (ps : list (list fstage)) (ix : nat) (path : list event) : Prop :=
  exists a b, seen (length ps) ix path = a ++ b /\ fgreedy (joined ps ix) a.

(** In a tree, from a node down: functions see nodes, texts included, but the component after '**' gets elements only. *)
Inductive ggreedy : list gstage -> list (addr * xtree) -> Prop :=
| gg_nil : ggreedy [] []
| gg_one st p x es : gstage_ok st x -> ggreedy p es -> ggreedy (st :: p) (x :: es)
| gg_deep st p skipped x es : (forall k, In k skipped -> is_element (snd k) -> ~ gstage_ok st k) -> is_element (snd x) -> gstage_ok st x -> ggreedy p es ->
    ggreedy (GDeep :: st :: p) (skipped ++ x :: es)
| gg_twice p es : ggreedy (GDeep :: p) es -> ggreedy (GDeep :: GDeep :: p) es.
Definition ends_gdeep (p : list gstage) : Prop := exists q, p = q ++ [GDeep].
