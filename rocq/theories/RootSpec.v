(** The root of a node, and histories of asking for roots. *)
From Verif Require Import PyStr Parser XTree Heap Builder HeapSpec RootCache.

(** [top_of h i r]: [r] is the topmost element above or at [i]. *)
Definition top_of (h : heap) (i r : ref) : Prop := below h r i /\ parent_is h r None.

(** Asking for roots, and creating further documents, in any order; existing nodes are not edited. *)
Inductive history : heap -> rcache -> Prop :=
| hi_start h : well_linked h -> history h empty_cache
| hi_get h c i c' r : history h c -> get h c (RNode i) = Some (RGot c' r) -> history h c'
| hi_more h c h' : history h c -> well_linked h' -> (forall j o, hp h j = Some o -> hp h' j = Some o) -> history h' c.

(** The second state is reached from the first one in the same way. *)
Inductive later : heap -> rcache -> heap -> rcache -> Prop :=
| la_same h c : later h c h c
| la_get h c h1 c1 i c2 r : later h c h1 c1 -> get h1 c1 (RNode i) = Some (RGot c2 r) -> later h c h1 c2
| la_more h c h1 c1 h2 : later h c h1 c1 -> well_linked h2 -> (forall j o, hp h1 j = Some o -> hp h2 j = Some o) -> later h c h2 c1.
