(** When a handler raises. *)
From Verif Require Import PyStr Parser.

(** It waits for more after each of these events. *)
Definition quiet {X} (h : list event -> option X) (evs : list event) : Prop := forall a b, evs = a ++ b -> a <> [] -> h a = None.
(** It raises [x] at [e], for the first time. *)
Definition raises_at {X} (h : list event -> option X) (a : list event) (e : event) (x : X) : Prop := quiet h a /\ h (a ++ [e]) = Some x.
