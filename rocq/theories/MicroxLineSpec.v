(** What the lines of microx --find-text are good for. *)
From Verif Require Import PyStr XTree Path XPath XLexSpec.

(** [x] has the name of [t] and those of the attributes to be shown that [t] has. *)
Definition resembles (show : list str) (t x : option xtree) : Prop :=
  exists n ats ks ats' ks', t = Some (XE n ats ks) /\ x = Some (XE n ats' ks') /\
    forall k v, In k show -> dict_get ats k = Some v -> dict_get ats' k = Some v.
(** The name and the attributes to be shown can be written in an expression: names of MicroXPath, and no double quote in the values. *)
Definition writable (show : list str) (t : option xtree) : Prop :=
  forall n ats ks, t = Some (XE n ats ks) -> name n /\ forall k v, In k show -> dict_get ats k = Some v -> name k /\ ~ In 34%N v.
