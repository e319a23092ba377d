(** What evaluation with functions given by the caller depends on. *)
From Verif Require Import PyStr XTree XPath XFuncs.

(** The names of functions called in an expression. *)
Fixpoint called (e : expr) : list str :=
  match e with
  | ENeg r | EAbs _ (Some r) => called r
  | EBin l _ r => called l ++ called r
  | EPred l ps => called l ++ flat_map called ps
  | ECall f args => f :: flat_map called args
  | ESeq l => flat_map called l
  | _ => []
  end.

(** What a name means: with no functions given, the functions of functions.py. *)
Definition meaning (fs : dict func) (f : str) : option func :=
  match fs with
  | [] => if existsb (str_eqb f) (map fst builtins) then Some (Builtin f) else None
  | _ => dict_get fs f
  end.

(** A function that does not look at more than what its arguments yield. *)
Definition extensional (g : own_function) : Prop :=
  forall args args' c, Forall2 (fun a a' => fst a = fst a' /\ forall i, snd a i = snd a' i) args args' -> g args c = g args' c.
Definition fair (m : option func) : Prop := forall g, m = Some (Own g) -> extensional g.

(** for-each is among the names [ok], and so texts may be evaluated. *)
Definition evaluates_texts (fs : dict func) (ok : str -> Prop) : Prop := exists f, ok f /\ meaning fs f = Some (Builtin (lit "for-each")).
