(** What is noted about namespaces, in terms of the calls so far. *)
From Verif Require Import PyStr Parser Expat ExpatSpec NsBook. (* NsBook only for [nscall] *)

(** Calls with names as namespace and local name. *)
Inductive xcall :=
| XDecl (prefix ns : option str)
| XUndecl (prefix : option str)
| XStart (q : qname) (ats : list (qname * str))
| XClose (q : qname)
| XText (data : str).
Definition as_call (c : xcall) : nscall :=
  match c with
  | XDecl p ns => NsDecl p ns
  | XUndecl p => NsEnd p
  | XStart q ats => NsStart (expanded q) (reported ats)
  | XClose q => NsClose (expanded q)
  | XText d => NsText d
  end.
(** Good names; no local name begins with "@". *)
Definition good_call (c : xcall) : Prop :=
  match c with
  | XStart q ats => good_name q /\ (forall r, snd q <> lit "@" ++ r) /\ Forall (fun x => good_name (fst x)) ats
  | XClose q => good_name q
  | _ => True
  end.

(** The last call with [P] (which may depend on those before it) has none with [K] after it; the first, before it. *)
Definition latest {A} (P : list A -> A -> Prop) (K : A -> Prop) (cs : list A) : Prop :=
  exists h1 d h2, cs = h1 ++ d :: h2 /\ P h1 d /\ forall x, In x h2 -> ~ K x.
Definition earliest {A} (P : list A -> A -> Prop) (K : A -> Prop) (cs : list A) : Prop :=
  exists h1 d h2, cs = h1 ++ d :: h2 /\ P h1 d /\ forall x, In x h1 -> ~ K x.

(** The prefix stands for the namespace, by its last declaration; when streaming, if that has not ended. *)
Definition bound (stream : bool) (cs : list xcall) (p ns : option str) : Prop :=
  latest (fun _ d => d = XDecl p ns) (fun x => (exists ns', x = XDecl p ns') \/ (stream = true /\ x = XUndecl p)) cs.
(** The prefix that was last declared for the namespace. *)
Definition prefix_for (cs : list xcall) (ns p : option str) : Prop :=
  latest (fun _ d => d = XDecl p ns) (fun x => exists p', x = XDecl p' ns) cs.
Definition declared (cs : list xcall) (ns : option str) : Prop := exists p, In (XDecl p ns) cs.
Definition has_element (l : str) (c : xcall) : Prop := exists ns ats, c = XStart (ns, l) ats.
(** The first element with the local name was in this namespace, with this prefix. *)
Definition element_note (cs : list xcall) (l : str) (ns p : option str) : Prop :=
  earliest (fun h d => (exists ats, d = XStart (ns, l) ats) /\ prefix_for h ns p) (has_element l) cs.
(** The last attribute with the local name. *)
Definition attribute_note (cs : list xcall) (l : str) (ns p : option str) : Prop :=
  latest (fun h d => (exists q a1 v a2, d = XStart q (a1 ++ ((ns, l), v) :: a2) /\ forall ns' v', ~ In ((ns', l), v') a2) /\
                     (prefix_for h ns p \/ (~ declared h ns /\ p = Some [])))
         (fun x => exists q ats ns' v, x = XStart q ats /\ In ((ns', l), v) ats) cs.

(** What the class asks of a call after the calls [cs]: an element must be in a namespace that has been
    declared or have the local name of an element before it; when streaming, a declaration that ends
    must be the last one of its prefix, and not have ended. *)
Definition permitted (stream : bool) (cs : list xcall) (c : xcall) : Prop :=
  match c with
  | XUndecl p => stream = true -> exists ns, bound stream cs p ns
  | XStart (ns, l) _ => declared cs ns \/ exists x, In x cs /\ has_element l x
  | _ => True
  end.
