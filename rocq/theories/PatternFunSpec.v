(** Specifications for patterns with functions and for several patterns. *)
From Verif Require Import PyStr Parser XTree Heap Builder HeapSpec Path Pattern TreeIter PatternFun.

(** The start events of the elements from the root down to the given position. *)
Fixpoint starts (above : list str) (t : xtree) (a : addr) : list event :=
  match t with
  | XT _ => []
  | XE n at_ ks => EvStart n at_ above ::
      match a with
      | [] => []
      | i :: a' => match nth_error ks i with Some k => starts (above ++ [n]) k a' | None => [] end
      end
  end.

Definition named (n : str) (e : event) : Prop := exists at_ anc, e = EvStart n at_ anc.
Definition alt_ok (x : falt) (e : event) : Prop :=
  match x with ByName n => named n e | ByFun f => f e = Some true end.
Definition fstage_ok (st : fstage) (e : event) : Prop :=
  match st with
  | FName n => named n e
  | FAny => True
  | FDeep => False
  | FAlt l => exists x, In x l /\ alt_ok x e
  end.
(** The pattern matches the sequence of start events; '**' stands for any number of elements. *)
Inductive fmatches : list fstage -> list event -> Prop :=
| fm_nil : fmatches [] []
| fm_one st p e es : fstage_ok st e -> fmatches p es -> fmatches (st :: p) (e :: es)
| fm_deep p l es : fmatches p es -> fmatches (FDeep :: p) (l ++ es).

Definition no_fdeep (p : list fstage) : Prop := ~ In FDeep p.
Definition ends_fdeep (p : list fstage) : Prop := exists q, p = q ++ [FDeep].
(** The functions raise no exceptions. *)
Definition safe (p : list fstage) : Prop := forall l f e, In (FAlt l) p -> In (ByFun f) l -> f e <> None.

(** What was sent to sink [ix] since [s]: the trees [ts], in order, each complete when it was sent. *)
Definition to_sink (ix : nat) (x : nat * option ref * heap) : bool := Nat.eqb (fst (fst x)) ix.
Definition sent_to (s s' : tstate) (ix : nat) (ts : list xtree) : Prop :=
  exists l, tsent s' = tsent s ++ l /\
            Forall2 (fun x t => exists i h, x = (ix, Some i, h) /\ holds_tree h i t) (filter (to_sink ix) l) ts.

(** A sender for [ps] that has been fed any number of complete documents. *)
Inductive fserved (ps : list (list fstage)) : fctl -> tstate -> Prop :=
| fs_new h : allocated h -> fserved ps (new_fctl (length ps)) (new_fsender h (length ps))
| fs_doc c s t c' s' : fserved ps c s -> is_element t ->
    fhandle (fstates ps) c (new_handler s) (doc_events t) c' s' None -> fserved ps c' s'.

(** ** Several patterns *)
(** What sink [ix] of [k] gets to see of a path: every element above [k] times, the last one once for
    each sink up to [ix]. *)
Definition seen (k ix : nat) (path : list event) : list event :=
  flat_map (fun e => repeat e k) (removelast path) ++ match rev path with e :: _ => repeat e (S ix) | [] => [] end.
(** The pattern of sink [ix] followed by those of the earlier sinks, last one first. *)
Definition joined (ps : list (list fstage)) (ix : nat) : list fstage := concat (rev (firstn (S ix) ps)).
(** What is seen begins with something the joined pattern matches. *)
Definition reached (ps : list (list fstage)) (ix : nat) (path : list event) : Prop :=
  exists a b, seen (length ps) ix path = a ++ b /\ fmatches (joined ps ix) a.

(** The elements at which [P] holds and above which it does not. *)
Definition outermost_by (P : list event -> Prop) (t : xtree) (a : addr) (u : xtree) : Prop :=
  is_element u /\ P (starts [] t a) /\ forall b, Path.above b a -> ~ P (starts [] t b).

(** How a component of a pattern is to be read. *)
Inductive reads : fcomp -> fstage -> Prop :=
| rd_any : reads (CStr (lit "*")) FAny
| rd_deep : reads (CStr (lit "**")) FDeep
| rd_name s : s <> lit "*" -> s <> lit "**" -> reads (CStr s) (FName s)
| rd_alt l : reads (CTup l) (FAlt l).
(** A component in the place of a pattern: a tuple of names, or a string as the sequence of its characters. *)
Inductive taken : fcomp -> list fstage -> Prop :=
| tk_str s p : Forall2 reads (map (fun c => CStr [c]) s) p -> taken (CStr s) p
| tk_tup ns p : Forall2 reads (map CStr ns) p -> taken (CTup (map ByName ns)) p.
