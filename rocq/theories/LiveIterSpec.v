(** What a suspended iterator over a tree has still to deliver, and loops that edit. *)
From Verif Require Import PyStr Parser XTree Tree Nodes Heap Builder HeapSpec HeapNavSpec LiveIter.

Section Spec.
  Context {T : Type}.
  Variable visit : T -> heap -> ref -> act T.
  (** What a walk over nodes delivers in a tree that stays as it is: each node itself if it is
      given, then what is delivered from its children if it is entered, then the rest. *)
  Inductive sees (h : heap) : T -> list ref -> list ref -> bool -> Prop :=
  | se_nil s : sees h s [] [] false
  | se_pass s c cs l e : visit s h c = Pass -> sees h s cs l e -> sees h s (c :: cs) l e
  | se_give s c cs l e : visit s h c = Give -> sees h s cs l e -> sees h s (c :: cs) (c :: l) e
  | se_enter s s' c cs l1 l2 e : visit s h c = Enter s' -> sees h s' (kids_of h c) l1 false -> sees h s cs l2 e ->
      sees h s (c :: cs) (l1 ++ l2) e
  | se_both s s' c cs l1 l2 e : visit s h c = GiveEnter s' -> sees h s' (kids_of h c) l1 false -> sees h s cs l2 e ->
      sees h s (c :: cs) (c :: l1 ++ l2) e
  | se_enter_fail s s' c cs l : visit s h c = Enter s' -> sees h s' (kids_of h c) l true -> sees h s (c :: cs) l true
  | se_both_fail s s' c cs l : visit s h c = GiveEnter s' -> sees h s' (kids_of h c) l true -> sees h s (c :: cs) (c :: l) true
  | se_fail s c cs : visit s h c = Raise -> sees h s (c :: cs) [] true.
  (** The children that a list iterator has not reached yet. *)
  Definition to_come (h : heap) (r : ref) (i : nat) : list ref := skipn i (kids_of h r).
  (** What is still to be delivered, and whether a TypeError ends it. *)
  Inductive future (h : heap) : list (frame T) -> list ref -> bool -> Prop :=
  | fu_nil : future h [] [] false
  | fu_cons r i s st l1 l2 e : sees h s (to_come h r i) l1 false -> future h st l2 e -> future h ((r, i, s) :: st) (l1 ++ l2) e
  | fu_fail r i s st l : sees h s (to_come h r i) l true -> future h ((r, i, s) :: st) l true.

  (** next() on the iterator *)
  Definition pulls (h : heap) (st : list (frame T)) (r : pres) : Prop := exists fuel, pull visit fuel h st = Some r.
  (** [for c in it: body], as far as it has got: what has been delivered, the tree and the iterator. *)
  Variable body : heap -> ref -> heap -> Prop.
  Inductive loop : heap -> list (frame T) -> list ref -> heap -> list (frame T) -> Prop :=
  | lo_start h st : loop h st [] h st
  | lo_turn h st c st1 h1 out h2 st2 : pulls h st (Gives c st1) -> body h c h1 -> loop h1 st1 out h2 st2 ->
      loop h st (c :: out) h2 st2.
End Spec.

(** The next item, if any, is skipped after each item that is taken. *)
Fixpoint taken {A} (sel : A -> bool) (l : list A) : list A :=
  match l with
  | [] => []
  | x :: r => if sel x then match r with [] => [x] | _ :: r' => x :: taken sel r' end else taken sel r
  end.
Fixpoint spared {A} (sel : A -> bool) (l : list A) : list A :=
  match l with
  | [] => []
  | x :: r => if sel x then match r with [] => [] | y :: r' => y :: spared sel r' end else x :: spared sel r
  end.
(** No two neighbours are both selected. *)
Definition apart {A} (sel : A -> bool) (l : list A) : Prop :=
  forall a x y b, l = a ++ x :: y :: b -> sel x = true -> sel y = true -> False.

(** [r.xml_remove(c)] *)
Definition drop_from (r : ref) (h : heap) (c : ref) (h' : heap) : Prop := xml_remove h r (ARef c) = EOk h'.
Fixpoint drop_all (r : ref) (h : heap) (l : list ref) (h' : heap) : Prop :=
  match l with [] => h' = h | c :: l' => exists h1, drop_from r h c h1 /\ drop_all r h1 l' h' end.

(** Insertions and removals of text in one element. *)
Inductive text_edit (c : ref) (h h' : heap) : Prop :=
| te_insert x s index : (x = AStr s \/ exists i, x = ARef i /\ is_text h i s) -> xml_insert h c x index = EOk h' -> text_edit c h h'
| te_remove i s : is_text h i s -> xml_remove h c (ARef i) = EOk h' -> text_edit c h h'.
Inductive text_edits (c : ref) : heap -> heap -> Prop :=
| tes_nil h : text_edits c h h
| tes_cons h h1 h2 : text_edit c h h1 -> text_edits c h1 h2 -> text_edits c h h2.

(** [c.xml_append(element(n))] *)
Definition grow (n : str) (h : heap) (c : ref) (h' : heap) : Prop :=
  xml_append (fst (alloc h (OElem n [] [] None))) c (ARef (nxt h)) = EOk h'.
(** [r.xml_insert(s, k)] with some [k] no greater than the index of [c]. *)
Definition text_before (r : ref) (h : heap) (c : ref) (h' : heap) : Prop :=
  exists s k a b, kids_of h r = a ++ c :: b /\ k <= length a /\ xml_insert h r (AStr s) (Z.of_nat k) = EOk h'.
(** Any insertions and removals in elements other than [r]. *)
Definition edit_in (j : ref) (h h' : heap) : Prop :=
  (exists x index, xml_insert h j x index = EOk h') \/ (exists c, xml_remove h j (ARef c) = EOk h').
Inductive edits_off (r : ref) : heap -> heap -> Prop :=
| eo_nil h : edits_off r h h
| eo_cons j h h1 h2 : j <> r -> edit_in j h h1 -> edits_off r h1 h2 -> edits_off r h h2.
(** The object at a position under [r]; the iterator [v] with state [s] over [r], from its start,
    delivers the nodes at the positions [fst m], and then fails or not. *)
Definition at_loc (h : heap) (r : ref) (c : ref) (x : located) : Prop := follow h r (fst x) = Some c.
Definition starts {T} (h : heap) (r : ref) (v : T -> heap -> ref -> act T) (s : T) (m : list located * bool) : Prop :=
  exists l, future v h [(r, 0, s)] l (snd m) /\ Forall2 (at_loc h r) l (fst m).
