(** Specifications for serialisation. *)
From Verif Require Import PyStr CharClass Parser XTree Grammar.

(** The characters of all character events of a sequence. *)
Definition event_text (e : event) : str := match e with EvChars s => s | _ => [] end.

(** ** What a parser can give back

    Characters that are not MicroXML characters disappear, adjacent text is merged and
    empty text disappears. *)
Definition cons_text (s : str) (ks : list xtree) : list xtree :=
  match s with
  | [] => ks
  | _ => match ks with XT s' :: r => XT (s ++ s') :: r | _ => XT s :: ks end
  end.
Definition cons_node (k : xtree) (ks : list xtree) : list xtree :=
  match k with XT s => cons_text s ks | XE _ _ _ => k :: ks end.
Fixpoint normal (t : xtree) : xtree :=
  match t with
  | XE n a ks => XE n (map (fun kv => (fst kv, filter is_character (snd kv))) a)
                      (fold_right (fun k acc => cons_node (normal k) acc) [] ks)
  | XT s => XT (filter is_character s)
  end.

(** All characters are legal, no text is empty and no two texts are adjacent. *)
Definition legal (s : str) : Prop := forall c, In c s -> is_character c = true.
Fixpoint no_adjacent_text (ks : list xtree) : Prop :=
  match ks with
  | XT _ :: ((XT _ :: _) as r) => False
  | _ :: r => no_adjacent_text r
  | [] => True
  end.
Inductive normalised : xtree -> Prop :=
| nz_elem n a ks : (forall k v, In (k, v) a -> legal v) ->
    (forall s, In (XT s) ks -> s <> []) -> no_adjacent_text ks ->
    (forall k, In k ks -> normalised k) -> normalised (XE n a ks)
| nz_text s : legal s -> normalised (XT s).

(** Trees that can be written: names are names, the attribute map is a map, and no
    attribute value contains a tab, newline or carriage return. *)
Definition plain_value (v : str) : Prop := ~ In c_tab v /\ ~ In c_nl v /\ ~ In c_cr v.
Inductive writable : xtree -> Prop :=
| wr_elem n a ks : name n -> NoDup (map fst a) ->
    (forall k v, In (k, v) a -> name k /\ plain_value v) ->
    (forall k, In k ks -> writable k) -> writable (XE n a ks)
| wr_text s : writable (XT s).

(** As [writable] without the condition on attribute values. *)
Inductive named : xtree -> Prop :=
| nm_elem n a ks : name n -> NoDup (map fst a) ->
    (forall k v, In (k, v) a -> name k) ->
    (forall k, In k ks -> named k) -> named (XE n a ks)
| nm_text s : named (XT s).
Inductive has_line_break_value : xtree -> Prop :=
| hl_here n a ks k v : In (k, v) a -> ~ plain_value v -> has_line_break_value (XE n a ks)
| hl_below n a ks k : In k ks -> has_line_break_value k -> has_line_break_value (XE n a ks).
(** No start event has an attribute value with a tab, newline or carriage return. *)
Definition plain_events (evs : list event) : Prop :=
  forall n d anc k v, In (EvStart n d anc) evs -> In (k, v) d -> plain_value v.

(** The markup events and the visible characters of an event sequence, in order. *)
Definition visible (c : chr) : bool := negb (is_ws c).
Definition skeleton1 (e : event) : list (event + chr) :=
  match e with EvChars s => map inr (filter visible s) | _ => [inl e] end.
Definition skeleton (evs : list event) : list (event + chr) := flat_map skeleton1 evs.
