(** The language accepted by the parser, as grammars over texts.  Independent of
    the parser model: only the character classes and the tree type are used.

    [strict_doc] is the grammar of documents as MicroXML defines them, restricted to what
    the library supports (no comments, no empty element tags, no tab or newline in
    attribute values).  [lenient_doc] is what the parser actually accepts. *)
From Verif Require Import PyStr CharClass XTree.
Local Open Scope N_scope.

Definition blank (w : str) : Prop := forall c, In c w -> is_ws c = true.
Definition name (n : str) : Prop :=
  exists c r, n = c :: r /\ is_namestart c = true /\ forall x, In x r -> is_namechar x = true.

(** ** References *)
Definition digit_value (c : chr) : N :=
  if c <=? 0x39 then c - 0x30 else if c <=? 0x46 then c - 0x37 else c - 0x57.
Fixpoint hex_number (ds : str) : N :=
  match ds with
  | [] => 0
  | d :: ds' => digit_value d * 16 ^ N.of_nat (length ds') + hex_number ds'
  end.

(** [refers body c]: the text between the ampersand and the semicolon denotes [c]. *)
Inductive refers : str -> chr -> Prop :=
| ref_lt : refers (lit "lt") c_lt
| ref_gt : refers (lit "gt") c_gt
| ref_amp : refers (lit "amp") c_amp
| ref_quot : refers (lit "quot") c_dq
| ref_apos : refers (lit "apos") c_sq
| ref_hex ds : ds <> [] -> (forall d, In d ds -> is_hex d = true) ->
    is_character (hex_number ds) = true -> refers (c_hash :: c_x :: ds) (hex_number ds).

(** ** Character data

    [cdata drop allowed raw v]: the raw text [raw] denotes the string [v].  Plain
    characters must be [allowed].  If [drop] holds of a character that is not allowed, it
    may occur and is ignored. *)
Inductive cdata (drop : chr -> Prop) (allowed : chr -> bool) : str -> str -> Prop :=
| cd_nil : cdata drop allowed [] []
| cd_char c raw v : allowed c = true -> cdata drop allowed raw v ->
    cdata drop allowed (c :: raw) (c :: v)
| cd_ref body c raw v : refers body c -> cdata drop allowed raw v ->
    cdata drop allowed (c_amp :: body ++ c_semi :: raw) (c :: v)
| cd_drop c raw v : drop c -> allowed c = false -> cdata drop allowed raw v ->
    cdata drop allowed (c :: raw) v.

Definition value_char (q : chr) : chr -> bool := if q =? c_sq then is_attr_sgl else is_attr_dbl.
Definition no_drop (c : chr) : Prop := False.
Definition droppable (stop c : chr) : Prop := c <> stop /\ c <> c_amp.

(** A character event is only produced for non-empty text. *)
Definition text_node (v : str) : list xtree := match v with [] => [] | _ => [XT v] end.

(** ** Strict grammar *)
Inductive strict_attrs : str -> dict str -> Prop :=
| sa_nil w : blank w -> strict_attrs w []
| sa_cons w n w1 q raw v rest d :
    blank w -> w <> [] -> name n -> blank w1 -> is_quote q = true ->
    cdata no_drop (value_char q) raw v -> strict_attrs rest d ->
    ~ In n (map fst d) ->
    strict_attrs (w ++ n ++ w1 ++ c_eq :: q :: raw ++ q :: rest) ((n, v) :: d).

Inductive strict_elem : str -> xtree -> Prop :=
| se n attrs d content kids w :
    name n -> strict_attrs attrs d -> strict_content content kids -> blank w ->
    strict_elem (c_lt :: n ++ attrs ++ c_gt :: content ++ c_lt :: c_slash :: n ++ w ++ [c_gt]) (XE n d kids)
with strict_content : str -> list xtree -> Prop :=
| sc_last raw v : cdata no_drop is_datachar raw v -> strict_content raw (text_node v)
| sc_elem raw v e t rest ks :
    cdata no_drop is_datachar raw v -> strict_elem e t -> strict_content rest ks ->
    strict_content (raw ++ e ++ rest) (text_node v ++ t :: ks).

Definition strict_doc (text : str) (t : xtree) : Prop :=
  exists w1 e w2, text = w1 ++ e ++ w2 /\ blank w1 /\ blank w2 /\ strict_elem e t.

(** ** Lenient grammar

    Differences: white space after the opening of a tag and around the slash;
    the element name may be missing; no white space is required between attributes;
    repeated attributes overwrite; characters that are not allowed are ignored; and between the
    name and the value of an attribute there may be any number of junk names
    each followed by an equals sign, the last of which is the attribute name. *)
Definition lname (n : str) : Prop := n = [] \/ name n.
Definition head_is (p : chr -> bool) (s : str) : Prop := exists c r, s = c :: r /\ p c = true.
Definition namechars (s : str) : Prop := forall x, In x s -> is_namechar x = true.

Inductive lattr : str -> str -> str -> Prop :=
| la_value c nm w q raw v :
    namechars nm -> blank w -> is_quote q = true ->
    cdata (droppable q) (value_char q) raw v ->
    lattr (c :: nm ++ w ++ c_eq :: q :: raw ++ [q]) (c :: nm) v
| la_junk c nm w rest n v :
    namechars nm -> blank w -> ~ head_is is_quote rest -> lattr rest n v ->
    lattr (c :: nm ++ w ++ c_eq :: rest) n v.

(** [lattrs text d d']: reading the attributes in [text] takes the map [d] to [d']. *)
Inductive lattrs : str -> dict str -> dict str -> Prop :=
| las_nil w d : blank w -> lattrs w d d
| las_cons w a n v rest d d' :
    blank w -> head_is is_namestart a -> lattr a n v -> lattrs rest (dict_set d n v) d' ->
    lattrs (w ++ a ++ rest) d d'.

Inductive lstart : str -> str -> dict str -> Prop :=
| ls w n attrs d :
    blank w -> lname n -> lattrs attrs [] d -> ~ head_is is_namechar attrs ->
    (n = [] -> blank attrs) ->
    lstart (c_lt :: w ++ n ++ attrs ++ [c_gt]) n d.

Inductive lend : str -> str -> Prop :=
| le w1 w2 n w3 : blank w1 -> blank w2 -> lname n -> blank w3 ->
    lend (c_lt :: w1 ++ c_slash :: w2 ++ n ++ w3 ++ [c_gt]) n.

Inductive lenient_elem : str -> xtree -> Prop :=
| le_elem st n d content kids en :
    lstart st n d -> lenient_content content kids -> lend en n ->
    lenient_elem (st ++ content ++ en) (XE n d kids)
with lenient_content : str -> list xtree -> Prop :=
| lc_last raw v : cdata (droppable c_lt) is_datachar raw v -> lenient_content raw (text_node v)
| lc_elem raw v e t rest ks :
    cdata (droppable c_lt) is_datachar raw v -> lenient_elem e t -> lenient_content rest ks ->
    lenient_content (raw ++ e ++ rest) (text_node v ++ t :: ks).

Definition lenient_doc (text : str) (t : xtree) : Prop :=
  exists w1 e w2, text = w1 ++ e ++ w2 /\ blank w1 /\ blank w2 /\ lenient_elem e t.

Scheme strict_elem_mut := Minimality for strict_elem Sort Prop
  with strict_content_mut := Minimality for strict_content Sort Prop.
Scheme lenient_elem_mut := Minimality for lenient_elem Sort Prop
  with lenient_content_mut := Minimality for lenient_content Sort Prop.
