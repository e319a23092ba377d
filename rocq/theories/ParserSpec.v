(** Small specifications used to state the parser properties.  Nothing here
    refers to the parser's state or to its helper functions; only the character
    classes of the language are used. *)
From Verif Require Import PyStr CharClass.
From Verif Require Import Parser. (* only for the type [event] *)
From Verif Require Import XTree Grammar.

(** ** Where an attribute value starts and ends

    A scanner over the characters of a text.  It distinguishes text, the inside of
    a tag, the place just after an '=' in a tag, and the inside of a quoted value.
    A reference inside a value is '&' followed by '#x' and alphanumerics, or by
    alphanumerics, and a ';'.  A value containing an '&' that is not followed by such a
    reference counts as never ending ([MBad]). *)
Inductive qmode :=
| MText | MTag | MAfterEq
| MQuote (q : chr)    (* inside a value opened with [q] *)
| MAmp (q : chr)      (* just after an '&' in it *)
| MHash (q : chr)     (* just after '&#' *)
| MRef (q : chr)      (* inside a reference *)
| MBad.

Definition qstep (m : qmode) (c : chr) : qmode :=
  match m with
  | MText => if N.eqb c c_lt then MTag else MText
  | MTag => if N.eqb c c_gt then MText else if N.eqb c c_eq then MAfterEq else MTag
  | MAfterEq => if is_quote c then MQuote c else MTag
  | MQuote q => if N.eqb c q then MTag else if N.eqb c c_amp then MAmp q else MQuote q
  | MAmp q => if N.eqb c c_hash then MHash q
              else if is_alnum c then MRef q
              else if N.eqb c c_semi then MQuote q else MBad
  | MHash q => if N.eqb c c_x then MRef q else MBad
  | MRef q => if is_alnum c then MRef q else if N.eqb c c_semi then MQuote q else MBad
  | MBad => MBad
  end.

Definition qscan (m : qmode) (s : str) : qmode := fold_left qstep s m.

Definition in_value (m : qmode) : bool :=
  match m with MText | MTag | MAfterEq => false | _ => true end.

(** The text [s] ends inside a quoted attribute value. *)
Definition ends_in_value (s : str) : bool := in_value (qscan MText s).

(** No boundary between two of the given pieces lies inside an attribute value. *)
Fixpoint safe_cuts_from (before : str) (pieces : list str) : bool :=
  match pieces with
  | [] => true
  | [p] => true
  | p :: rest => negb (ends_in_value (before ++ p)) && safe_cuts_from (before ++ p) rest
  end.
Definition safe_cuts (pieces : list str) : bool := safe_cuts_from [] pieces.

(** ** Well nested event sequences *)

(** [nest open evs open'] : starting with the elements [open] open (innermost
    first), the events [evs] are legal and leave [open'] open.  Once no element is
    open nothing may follow. *)
Inductive nest : list str -> list event -> list str -> Prop :=
| nest_nil open : nest open [] open
| nest_start open n attrs evs open' :
    open <> [] -> nest (n :: open) evs open' ->
    nest open (EvStart n attrs (rev open) :: evs) open'
| nest_end open n evs open' :
    nest open evs open' -> nest (n :: open) (EvEnd n (rev open) :: evs) open'
| nest_chars open t evs open' :
    open <> [] -> nest open evs open' -> nest open (EvChars t :: evs) open'.

(** A document in progress: it begins with the start of the document element. *)
Definition document_events (evs : list event) (open : list str) : Prop :=
  exists n attrs evs', evs = EvStart n attrs [] :: evs' /\ nest [n] evs' open.

Definition well_nested_prefix (evs : list event) : Prop :=
  evs = [] \/ exists open, document_events evs open.

Definition complete_document (evs : list event) : Prop := document_events evs [].

(** ** Legal content *)
Definition legal_text (t : str) : Prop := forall c, In c t -> is_character c = true.
Definition name_or_empty (n : str) : Prop :=
  n = [] \/ exists c r, n = c :: r /\ is_namestart c = true /\ forall x, In x r -> is_namechar x = true.
Definition legal_event (e : event) : Prop :=
  match e with
  | EvStart n attrs anc =>
      name_or_empty n /\ (forall k v, In (k, v) attrs -> legal_text v) /\ NoDup (map fst attrs)
      /\ Forall name_or_empty anc
  | EvEnd n anc => name_or_empty n /\ Forall name_or_empty anc
  | EvChars t => t <> [] /\ legal_text t
  end.

(** No two character events are adjacent. *)
Definition text_coalesced (evs : list event) : Prop :=
  forall a t1 t2 b, evs <> a ++ EvChars t1 :: EvChars t2 :: b.

(** ** Good beginnings of documents

    [at_markup text evs open]: [text] is the beginning of a document up to a point
    where a tag may start, [evs] its events and [open] the names of the open elements,
    innermost first.  [after_tag]: the same just after the end of a tag. *)
Inductive at_markup : str -> list event -> list str -> Prop :=
| am_root w : blank w -> at_markup w [] []
| am_text p evs top open raw v :
    after_tag p evs (top :: open) -> cdata (droppable c_lt) is_datachar raw v ->
    at_markup (p ++ raw) (evs ++ forest_events [] (text_node v)) (top :: open)
with after_tag : str -> list event -> list str -> Prop :=
| at_start t evs open st n d :
    at_markup t evs open -> lstart st n d ->
    after_tag (t ++ st) (evs ++ [EvStart n d (rev open)]) (n :: open)
| at_end t evs n open en :
    at_markup t evs (n :: open) -> lend en n ->
    after_tag (t ++ en) (evs ++ [EvEnd n (rev open)]) open.

Scheme at_markup_mut := Minimality for at_markup Sort Prop
  with after_tag_mut := Minimality for after_tag Sort Prop.

(** The first character that is not white space exists and is not the start of a tag. *)
Definition junk_first (s : str) : Prop :=
  exists w c r, s = w ++ c :: r /\ blank w /\ is_ws c = false /\ c <> c_lt.

(** The text ends with the closing angle bracket of a tag. *)
Definition closes_tag (s : str) : Prop := exists t, s = t ++ [c_gt] /\ qscan MText t = MTag.

(** What follows an ampersand is neither a hexadecimal reference, nor a name with a semicolon,
    and cannot become one. *)
Definition bad_reference (s : str) : Prop :=
  exists a c k, s = a ++ c :: k /\ (forall x, In x a -> is_alnum x = true) /\
    is_alnum c = false /\ c <> c_semi /\
    (a = [] -> c = c_hash -> exists d k', k = d :: k' /\ d <> c_x).

(** [in_attr_value pre evs open n d a q]: [pre] is the beginning of a document up to and
    including the opening quote [q] of the value of attribute [a] in a start tag named
    [n]; [d] are the attributes of that tag before it, [evs] and [open] the events and the
    open elements before the tag. *)
Inductive in_attr_value : str -> list event -> list str -> str -> dict str -> str -> chr -> Prop :=
| iav t evs open w0 n attrs d w c nm w1 q :
    at_markup t evs open -> blank w0 -> name n ->
    lattrs attrs [] d -> ~ head_is is_namechar attrs ->
    blank w -> w <> [] -> name (c :: nm) -> blank w1 -> is_quote q = true ->
    in_attr_value (t ++ c_lt :: w0 ++ n ++ attrs ++ w ++ (c :: nm) ++ w1 ++ [c_eq; q])
      evs open n d (c :: nm) q.

(** How a wrong reference fails. *)
Definition hex_error (ds : str) (e : exn) : Prop :=
  (ds = [] /\ e = ValueErr) \/
  (ds <> [] /\ (0x80000000 <= hex_number ds)%N /\ e = OverflowErr) \/
  (ds <> [] /\ (0x110000 <= hex_number ds < 0x80000000)%N /\ e = ValueErr) \/
  (ds <> [] /\ (hex_number ds < 0x110000)%N /\ is_character (hex_number ds) = false /\ e = RtBadCharRef).

Inductive wrong_reference : str -> exn -> Prop :=
| wr_hex ds e : (forall d, In d ds -> is_hex d = true) -> hex_error ds e ->
    wrong_reference (c_hash :: c_x :: ds) e
| wr_name n : (forall c, In c n -> is_alnum c = true) ->
    ~ In n [lit "lt"; lit "gt"; lit "amp"; lit "quot"; lit "apos"] ->
    wrong_reference n RtUnknownRef.

(** [c] cannot follow the beginning [n attrs w] of a start tag (the element name [n] may be missing). *)
Definition cannot_follow (n attrs w : str) (c : chr) : Prop :=
  is_ws c = false /\ c <> c_gt /\ is_namestart c = false /\
  (n = [] -> attrs = [] /\ c <> c_slash) /\
  (n <> [] -> attrs = [] -> w = [] -> is_namechar c = false).

(** ** The character classes of MicroXML (productions char, dataChar, name of the
    specification), by exclusion rather than by ranges. *)
Definition is_control (c : chr) : Prop := (c < 0x20 \/ 0x7F <= c <= 0x9F)%N.
Definition is_surrogate (c : chr) : Prop := (0xD800 <= c <= 0xDFFF)%N.
Definition is_noncharacter (c : chr) : Prop :=
  (0xFDD0 <= c <= 0xFDEF)%N \/ N.modulo c 0x10000 = 0xFFFE%N \/ N.modulo c 0x10000 = 0xFFFF%N.
Definition micro_char (c : chr) : Prop :=
  (c <= 0x10FFFF)%N /\ (c = c_tab \/ c = c_nl \/ ~ is_control c) /\ ~ is_surrogate c /\ ~ is_noncharacter c.
Definition micro_namestart (c : chr) : Prop :=
  (0x41 <= c <= 0x5A \/ 0x61 <= c <= 0x7A \/ c = 0x5F \/ 0xC0 <= c <= 0xD6 \/ 0xD8 <= c <= 0xF6 \/
   0xF8 <= c <= 0x2FF \/ 0x370 <= c <= 0x37D \/ 0x37F <= c <= 0x1FFF \/ 0x200C <= c <= 0x200D \/
   0x2070 <= c <= 0x218F \/ 0x2C00 <= c <= 0x2FEF \/ 0x3001 <= c <= 0xD7FF \/ 0xF900 <= c <= 0xFDCF \/
   0xFDF0 <= c <= 0xFFFD \/ 0x10000 <= c <= 0xEFFFF)%N.
Definition micro_namechar (c : chr) : Prop :=
  (micro_namestart c \/ 0x30 <= c <= 0x39 \/ c = 0x2D \/ c = 0x2E \/ c = 0xB7 \/
   0x300 <= c <= 0x36F \/ 0x203F <= c <= 0x2040)%N.
