(** Character classes of pylib/uxml/parser.py.  The ranges were extracted from
    the regular expression source text.  All patterns are one bracketed class,
    and [pat.match(window[i])] is applied to one-character strings, so a class is
    a predicate on characters. *)
From Verif Require Import PyStr.
Local Open Scope N_scope.

Definition in_range (c lo hi : N) : bool := (lo <=? c) && (c <=? hi).

(** The tail shared by CHARACTER, DATACHAR and both ATTRIBVALCHAR classes
    (parser.py 34-37, 40-43, 54-57, 60-63):
    a0-d7ff e000-fdcf fdf0-fffd and N0000-Nfffd for N = 1 .. 10 (hex). *)
Definition high_char (c : chr) : bool :=
  in_range c 0xA0 0xD7FF || in_range c 0xE000 0xFDCF || in_range c 0xFDF0 0xFFFD
  || (in_range c 0x10000 0x10FFFF && (N.modulo c 0x10000 <=? 0xFFFD)).

(** parser.py 34-37 CHARACTER *)
Definition is_character (c : chr) : bool :=
  in_range c 0x9 0xA || in_range c 0x20 0x7E || high_char c.

(** parser.py 40-43 DATACHAR *)
Definition is_datachar (c : chr) : bool :=
  in_range c 0x9 0xA || in_range c 0x20 0x25 || in_range c 0x27 0x3B
  || (c =? 0x3D) || in_range c 0x3F 0x7E || high_char c.

(** parser.py 45-47 NAMESTARTCHAR *)
Definition is_namestart (c : chr) : bool :=
  in_range c 0x41 0x5A || in_range c 0x61 0x7A || (c =? 0x5F)
  || in_range c 0xC0 0xD6 || in_range c 0xD8 0xF6 || in_range c 0xF8 0x2FF
  || in_range c 0x370 0x37D || in_range c 0x37F 0x1FFF || in_range c 0x200C 0x200D
  || in_range c 0x2070 0x218F || in_range c 0x2C00 0x2FEF || in_range c 0x3001 0xD7FF
  || in_range c 0xF900 0xFDCF || in_range c 0xFDF0 0xFFFD || in_range c 0x10000 0xEFFFF.

(** parser.py 49-51 NAMECHAR.  As written in the source the class contains
    [·-À-Ö], which re reads as the range B7-C0, the literal '-'
    and D6; so C1-D5 are not included and '-' is. *)
Definition is_namechar (c : chr) : bool :=
  in_range c 0x30 0x39 || in_range c 0x41 0x5A || in_range c 0x61 0x7A || (c =? 0x5F)
  || in_range c 0xB7 0xC0 || (c =? 0x2D) || (c =? 0xD6)
  || in_range c 0xD8 0xF6 || in_range c 0xF8 0x37D
  || in_range c 0x37F 0x1FFF || in_range c 0x200C 0x200D || in_range c 0x203F 0x2040
  || in_range c 0x2070 0x218F || in_range c 0x2C00 0x2FEF || in_range c 0x3001 0xD7FF
  || in_range c 0xF900 0xFDCF || in_range c 0xFDF0 0xFFFD || in_range c 0x10000 0xEFFFF.

(** parser.py 54-57 ATTRIBVALCHAR_SGL *)
Definition is_attr_sgl (c : chr) : bool :=
  in_range c 0x20 0x25 || in_range c 0x28 0x3B || (c =? 0x3D)
  || in_range c 0x3F 0x7E || high_char c.

(** parser.py 60-63 ATTRIBVALCHAR_DBL *)
Definition is_attr_dbl (c : chr) : bool :=
  in_range c 0x20 0x21 || in_range c 0x23 0x25 || in_range c 0x27 0x3B || (c =? 0x3D)
  || in_range c 0x3F 0x7E || high_char c.

(** parser.py 69 HEXCHARENTOK *)
Definition is_hex (c : chr) : bool :=
  in_range c 0x61 0x66 || in_range c 0x41 0x46 || in_range c 0x30 0x39.

(** parser.py 70 NAMEDCHARENTOK *)
Definition is_alnum (c : chr) : bool :=
  in_range c 0x61 0x7A || in_range c 0x41 0x5A || in_range c 0x30 0x39.

(** [c in ' \r\n\t'], parser.py 168, 186, 215, 266, 317 *)
Definition is_ws (c : chr) : bool := char_in c [c_sp; c_cr; c_nl; c_tab].

(** [c] is a double or a single quote, parser.py 282 *)
Definition is_quote (c : chr) : bool := char_in c [c_dq; c_sq].
