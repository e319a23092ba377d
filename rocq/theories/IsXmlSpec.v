(** Unicode encodings and what XML must look like. *)
From Verif Require Import PyStr.
Local Open Scope N_scope.

Definition byte (b : N) : Prop := b < 256.
(** Unicode scalar values *)
Definition scalar (c : N) : Prop := c < 0xD800 \/ (0xE000 <= c /\ c < 0x110000).

Definition utf8_char (c : N) : list N :=
  if c <? 0x80 then [c]
  else if c <? 0x800 then [0xC0 + c / 64; 0x80 + c mod 64]
  else if c <? 0x10000 then [0xE0 + c / 4096; 0x80 + (c / 64) mod 64; 0x80 + c mod 64]
  else [0xF0 + c / 262144; 0x80 + (c / 4096) mod 64; 0x80 + (c / 64) mod 64; 0x80 + c mod 64].
Definition utf8 (u : str) : list N := flat_map utf8_char u.

Definition two (big : bool) (v : N) : list N := if big then [v / 256; v mod 256] else [v mod 256; v / 256].
Definition utf16_char (big : bool) (c : N) : list N :=
  if c <? 0x10000 then two big c
  else two big (0xD800 + (c - 0x10000) / 1024) ++ two big (0xDC00 + (c - 0x10000) mod 1024).
Definition utf16 (big : bool) (u : str) : list N := flat_map (utf16_char big) u.
Definition utf32_char (big : bool) (c : N) : list N :=
  if big then [0; c / 65536; (c / 256) mod 256; c mod 256] else [c mod 256; (c / 256) mod 256; c / 65536; 0].
Definition utf32 (big : bool) (u : str) : list N := flat_map (utf32_char big) u.

(** Some white space, then "<". *)
Definition white (c : N) : Prop := c = 0x20 \/ c = 0x09 \/ c = 0x0A \/ c = 0x0D.
Definition starts_markup (u : str) : Prop := exists ws r, u = ws ++ 0x3C :: r /\ Forall white ws.

(** What the recognised byte strings may begin with: the first characters in some encoding or a
    byte order mark. *)
Definition signatures : list (list N) :=
  [[0x3C;0x3F;0x78;0x6D]; [0x00;0x3C;0x00;0x3F]; [0x3C;0x00;0x3F;0x00]; [0x4C;0x6F;0xA7;0x94];
   [0x00;0x00;0x00;0x3C]; [0x3C;0x00;0x00;0x00]; [0x00;0x00;0x3C;0x00]; [0x00;0x3C;0x00;0x00]].
Definition marks : list (list N) :=
  [[0x00;0x00;0xFE;0xFF]; [0xFF;0xFE;0x00;0x00]; [0x00;0x00;0xFF;0xFE]; [0xFE;0xFF;0x00;0x00];
   [0xEF;0xBB;0xBF]; [0xFE;0xFF]; [0xFF;0xFE]].
Definition begins (bs p : list N) : Prop := exists r, bs = p ++ r.
(** The byte order mark in UTF-16 and UTF-32 *)
Definition mark16 (big : bool) : list N := if big then [0xFE; 0xFF] else [0xFF; 0xFE].
Definition mark32 (big : bool) : list N := if big then [0; 0; 0xFE; 0xFF] else [0xFF; 0xFE; 0; 0].
