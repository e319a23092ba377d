(** clib/xmlstring.c: isxml. *)
From Verif Require Import PyStr.
Local Open Scope N_scope.

(** ** Python's decoders, strict error handling; [None] is UnicodeDecodeError. *)
Definition cons_opt (c : chr) (r : option str) : option str := match r with Some s => Some (c :: s) | None => None end.
Definition in_range (lo hi b : N) : bool := (lo <=? b) && (b <=? hi).
Definition is_cont (b : N) : bool := in_range 0x80 0xBF b.
Definition is_surrogate (c : N) : bool := in_range 0xD800 0xDFFF c.

(** PyUnicode_Decode with "utf-8" *)
Fixpoint utf8_decode (bs : list N) : option str :=
  match bs with
  | [] => Some []
  | b1 :: r1 =>
      if b1 <? 0x80 then cons_opt b1 (utf8_decode r1)
      else if in_range 0xC2 0xDF b1 then
        match r1 with
        | b2 :: r2 => if is_cont b2 then cons_opt ((b1 - 0xC0) * 64 + (b2 - 0x80)) (utf8_decode r2) else None
        | _ => None
        end
      else if in_range 0xE0 0xEF b1 then
        match r1 with
        | b2 :: b3 :: r3 =>
            let c := ((b1 - 0xE0) * 64 + (b2 - 0x80)) * 64 + (b3 - 0x80) in
            if is_cont b2 && is_cont b3 && (0x800 <=? c) && negb (is_surrogate c) then cons_opt c (utf8_decode r3) else None
        | _ => None
        end
      else if in_range 0xF0 0xF4 b1 then
        match r1 with
        | b2 :: b3 :: b4 :: r4 =>
            let c := (((b1 - 0xF0) * 64 + (b2 - 0x80)) * 64 + (b3 - 0x80)) * 64 + (b4 - 0x80) in
            if is_cont b2 && is_cont b3 && is_cont b4 && in_range 0x10000 0x10FFFF c then cons_opt c (utf8_decode r4) else None
        | _ => None
        end
      else None
  end.

Definition unit16 (big : bool) (a b : N) : N := if big then a * 256 + b else b * 256 + a.
(** The units of UTF-16 in the given byte order. *)
Fixpoint utf16_units (big : bool) (bs : list N) : option str :=
  match bs with
  | [] => Some []
  | a :: b :: r =>
      let u := unit16 big a b in
      if in_range 0xDC00 0xDFFF u then None
      else if in_range 0xD800 0xDBFF u then
        match r with
        | a' :: b' :: r' =>
            let v := unit16 big a' b' in
            if in_range 0xDC00 0xDFFF v then cons_opt (0x10000 + (u - 0xD800) * 1024 + (v - 0xDC00)) (utf16_units big r') else None
        | _ => None
        end
      else cons_opt u (utf16_units big r)
  | _ => None
  end.
(** PyUnicode_Decode with "utf-16": a byte order mark is skipped; without one the byte order of
    the machine counts, taken to be little endian. *)
Definition utf16_decode (bs : list N) : option str :=
  match bs with
  | 0xFE :: 0xFF :: r => utf16_units true r
  | 0xFF :: 0xFE :: r => utf16_units false r
  | _ => utf16_units false bs
  end.
Fixpoint utf32_units (big : bool) (bs : list N) : option str :=
  match bs with
  | [] => Some []
  | a :: b :: c :: d :: r =>
      let u := if big then ((a * 256 + b) * 256 + c) * 256 + d else ((d * 256 + c) * 256 + b) * 256 + a in
      if (u <=? 0x10FFFF) && negb (is_surrogate u) then cons_opt u (utf32_units big r) else None
  | _ => None
  end.
(** PyUnicode_Decode with "utf-32", likewise. *)
Definition utf32_decode (bs : list N) : option str :=
  match bs with
  | 0x00 :: 0x00 :: 0xFE :: 0xFF :: r => utf32_units true r
  | 0xFF :: 0xFE :: 0x00 :: 0x00 :: r => utf32_units false r
  | _ => utf32_units false bs
  end.

(** xmlstring.c 31-34 IS_XMLSPACE *)
Definition is_xmlspace (c : N) : bool := (c =? 0x09) || (c =? 0x0A) || (c =? 0x0D) || (c =? 0x20).
(** xmlstring.c 107-121; the buffer ends with a NUL, which is neither space nor '<'. *)
Fixpoint first_is_lt (u : str) : bool :=
  match u with
  | [] => false
  | c :: r => if is_xmlspace c then first_is_lt r else c =? 0x3C
  end.
Definition smell (u : option str) : bool := match u with Some u => first_is_lt u | None => false end.

(** xmlstring.c 58-105 *)
Definition be32 (a b c d : N) : N := ((a * 256 + b) * 256 + c) * 256 + d.
Definition isxml (bs : list N) : bool :=
  match bs with
  | a :: b :: c :: d :: _ =>
      let chv := be32 a b c d in
      if existsb (N.eqb chv) [0x3C3F786D; 0x003C003F; 0x3C003F00; 0x4C6FA794; 0x0000003C; 0x3C000000; 0x00003C00; 0x003C0000] then true
      else if existsb (N.eqb chv) [0x0000FEFF; 0xFFFE0000; 0x0000FFFE; 0xFEFF0000] then smell (utf32_decode bs)
      else if chv / 0x100 =? 0xEFBBBF then smell (utf8_decode (skipn 3 bs))
      else if existsb (N.eqb (chv / 0x10000)) [0xFEFF; 0xFFFE] then smell (utf16_decode bs)
      else smell (utf8_decode bs)
  | _ => smell (utf8_decode bs)
  end.
