(** How a text is cut into tokens: always the longest piece that is a token. *)
From Verif Require Import PyStr XPath XGramSpec.
Local Open Scope N_scope.

Definition in_ranges (l : list (N * N)) (c : chr) : Prop := exists a b, In (a, b) l /\ a <= c <= b.
(** The pieces of names.  (The second of the first kind is meant to be the range from U+00C0 to U+00D6.) *)
Inductive begins : str -> Prop :=
| B_char c : in_ranges [(65, 90); (95, 95); (97, 122); (216, 246); (248, 767); (880, 893); (895, 8191); (8204, 8205); (8304, 8591); (11264, 12271);
                        (12289, 55295); (63744, 64975); (65008, 65533); (65536, 983039)] c -> begins [c]
| B_odd : begins [192; 45; 214; 93].
Inductive continues : str -> Prop :=
| C_begins u : begins u -> continues u
| C_char c : in_ranges [(45, 46); (48, 57); (183, 183); (768, 879); (8255, 8256)] c -> continues [c].
Definition name (n : str) : Prop := exists u us, n = u ++ concat us /\ begins u /\ Forall continues us.

(** Digits that may begin a name, which no ASCII digit does, do. *)
Definition like_name (s : str) : Prop := exists u r, s = u ++ r /\ begins u.

Definition punct_text (p : punct) : str :=
  match p with
  | Slash => lit "/" | Slashes => lit "//" | Dot => lit "." | Dots => lit ".." | Colons => lit "::" | At => lit "@"
  | LPar => lit "(" | RPar => lit ")" | LBrk => lit "[" | RBrk => lit "]" | Bar => lit "|" | Eq_ => lit "=" | Ne_ => lit "!="
  | Lt_ => lit "<" | Gt_ => lit ">" | Le_ => lit "<=" | Ge_ => lit ">=" | Plus => lit "+" | Minus => lit "-" | Star => lit "*"
  | Comma => lit "," | Dollar => lit "$"
  end.

Section Scan.
  (** The decimal digits beyond U+00FF, and the value of a decimal fraction. *)
  Variables (wide : chr -> option N) (fraction : str -> flt).
  Inductive has_value : chr -> N -> Prop :=
  | V_ascii c : 48 <= c <= 57 -> has_value c (c - 48)
  | V_wide c z : 256 <= c -> wide c = Some z -> has_value c z.
  (** The value of digits, from left to right. *)
  Inductive number : str -> N -> Prop :=
  | N_none : number [] 0
  | N_more s z c d : number s z -> has_value c d -> number (s ++ [c]) (10 * z + d).

  Inductive spells : token -> str -> Prop :=
  | Sp_word n : name n -> spells (Word n) n
  | Sp_quoted q s : q = 34 \/ q = 39 -> ~ In q s -> spells (Quoted s) (q :: s ++ [q])
  | Sp_int s z : s <> [] -> number s z -> ~ like_name s -> spells (Int (Z.of_N z)) s
  | Sp_flt a b x y : number a x -> number b y -> a ++ b <> [] -> ~ like_name (a ++ lit "." ++ b) ->
      spells (Flt (fraction (a ++ lit "." ++ b))) (a ++ lit "." ++ b)
  | Sp_punct p : spells (P p) (punct_text p).

  Definition blank (c : chr) : Prop := c = 32 \/ c = 9 \/ c = 13 \/ c = 10.
  (** [s] is the longest piece at the beginning of [s ++ rest] that is a token. *)
  Definition longest (s rest : str) : Prop := forall t s' rest', s ++ rest = s' ++ rest' -> spells t s' -> (length s' <= length s)%nat.

  (** [scans s l b]: [s] is made up of the tokens [l], or, if [b], of the tokens [l] and something
      that is not a token. *)
  Inductive scans : str -> list token -> bool -> Prop :=
  | S_end w : Forall blank w -> scans w [] false
  | S_token w t s rest l b : Forall blank w -> spells t s -> longest s rest -> scans rest l b -> scans (w ++ s ++ rest) (t :: l) b
  | S_bad w c rest : Forall blank w -> ~ blank c -> (forall t s' rest', c :: rest = s' ++ rest' -> ~ spells t s') -> scans (w ++ c :: rest) [] true.
End Scan.
