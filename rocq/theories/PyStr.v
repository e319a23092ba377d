(** Python strings, lists and dicts as used by amara3.uxml, and the two
    escaping functions of the standard library module xml.sax.saxutils.

    A character is its code point; a Python [str] is a list of code points. *)
From Coq Require Export Ascii String.
From Coq Require Export List NArith ZArith Bool Arith Lia.
Export ListNotations.
Local Open Scope N_scope.

Notation chr := N (only parsing).
Notation str := (list N) (only parsing).

(** String literals: ["<a>"] of the source text is written [lit "<a>"]. *)
Fixpoint lit (s : string) : str :=
  match s with
  | EmptyString => []
  | String c s' => N_of_ascii c :: lit s'
  end.
Arguments lit s%string.

(** Frequently used characters. *)
Definition c_tab : chr := 9.
Definition c_nl : chr := 10.
Definition c_cr : chr := 13.
Definition c_sp : chr := 32.
Definition c_dq : chr := 34.    (* double quote *)
Definition c_hash : chr := 35.  (* # *)
Definition c_amp : chr := 38.   (* & *)
Definition c_sq : chr := 39.    (* single quote *)
Definition c_slash : chr := 47. (* / *)
Definition c_semi : chr := 59.  (* ; *)
Definition c_lt : chr := 60.    (* < *)
Definition c_eq : chr := 61.    (* = *)
Definition c_gt : chr := 62.    (* > *)
Definition c_x : chr := 120.    (* x *)

(** [s == t] on strings. *)
Fixpoint str_eqb (s t : str) : bool :=
  match s, t with
  | [], [] => true
  | a :: s', b :: t' => (a =? b) && str_eqb s' t'
  | _, _ => false
  end.

(** [c in s] for a single character [c]. *)
Definition char_in (c : chr) (s : str) : bool := existsb (N.eqb c) s.

(** Python dict with string keys: insertion ordered association list;
    assigning to an existing key keeps its position. *)
Definition dict (A : Type) := list (str * A).

Fixpoint dict_set {A} (d : dict A) (k : str) (v : A) : dict A :=
  match d with
  | [] => [(k, v)]
  | (k', v') :: d' => if str_eqb k' k then (k', v) :: d' else (k', v') :: dict_set d' k v
  end.

Fixpoint dict_get {A} (d : dict A) (k : str) : option A :=
  match d with
  | [] => None
  | (k', v') :: d' => if str_eqb k' k then Some v' else dict_get d' k
  end.

(** [s.replace(c, r)] for a single character [c]. *)
Definition replace_char (c : chr) (r : str) (s : str) : str :=
  flat_map (fun x => if x =? c then r else [x]) s.

(** xml.sax.saxutils.escape(data) (CPython 3 Lib/xml/sax/saxutils.py):
      data = data.replace("&", "&amp;")
      data = data.replace(">", "&gt;")
      data = data.replace("<", "&lt;")                                    *)
Definition py_escape (s : str) : str :=
  replace_char c_lt (lit "&lt;")
    (replace_char c_gt (lit "&gt;")
       (replace_char c_amp (lit "&amp;") s)).

(** xml.sax.saxutils.quoteattr(data):
      entities = {**entities, '\n': '&#10;', '\r': '&#13;', '\t':'&#9;'}
      data = escape(data, entities)
      if '"' in data:
          if "'" in data: data = '"%s"' % data.replace('"', "&quot;")
          else:           data = "'%s'" % data
      else: data = '"%s"' % data                                          *)
Definition py_quoteattr (s : str) : str :=
  let data :=
    replace_char c_tab (lit "&#9;")
      (replace_char c_cr (lit "&#13;")
         (replace_char c_nl (lit "&#10;") (py_escape s))) in
  if char_in c_dq data
  then if char_in c_sq data
       then [c_dq] ++ replace_char c_dq (lit "&quot;") data ++ [c_dq]
       else [c_sq] ++ data ++ [c_sq]
  else [c_dq] ++ data ++ [c_dq].

(** [''.join(l)] *)
Definition py_join (l : list str) : str := List.concat l.

(** [s * n] *)
Fixpoint str_repeat (s : str) (n : nat) : str :=
  match n with O => [] | S n' => s ++ str_repeat s n' end.
