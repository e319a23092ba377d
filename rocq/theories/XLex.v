(** uxpath/lexrules.py: the tokens of MicroXPath, and the lexer that PLY makes of them
    (uxpath/__init__.py 53).  PLY tries the rules that are functions in the order of their lines and
    then those that are strings by decreasing length of their regular expressions; the first that
    matches counts.  Not modelled: line numbers, and the limit of int() on the number of digits. *)
From Verif Require Import PyStr XPath Lalr XGram.
Local Open Scope N_scope.

(** What a text is matched by, and the rest. *)
Definition lexeme := (str * str)%type.
Definition between (a b c : N) : bool := (a <=? c) && (c <=? b).

(** 68-71 NameStartChar: its alternatives that are one character ... *)
Definition start_char (c : chr) : bool :=
  between 65 90 c || (c =? 95) || between 97 122 c || between 216 246 c || between 248 767 c
  || between 880 893 c || between 895 8191 c || between 8204 8205 c || between 8304 8591 c
  || between 11264 12271 c || between 12289 55295 c || between 63744 64975 c || between 65008 65533 c
  || between 65536 983039 c.
(** ... and [\xc0-\xd6\]], which for want of an opening bracket is these four characters. *)
Definition odd_start : str := [192; 45; 214; 93].
(** 73 NameChar_extras *)
Definition extra_char (c : chr) : bool :=
  (c =? 45) || (c =? 46) || between 48 57 c || (c =? 183) || between 768 879 c || between 8255 8256 c.

(** 75-76 NAME_REGEX: what follows the first NameStartChar *)
Fixpoint name_tail (s : str) : lexeme :=
  match s with
  | [] => ([], [])
  | c :: r =>
      if start_char c || extra_char c then let '(m, t) := name_tail r in (c :: m, t)
      else match r with
           | c2 :: c3 :: c4 :: r' =>
               if str_eqb [c; c2; c3; c4] odd_start then let '(m, t) := name_tail r' in (c :: c2 :: c3 :: c4 :: m, t)
               else ([], s)
           | _ => ([], s)
           end
  end.
Definition m_name (s : str) : option lexeme :=
  match s with
  | [] => None
  | c :: r =>
      if start_char c then let '(m, t) := name_tail r in Some (c :: m, t)
      else match r with
           | c2 :: c3 :: c4 :: r' =>
               if str_eqb [c; c2; c3; c4] odd_start then let '(m, t) := name_tail r' in Some (c :: c2 :: c3 :: c4 :: m, t) else None
           | _ => None
           end
  end.
(** 87-90 t_LITERAL, without the quotes *)
Fixpoint until (q : chr) (s : str) : option lexeme :=
  match s with
  | [] => None
  | c :: r => if c =? q then Some ([], r)
              else match until q r with Some (m, t) => Some (c :: m, t) | None => None end
  end.
Definition m_literal (s : str) : option lexeme :=
  match s with
  | c :: r => if (c =? c_dq) || (c =? c_sq) then until c r else None
  | [] => None
  end.

(** The decimal digits of Unicode ([\d]) with their values: those of ASCII, none between U+0080 and
    U+00FF, and [wide_digit]; and float(). *)
Record lexenv := mkLx { wide_digit : chr -> option N; float_of : str -> flt }.
Definition digit (v : lexenv) (c : chr) : option N :=
  if between 48 57 c then Some (c - 48) else if c <? 256 then None else wide_digit v c.
Definition is_digit (v : lexenv) (c : chr) : bool := match digit v c with Some _ => true | None => false end.
Fixpoint m_digits (v : lexenv) (s : str) : lexeme :=
  match s with
  | c :: r => if is_digit v c then let '(m, t) := m_digits v r in (c :: m, t) else ([], s)
  | [] => ([], [])
  end.
(** int() of digits *)
Definition int_of (v : lexenv) (s : str) : N :=
  fold_left (fun z c => 10 * z + match digit v c with Some d => d | None => 0 end) s 0.
(** 92-95 t_FLOAT *)
Definition m_float (v : lexenv) (s : str) : option lexeme :=
  let '(a, t) := m_digits v s in
  match t with
  | 46 :: t' =>
      let '(b, t'') := m_digits v t' in
      if match a, b with [], [] => true | _, _ => false end then None else Some (a ++ 46 :: b, t'')
  | _ => None
  end.
(** 97-100 t_INTEGER *)
Definition m_integer (v : lexenv) (s : str) : option lexeme :=
  match m_digits v s with ([], _) => None | m => Some m end.
Fixpoint m_exactly (p s : str) : option lexeme :=
  match p, s with
  | [], _ => Some ([], s)
  | a :: p', c :: r => if a =? c then match m_exactly p' r with Some (m, t) => Some (c :: m, t) | None => None end else None
  | _, [] => None
  end.
(** The first alternative that matches. *)
Fixpoint m_first (l : list (option lexeme)) : option lexeme :=
  match l with [] => None | Some x :: _ => Some x | None :: r => m_first r end.
(** 102-104 t_NODETEXTTEST *)
Definition m_nodetext (s : str) : option lexeme := m_first [m_exactly (lit "text()") s; m_exactly (lit "node()") s].
(** 58 t_REL_OP and 57 t_EQUAL_OP *)
Definition m_rel (s : str) : option lexeme :=
  m_first [m_exactly (lit "<=") s; m_exactly (lit ">=") s; m_exactly (lit "<") s; m_exactly (lit ">") s].
Definition m_equal (s : str) : option lexeme := m_first [m_exactly (lit "!=") s; m_exactly (lit "=") s].
(** 46-63, the longest regular expression first *)
Definition string_rules : list (tk * (str -> option lexeme)) :=
  [(REL_OP, m_rel); (ABBREV_STEP_PARENT, m_exactly (lit "..")); (EQUAL_OP, m_equal);
   (ABBREV_PATH_SEP, m_exactly (lit "//")); (ABBREV_STEP_SELF, m_exactly (lit ".")); (AXIS_SEP, m_exactly (lit "::"));
   (OPEN_PAREN, m_exactly (lit "(")); (CLOSE_PAREN, m_exactly (lit ")")); (OPEN_BRACKET, m_exactly (lit "["));
   (CLOSE_BRACKET, m_exactly (lit "]")); (UNION_OP, m_exactly (lit "|")); (PLUS_OP, m_exactly (lit "+"));
   (DOLLAR, m_exactly (lit "$")); (STAR_OP, m_exactly (lit "*"));
   (PATH_SEP, m_exactly (lit "/")); (ABBREV_AXIS_AT, m_exactly (lit "@")); (MINUS_OP, m_exactly (lit "-")); (COMMA, m_exactly (lit ","))].
Fixpoint by_string (l : list (tk * (str -> option lexeme))) (s : str) : option (xtok * str) :=
  match l with
  | [] => None
  | (k, m) :: r => match m s with Some (v, t) => Some (mkX k (TStr v), t) | None => by_string r s end
  end.
(** 12-17 OPERATOR_NAMES, 80-85 t_NAME *)
Definition operator_names : list (str * tk) := [(lit "or", LOGICAL_OP); (lit "and", LOGICAL_OP); (lit "div", DIVMOD_OP); (lit "mod", DIVMOD_OP)].
Definition name_type (n : str) : tk := match dict_get operator_names n with Some k => k | None => NAME end.

(** One token. *)
Definition next_token (v : lexenv) (s : str) : option (xtok * str) :=
  match m_name s with
  | Some (n, t) => Some (mkX (name_type n) (TStr n), t)
  | None =>
  match m_literal s with
  | Some (x, t) => Some (mkX LITERAL (TStr x), t)
  | None =>
  match m_float v s with
  | Some (x, t) => Some (mkX FLOAT (TFlt (float_of v x)), t)
  | None =>
  match m_integer v s with
  | Some (x, t) => Some (mkX INTEGER (TInt (Z.of_N (int_of v x))), t)
  | None =>
  match m_nodetext s with
  | Some (x, t) => Some (mkX NODETEXTTEST (TStr x), t)
  | None => by_string string_rules s
  end end end end end.
(** 66 t_ignore *)
Definition ignored (c : chr) : bool := (c =? c_sp) || (c =? c_tab) || (c =? c_cr) || (c =? c_nl).
(** ply.lex Lexer.token, up to the end or to t_error (106-107), which raises a TypeError.  The fuel
    suffices: see XLexFacts. *)
Fixpoint lex (v : lexenv) (fuel : nat) (s : str) : input :=
  match fuel with
  | O => mkI [] false
  | S n =>
      match s with
      | [] => mkI [] false
      | c :: r =>
          if ignored c then lex v n r
          else match next_token v s with
               | Some (t, r') => let i := lex v n r' in mkI (t :: toks i) (broken i)
               | None => mkI [] true
               end
      end
  end.
Definition tokens (v : lexenv) (s : str) : input := lex v (S (length s)) s.
(** uxpath/__init__.py 63-71 parse *)
Definition parse_text (v : lexenv) (s : str) : presult := parse_tokens (tokens v s).
