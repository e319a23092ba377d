(** pylib/uxml/lex.py: the scanner, as PLY runs it.

    The character classes (lex.py 29-64) are literally those of parser.py, see CharClass.  PLY
    compiles, for the current state, one alternation of all rules: first the functions in the order
    of their lines, then the strings by decreasing length; the first that matches at the position
    wins.  Without a match the error function is called, which skips one character.  Not modelled:
    the line number of tokens, which is always 1, and the messages' wording. *)
From Verif Require Import PyStr CharClass TreeUtil.
Local Open Scope N_scope.

(** ** Line ends *)
(** [s.replace('\r\n', '\n')] *)
Fixpoint replace_crlf (s : str) : str :=
  match s with
  | c :: r =>
      match r with
      | d :: r' => if (c =? c_cr) && (d =? c_nl) then c_nl :: replace_crlf r' else c :: replace_crlf r
      | [] => [c]
      end
  | [] => []
  end.
(** lex.py 166-167 *)
Definition normalise (s : str) : str := replace_char c_cr [c_nl] (replace_crlf s).

(** ** Regular expressions: sequences of classes, classes repeated at least once, and classes
    repeated any number of times.  Matching is greedy with backtracking; the result is what
    remains after the match. *)
Inductive atom := One (f : chr -> bool) | Many (f : chr -> bool).
Fixpoint many (f : chr -> bool) (k : str -> option str) (s : str) : option str :=
  match s with
  | c :: r => if f c then match many f k r with Some x => Some x | None => k s end else k s
  | [] => k []
  end.
Fixpoint rmatch (p : list atom) (s : str) : option str :=
  match p with
  | [] => Some s
  | One f :: p => match s with c :: r => if f c then rmatch p r else None | [] => None end
  | Many f :: p => many f (rmatch p) s
  end.
Definition chars (s : string) : list atom := map (fun c => One (N.eqb c)) (lit s).
Definition plus (f : chr -> bool) : list atom := [One f; Many f].

(** lex.py 64 WS, 72 NAME_PAT *)
Definition lex_ws (c : chr) : bool := char_in c [c_tab; c_nl; c_sp].
Definition name_pat : list atom := [One is_namestart; Many is_namechar].

Inductive ttype := NAME | STARTTAG | ENDTAG | GT | EQ | COMMENT | CHARDATA | SGL_QUOTE | DBL_QUOTE
| AMP_ENT | LT_ENT | GT_ENT | APOS_ENT | QUOT_ENT | NUM_ENT.
Inductive lstate := SData | STag | SSgl | SDbl.

Definition entity_rules : list (ttype * list atom) :=
  [(QUOT_ENT, chars "&quot;"); (APOS_ENT, chars "&apos;"); (AMP_ENT, chars "&amp;"); (LT_ENT, chars "&lt;"); (GT_ENT, chars "&gt;")].
Definition num_ent : ttype * list atom := (NUM_ENT, chars "&#x" ++ plus is_hex ++ chars ";").
(** lex.py 66-143, by state.  The state INITIAL with its rule for the byte order mark is never
    entered, since the lexer is put into [SData] when it is made (163). *)
Definition rules (st : lstate) : list (ttype * list atom) :=
  match st with
  | SData =>
      [(STARTTAG, chars "<" ++ [Many lex_ws] ++ name_pat ++ [Many lex_ws]);
       (ENDTAG, chars "</" ++ [Many lex_ws] ++ name_pat ++ [Many lex_ws] ++ chars ">");
       num_ent;
       (COMMENT, chars "<!--" ++ [Many is_datachar] ++ chars "-->");
       (CHARDATA, plus is_datachar)] ++ entity_rules ++ [(GT, chars ">")]
  | STag => [(NAME, name_pat); (GT, chars ">"); (SGL_QUOTE, chars "'"); (DBL_QUOTE, [One (N.eqb c_dq)]); (EQ, chars "=")]
  | SSgl => [(SGL_QUOTE, chars "'"); (CHARDATA, plus is_attr_sgl); num_ent] ++ entity_rules
  | SDbl => [(DBL_QUOTE, [One (N.eqb c_dq)]); (CHARDATA, plus is_attr_dbl); num_ent] ++ entity_rules
  end.
Fixpoint first_match (rs : list (ttype * list atom)) (s : str) : option (ttype * str) :=
  match rs with
  | [] => None
  | (t, p) :: rs => match rmatch p s with Some r => Some (t, r) | None => first_match rs s end
  end.

(** [s.strip()] *)
Fixpoint lstrip (s : str) : str :=
  match s with
  | c :: r => if py_isspace c then lstrip r else s
  | [] => []
  end.
Definition strip (s : str) : str := rev (lstrip (rev (lstrip s))).
(** The functions: the value of the token and the state that follows. *)
Definition token_value (st : lstate) (t : ttype) (raw : str) : str :=
  match t with
  | STARTTAG => strip (skipn 1 raw)
  | ENDTAG => strip (skipn 2 (removelast raw))
  | NUM_ENT => skipn 3 (removelast raw)
  | COMMENT => skipn 4 (firstn (length raw - 3) raw)
  | _ => raw
  end.
Definition next_state (st : lstate) (t : ttype) : lstate :=
  match st, t with
  | SData, STARTTAG => STag
  | SData, ENDTAG => SData
  | STag, GT => SData
  | STag, SGL_QUOTE => SSgl
  | STag, DBL_QUOTE => SDbl
  | SSgl, SGL_QUOTE => STag
  | SDbl, DBL_QUOTE => STag
  | _, _ => st
  end.

Record tok := mkTok { t_type : ttype; t_value : str; t_pos : nat }.
(** The one lexer of the module: its state, the input from the position on, the position. *)
Record lexer := mkLex { l_state : lstate; l_rest : str; l_pos : nat }.
Definition taken (s r : str) : str := firstn (length s - length r) s.

(** lexer.token(): the characters reported as illegal, the token. *)
Fixpoint token_f (fuel : nat) (l : lexer) : list chr * option tok * lexer :=
  match fuel with
  | O => ([], None, l)
  | S fuel =>
      match l_rest l with
      | [] => ([], None, l)
      | c :: r =>
          match first_match (rules (l_state l)) (l_rest l) with
          | Some (t, rest) =>
              let raw := taken (l_rest l) rest in
              ([], Some (mkTok t (token_value (l_state l) t raw) (l_pos l)), mkLex (next_state (l_state l) t) rest (l_pos l + length raw))
          | None => let '(bad, t, l') := token_f fuel (mkLex (l_state l) r (S (l_pos l))) in (c :: bad, t, l')
          end
      end
  end.
Definition token (l : lexer) : list chr * option tok * lexer := token_f (S (length (l_rest l))) l.

(** ** lex.py 165-173 run, a generator *)
Inductive gen := GNew (s : str) | GOn | GEnd.
(** lexer.input(s): the state stays. *)
Definition input (l : lexer) (s : str) : lexer := mkLex (l_state l) s 0.
Definition gresume (l : lexer) : list chr * option tok * gen * lexer :=
  let '(bad, t, l') := token l in (bad, t, match t with Some _ => GOn | None => GEnd end, l').
Definition gnext (g : gen) (l : lexer) : list chr * option tok * gen * lexer :=
  match g with
  | GNew s => gresume (input l (normalise s))
  | GOn => gresume l
  | GEnd => ([], None, GEnd, l)
  end.

(** What comes out, in order: tokens, and on stderr illegal characters. *)
Inductive item := Tok (t : tok) | Bad (c : chr).
Fixpoint drain (fuel : nat) (g : gen) (l : lexer) : list item * lexer :=
  match fuel with
  | O => ([], l)
  | S fuel =>
      match gnext g l with
      | (bad, Some t, g', l') => let '(ts, l'') := drain fuel g' l' in (map Bad bad ++ Tok t :: ts, l'')
      | (bad, None, _, l') => (map Bad bad, l')
      end
  end.
(** [list(run(s))] *)
Definition run (l : lexer) (s : str) : list item * lexer := drain (S (length (normalise s))) (GNew s) l.
(** lex.py 162-163 *)
Definition fresh : lexer := mkLex SData [] 0.
