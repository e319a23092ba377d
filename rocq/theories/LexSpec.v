(** What the scanner is to do. *)
From Verif Require Import PyStr CharClass XTree Grammar Lex.
Local Open Scope N_scope.

(** ** Line ends *)
Inductive lines : str -> str -> Prop :=
| ln_nil : lines [] []
| ln_crlf s t : lines s t -> lines (c_cr :: c_nl :: s) (c_nl :: t)
| ln_cr s t : (forall r, s <> c_nl :: r) -> lines s t -> lines (c_cr :: s) (c_nl :: t)
| ln_other c s t : c <> c_cr -> lines s t -> lines (c :: s) (c :: t).

(** ** Tokens *)
Definition wsp (s : str) : Prop := Forall (fun c => In c (lit " " ++ [c_tab; c_nl])) s.
(** [u] without U+1680, a name character that counts as white space, at its ends *)
Definition ogham : chr := 0x1680.
Definition trimmed (u v : str) : Prop := exists a b, u = a ++ v ++ b /\ Forall (eq ogham) (a ++ b) /\
  (forall r, v <> ogham :: r) /\ (forall r, v <> r ++ [ogham]).
(** All of [s] is of the class and the class goes no further. *)
Definition run_of (f : chr -> bool) (s rest : str) : Prop := s <> [] /\ (forall c, In c s -> f c = true) /\ ~ head_is f rest.
Definition entity (t : ttype) (s : str) (c : chr) : Prop :=
  In (t, (s, c)) [(AMP_ENT, (lit "&amp;", c_amp)); (LT_ENT, (lit "&lt;", c_lt)); (GT_ENT, (lit "&gt;", c_gt));
    (APOS_ENT, (lit "&apos;", c_sq)); (QUOT_ENT, (lit "&quot;", c_dq))].

(** [lexeme st t v raw rest st']: in state [st], in front of [rest], the text [raw] is a token
    of type [t] and value [v], and state [st'] follows. *)
Inductive lexeme : lstate -> ttype -> str -> str -> str -> lstate -> Prop :=
| lx_start w1 n v w2 rest : wsp w1 -> name n -> trimmed n v -> wsp w2 -> ~ head_is is_namechar (w2 ++ rest) -> ~ head_is lex_ws rest ->
    lexeme SData STARTTAG v (lit "<" ++ w1 ++ n ++ w2) rest STag
| lx_end w1 n v w2 rest : wsp w1 -> name n -> trimmed n v -> wsp w2 -> lexeme SData ENDTAG v (lit "</" ++ w1 ++ n ++ w2 ++ lit ">") rest SData
| lx_comment s rest : (forall c, In c s -> is_datachar c = true) -> lexeme SData COMMENT s (lit "<!--" ++ s ++ lit "-->") rest SData
| lx_data s rest : run_of is_datachar s rest -> lexeme SData CHARDATA s s rest SData
| lx_gt rest : lexeme SData GT (lit ">") (lit ">") rest SData
| lx_sgl s rest : run_of is_attr_sgl s rest -> lexeme SSgl CHARDATA s s rest SSgl
| lx_dbl s rest : run_of is_attr_dbl s rest -> lexeme SDbl CHARDATA s s rest SDbl
| lx_num st ds rest : st <> STag -> ds <> [] -> (forall d, In d ds -> is_hex d = true) -> lexeme st NUM_ENT ds (lit "&#x" ++ ds ++ lit ";") rest st
| lx_ent st t s c rest : st <> STag -> entity t s c -> lexeme st t s s rest st
| lx_name n rest : name n -> ~ head_is is_namechar rest -> lexeme STag NAME n n rest STag
| lx_eq rest : lexeme STag EQ (lit "=") (lit "=") rest STag
| lx_close rest : lexeme STag GT (lit ">") (lit ">") rest SData
| lx_open_sgl rest : lexeme STag SGL_QUOTE (lit "'") (lit "'") rest SSgl
| lx_open_dbl rest : lexeme STag DBL_QUOTE [c_dq] [c_dq] rest SDbl
| lx_close_sgl rest : lexeme SSgl SGL_QUOTE (lit "'") (lit "'") rest STag
| lx_close_dbl rest : lexeme SDbl DBL_QUOTE [c_dq] [c_dq] rest STag.

(** The whole text: tokens where there is one, otherwise one illegal character. *)
Inductive scans : lstate -> nat -> str -> list item -> lstate -> Prop :=
| sc_end st p : scans st p [] [] st
| sc_tok st t v raw rest st1 p out st2 : lexeme st t v raw rest st1 -> scans st1 (p + length raw) rest out st2 ->
    scans st p (raw ++ rest) (Tok (mkTok t v p) :: out) st2
| sc_bad st c r p out st2 : (forall t v raw rest st1, c :: r = raw ++ rest -> ~ lexeme st t v raw rest st1) -> scans st (S p) r out st2 ->
    scans st p (c :: r) (Bad c :: out) st2.

(** ** Reading documents off the tokens *)
Definition tokens (l : list item) : list (ttype * str) := flat_map (fun i => match i with Tok t => [(t_type t, t_value t)] | Bad _ => [] end) l.
Definition illegal (l : list item) : str := flat_map (fun i => match i with Tok _ => [] | Bad c => [c] end) l.

Inductive text_of : list (ttype * str) -> str -> Prop :=
| to_nil : text_of [] []
| to_data s l v : text_of l v -> text_of ((CHARDATA, s) :: l) (s ++ v)
| to_ent t s c l v : entity t s c -> text_of l v -> text_of ((t, s) :: l) (c :: v)
| to_num ds l v : text_of l v -> text_of ((NUM_ENT, ds) :: l) (hex_number ds :: v).
Definition quote_of (t : ttype) (s : str) : Prop := (t = SGL_QUOTE /\ s = [c_sq]) \/ (t = DBL_QUOTE /\ s = [c_dq]).
Inductive attrs_of : list (ttype * str) -> dict str -> Prop :=
| ao_nil : attrs_of [] []
| ao_cons n q s l v r d : quote_of q s -> text_of l v -> attrs_of r d ->
    attrs_of ((NAME, n) :: (EQ, lit "=") :: (q, s) :: l ++ (q, s) :: r) ((n, v) :: d).
Inductive elem_of : list (ttype * str) -> xtree -> Prop :=
| eo n a d l ks : attrs_of a d -> content_of l ks -> elem_of ((STARTTAG, n) :: a ++ (GT, lit ">") :: l ++ [(ENDTAG, n)]) (XE n d ks)
with content_of : list (ttype * str) -> list xtree -> Prop :=
| co_last l v : text_of l v -> content_of l (text_node v)
| co_elem l v e t r ks : text_of l v -> elem_of e t -> content_of r ks -> content_of (l ++ e ++ r) (text_node v ++ t :: ks).
(** White space between documents is one token. *)
Definition blank_token (w : str) : list (ttype * str) := match w with [] => [] | _ => [(CHARDATA, w)] end.

(** Two generators over the one lexer, resumed as the schedule says (true: the second). *)
Definition out_items (bad : list chr) (t : option tok) : list item := map Bad bad ++ match t with Some t => [Tok t] | None => [] end.
Fixpoint play (sch : list bool) (g1 g2 : gen) (l : lexer) : list (bool * item) :=
  match sch with
  | [] => []
  | b :: sch =>
      let '(bad, t, g, l') := gnext (if b then g2 else g1) l in
      map (pair b) (out_items bad t) ++ play sch (if b then g1 else g) (if b then g else g2) l'
  end.
