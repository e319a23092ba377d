(** uxpath/parserules.py: the grammar of MicroXPath with its actions, and the parser that PLY
    makes of it (uxpath/__init__.py 60). *)
From Verif Require Import PyStr XPath Lalr.

(** lexrules.py 20-45: the kinds of tokens; 0 is the end of the text, which PLY calls $end. *)
Inductive tk := END | PATH_SEP | ABBREV_PATH_SEP | ABBREV_STEP_SELF | ABBREV_STEP_PARENT | AXIS_SEP | ABBREV_AXIS_AT
| OPEN_PAREN | CLOSE_PAREN | OPEN_BRACKET | CLOSE_BRACKET | UNION_OP | EQUAL_OP | REL_OP | PLUS_OP | MINUS_OP
| MULT_OP | STAR_OP | COMMA | LITERAL | FLOAT | INTEGER | NODETEXTTEST | NAME | DOLLAR | LOGICAL_OP | DIVMOD_OP.
Definition tks : list tk :=
  [END; PATH_SEP; ABBREV_PATH_SEP; ABBREV_STEP_SELF; ABBREV_STEP_PARENT; AXIS_SEP; ABBREV_AXIS_AT;
   OPEN_PAREN; CLOSE_PAREN; OPEN_BRACKET; CLOSE_BRACKET; UNION_OP; EQUAL_OP; REL_OP; PLUS_OP; MINUS_OP;
   MULT_OP; STAR_OP; COMMA; LITERAL; FLOAT; INTEGER; NODETEXTTEST; NAME; DOLLAR; LOGICAL_OP; DIVMOD_OP].
Definition tk_ix (t : tk) : nat :=
  match t with
  | END => 0 | PATH_SEP => 1 | ABBREV_PATH_SEP => 2 | ABBREV_STEP_SELF => 3 | ABBREV_STEP_PARENT => 4 | AXIS_SEP => 5
  | ABBREV_AXIS_AT => 6 | OPEN_PAREN => 7 | CLOSE_PAREN => 8 | OPEN_BRACKET => 9 | CLOSE_BRACKET => 10 | UNION_OP => 11
  | EQUAL_OP => 12 | REL_OP => 13 | PLUS_OP => 14 | MINUS_OP => 15 | MULT_OP => 16 | STAR_OP => 17 | COMMA => 18
  | LITERAL => 19 | FLOAT => 20 | INTEGER => 21 | NODETEXTTEST => 22 | NAME => 23 | DOLLAR => 24 | LOGICAL_OP => 25
  | DIVMOD_OP => 26
  end.
Inductive nt := Start | Expr | ExprList | AbsoluteLocationPath | AbbreviatedAbsoluteLocationPath | RelativeLocationPath | Step
| AxisSpecifier | NodeTest | NameTest | PredicatedExpression | PredicateList | Predicate | VariableReference | Number
| FunctionCall | FormalArguments | ArgumentList.
Definition nt_ix (n : nt) : nat :=
  match n with
  | Start => 0 | Expr => 1 | ExprList => 2 | AbsoluteLocationPath => 3 | AbbreviatedAbsoluteLocationPath => 4
  | RelativeLocationPath => 5 | Step => 6 | AxisSpecifier => 7 | NodeTest => 8 | NameTest => 9 | PredicatedExpression => 10
  | PredicateList => 11 | Predicate => 12 | VariableReference => 13 | Number => 14 | FunctionCall => 15
  | FormalArguments => 16 | ArgumentList => 17
  end.

(** 11-19 precedence *)
Definition level (t : tk) : nat :=
  match t with
  | LOGICAL_OP => 1 | EQUAL_OP => 2 | REL_OP => 3 | PLUS_OP | MINUS_OP => 4 | MULT_OP | DIVMOD_OP => 5
  | UNION_OP => 7
  | _ => 0
  end.
Definition level_uminus : nat := 6.

(** ** Values: of tokens, and of nonterminals *)
Inductive tval := TStr (s : str) | TInt (z : Z) | TFlt (f : flt).
Inductive sval := VTok (v : tval) | VE (e : expr) | VEs (l : list expr) | VAxis (a : axis) | VTest (t : ntest).

(** The operators that binary_expression knows (xast.py 257-330). *)
Definition binops : list (str * binop) :=
  [(lit "/", OpPath); (lit "//", OpDeep); (lit "|", OpUnion); (lit "=", OpEq); (lit "!=", OpNe); (lit ">", OpGt); (lit "<", OpLt);
   (lit ">=", OpGe); (lit "<=", OpLe); (lit "or", OpOr); (lit "and", OpAnd)].
Definition binop_of (s : str) : binop := match dict_get binops s with Some op => op | None => OpOther s end.
(** 175 *)
Definition axes : list (str * axis) :=
  map (fun a => (axis_name a, a))
    [AxSelf; AxAttribute; AxAncestor; AxAncestorOrSelf; AxChild; AxDescendant; AxDescendantOrSelf; AxFollowing; AxFollowingSibling;
     AxParent; AxPreceding; AxPrecedingSibling].

(** ** Actions: [None] is a RuntimeError.  (Values of another shape do not occur.) *)
Definition a_binary (l : list sval) : option sval :=
  match l with [VE x; VTok (TStr op); VE y] => Some (VE (EBin x (binop_of op) y)) | _ => None end.
Definition a_unary (l : list sval) : option sval := match l with [_; VE x] => Some (VE (ENeg x)) | _ => None end.
Definition a_same (l : list sval) : option sval := match l with [v] => Some v | _ => None end.
Definition a_second (l : list sval) : option sval := match l with _ :: v :: _ => Some v | _ => None end.
Definition a_seq0 (l : list sval) : option sval := Some (VE (ESeq [])).
Definition a_seq (l : list sval) : option sval := match l with [_; VEs es; _] => Some (VE (ESeq es)) | _ => None end.
Definition a_single (l : list sval) : option sval := match l with [VE x] => Some (VEs [x]) | _ => None end.
Definition a_snoc (l : list sval) : option sval :=
  match l with [VEs es; _; VE x] | [VEs es; VE x] => Some (VEs (es ++ [x])) | _ => None end.
Definition a_literal (l : list sval) : option sval :=
  match l with
  | [VTok (TStr s)] => Some (VE (ELit (LStr s)))
  | [VTok (TInt z)] => Some (VE (ELit (LInt z)))
  | [VTok (TFlt f)] => Some (VE (ELit (LFlt f)))
  | _ => None
  end.
Definition a_absolute (l : list sval) : option sval :=
  match l with
  | [VTok (TStr op)] => Some (VE (EAbs (str_eqb op (lit "//")) None))
  | [VTok (TStr op); VE r] => Some (VE (EAbs (str_eqb op (lit "//")) (Some r)))
  | _ => None
  end.
Definition a_step (l : list sval) : option sval :=
  match l with
  | [VAxis a; VTest t] => Some (VE (EStep a t))
  | [VTest t] => Some (VE (EStep AxChild t))
  | _ => None
  end.
Definition a_abbrev (l : list sval) : option sval :=
  match l with [VTok (TStr s)] => Some (VE (EAbbrev (str_eqb s (lit "..")))) | _ => None end.
Definition a_axis (l : list sval) : option sval :=
  match l with [VTok (TStr s); _] => option_map VAxis (dict_get axes s) | _ => None end.
Definition a_attribute (l : list sval) : option sval := Some (VAxis AxAttribute).
Definition a_nodetest (l : list sval) : option sval :=
  match l with [VE (ETest t)] => Some (VTest t) | _ => None end.
Definition a_star (l : list sval) : option sval := Some (VTest TStar).
Definition a_name (l : list sval) : option sval := match l with [VTok (TStr s)] => Some (VTest (TName s)) | _ => None end.
Definition a_pred (l : list sval) : option sval := match l with [VE x; VEs ps] => Some (VE (EPred x ps)) | _ => None end.
Definition a_var (l : list sval) : option sval := match l with [_; VTok (TStr s)] => Some (VE (EVar s)) | _ => None end.
Definition a_call (l : list sval) : option sval :=
  match l with
  | [VTok (TStr f); VEs args] =>
      Some (VE (if str_eqb f (lit "node") then ETest TNode else if str_eqb f (lit "text") then ETest TText else ECall f args))
  | _ => None
  end.
Definition a_none (l : list sval) : option sval := Some (VEs []).

(** ** The productions, with the lines of parserules.py *)
Definition t_ (t : tk) : sym := T (tk_ix t).
Definition v_ (n : nt) : sym := V (nt_ix n).
(** ply Grammar.add_production: without %prec, the rightmost terminal decides. *)
Fixpoint last_level (l : list tk) : nat := match l with [] => 0 | [t] => level t | _ :: r => last_level r end.
Definition rule (n : nt) (rhs : list sym) (terminals : list tk) (a : list sval -> option sval) : production * (list sval -> option sval) :=
  let l := last_level terminals in
  (mkP (nt_ix n) rhs (if Nat.eqb l 0 then ARight else ALeft, l), a).
Definition rules : list (production * (list sval -> option sval)) :=
  [ rule Start [v_ Expr] [] a_same;
    rule Expr [v_ Expr; t_ LOGICAL_OP; v_ Expr] [LOGICAL_OP] a_binary;             (* 27 *)
    rule Expr [v_ Expr; t_ EQUAL_OP; v_ Expr] [EQUAL_OP] a_binary;
    rule Expr [v_ Expr; t_ REL_OP; v_ Expr] [REL_OP] a_binary;
    rule Expr [v_ Expr; t_ PLUS_OP; v_ Expr] [PLUS_OP] a_binary;
    rule Expr [v_ Expr; t_ MINUS_OP; v_ Expr] [MINUS_OP] a_binary;
    rule Expr [v_ Expr; t_ MULT_OP; v_ Expr] [MULT_OP] a_binary;
    rule Expr [v_ Expr; t_ DIVMOD_OP; v_ Expr] [DIVMOD_OP] a_binary;
    (mkP (nt_ix Expr) [t_ MINUS_OP; v_ Expr] (ARight, level_uminus), a_unary);      (* 39 *)
    rule Expr [t_ OPEN_PAREN; t_ CLOSE_PAREN] [OPEN_PAREN; CLOSE_PAREN] a_seq0;    (* 49 *)
    rule Expr [t_ OPEN_PAREN; v_ ExprList; t_ CLOSE_PAREN] [OPEN_PAREN; CLOSE_PAREN] a_seq;  (* 55 *)
    rule ExprList [v_ Expr] [] a_single;                                           (* 61 *)
    rule ExprList [v_ ExprList; t_ COMMA; v_ Expr] [COMMA] a_snoc;                 (* 67 *)
    rule Expr [v_ Expr; t_ UNION_OP; v_ Expr] [UNION_OP] a_binary;                 (* 78 *)
    rule Expr [v_ Expr; t_ PATH_SEP; v_ RelativeLocationPath] [PATH_SEP] a_binary; (* 84 *)
    rule Expr [v_ Expr; t_ ABBREV_PATH_SEP; v_ RelativeLocationPath] [ABBREV_PATH_SEP] a_binary;
    rule Expr [v_ RelativeLocationPath] [] a_same;                                 (* 91 *)
    rule Expr [v_ AbsoluteLocationPath] [] a_same;
    rule Expr [v_ AbbreviatedAbsoluteLocationPath] [] a_same;
    rule Expr [v_ PredicatedExpression] [] a_same;
    rule Expr [v_ FunctionCall] [] a_same;
    rule Expr [v_ VariableReference] [] a_same;
    rule Expr [t_ LITERAL] [LITERAL] a_literal;                                    (* 102 *)
    rule Expr [v_ Number] [] a_literal;
    rule AbsoluteLocationPath [t_ PATH_SEP] [PATH_SEP] a_absolute;                 (* 113 *)
    rule AbsoluteLocationPath [t_ PATH_SEP; v_ RelativeLocationPath] [PATH_SEP] a_absolute;  (* 119 *)
    rule AbbreviatedAbsoluteLocationPath [t_ ABBREV_PATH_SEP; v_ RelativeLocationPath] [ABBREV_PATH_SEP] a_absolute;  (* 125 *)
    rule RelativeLocationPath [v_ Step] [] a_same;                                 (* 131 *)
    rule RelativeLocationPath [v_ RelativeLocationPath; t_ PATH_SEP; v_ Step] [PATH_SEP] a_binary;  (* 137 *)
    rule RelativeLocationPath [v_ RelativeLocationPath; t_ ABBREV_PATH_SEP; v_ Step] [ABBREV_PATH_SEP] a_binary;
    rule Step [v_ AxisSpecifier; v_ NodeTest] [] a_step;                           (* 148 *)
    rule Step [v_ NodeTest] [] a_step;                                             (* 154 *)
    rule Step [t_ ABBREV_STEP_SELF] [ABBREV_STEP_SELF] a_abbrev;                   (* 161 *)
    rule Step [t_ ABBREV_STEP_PARENT] [ABBREV_STEP_PARENT] a_abbrev;
    rule AxisSpecifier [t_ NAME; t_ AXIS_SEP] [NAME; AXIS_SEP] a_axis;             (* 172 *)
    rule AxisSpecifier [t_ ABBREV_AXIS_AT] [ABBREV_AXIS_AT] a_attribute;           (* 181 *)
    rule NodeTest [v_ NameTest] [] a_same;                                         (* 191 *)
    rule NodeTest [v_ FunctionCall] [] a_nodetest;                                 (* 198 *)
    rule NameTest [t_ STAR_OP] [STAR_OP] a_star;                                   (* 211 *)
    rule NameTest [t_ NAME] [NAME] a_name;                                         (* 219 *)
    rule NameTest [t_ LOGICAL_OP] [LOGICAL_OP] a_name;
    rule NameTest [t_ DIVMOD_OP] [DIVMOD_OP] a_name;
    rule PredicatedExpression [v_ Expr; v_ PredicateList] [] a_pred;               (* 231 *)
    rule PredicateList [v_ Predicate] [] a_single;                                 (* 241 *)
    rule PredicateList [v_ PredicateList; v_ Predicate] [] a_snoc;                 (* 247 *)
    rule Predicate [t_ OPEN_BRACKET; v_ Expr; t_ CLOSE_BRACKET] [OPEN_BRACKET; CLOSE_BRACKET] a_second;  (* 254 *)
    rule VariableReference [t_ DOLLAR; t_ NAME] [DOLLAR; NAME] a_var;              (* 264 *)
    rule VariableReference [t_ DOLLAR; t_ LOGICAL_OP] [DOLLAR; LOGICAL_OP] a_var;
    rule VariableReference [t_ DOLLAR; t_ DIVMOD_OP] [DOLLAR; DIVMOD_OP] a_var;
    rule Number [t_ FLOAT] [FLOAT] a_same;                                         (* 276 *)
    rule Number [t_ INTEGER] [INTEGER] a_same;
    rule FunctionCall [t_ NAME; v_ FormalArguments] [NAME] a_call;                 (* 287 *)
    rule FunctionCall [t_ LOGICAL_OP; v_ FormalArguments] [LOGICAL_OP] a_call;
    rule FunctionCall [t_ DIVMOD_OP; v_ FormalArguments] [DIVMOD_OP] a_call;
    rule FormalArguments [t_ OPEN_PAREN; t_ CLOSE_PAREN] [OPEN_PAREN; CLOSE_PAREN] a_none;  (* 299 *)
    rule FormalArguments [t_ OPEN_PAREN; v_ ArgumentList; t_ CLOSE_PAREN] [OPEN_PAREN; CLOSE_PAREN] a_second;  (* 305 *)
    rule ArgumentList [v_ Expr] [] a_single;                                       (* 311 *)
    rule ArgumentList [v_ ArgumentList; t_ COMMA; v_ Expr] [COMMA] a_snoc ].       (* 317 *)

(** The tables of [yacc.yacc(module=parserules)]. *)
Definition tprec (n : nat) : assoc * nat := let l := level (nth n tks END) in (if Nat.eqb l 0 then ARight else ALeft, l).
Definition table : list (list (nat * act) * list (nat * nat)) := Eval vm_compute in tables (map fst rules) tprec (length tks).
Definition action (s : nat) (t : tk) : option act := match nth_error table s with Some (acts, _) => aget acts (tk_ix t) | None => None end.
Definition goto (s : nat) (n : nat) : nat :=
  match nth_error table s with
  | Some (_, gs) => match find (fun x => Nat.eqb (fst x) n) gs with Some (_, s') => s' | None => 0 end
  | None => 0
  end.

(** ** ply.yacc LRParser.parse *)
Record xtok := mkX { kind : tk; value : tval }.
(** The tokens the lexer delivers, and whether it raises a TypeError after them. *)
Record input := mkI { toks : list xtok; broken : bool }.
Notation stack := (list (nat * sval)) (only parsing).
Definition top (s : stack) : nat := match s with (n, _) :: _ => n | [] => 0 end.
Inductive presult := POk (e : expr) | PExn (e : xexn) | PFuel.
Inductive pstep := Go (s : stack) (i : input) | Stop (r : presult).
Definition lookahead (i : input) : option tk :=
  match toks i with
  | t :: _ => Some (kind t)
  | [] => if broken i then None else Some END
  end.
Definition pstep_of (s : stack) (i : input) : pstep :=
  match lookahead i with
  | None => Stop (PExn TypeErr)                          (* lexrules.py 106-107 *)
  | Some a =>
      match action (top s) a with
      | None => Stop (PExn RuntimeErr)                   (* 326-330 p_error *)
      | Some Accept => match s with (_, VE e) :: _ => Stop (POk e) | _ => Stop (PExn RuntimeErr) end
      | Some (Shift n) => match toks i with
                          | t :: r => Go ((n, VTok (value t)) :: s) (mkI r (broken i))
                          | [] => Stop (PExn RuntimeErr)
                          end
      | Some (Reduce p) =>
          match nth_error rules p with
          | None => Stop (PExn RuntimeErr)
          | Some (pr, a) =>
              let n := length (p_rhs pr) in
              match a (rev (map snd (firstn n s))) with
              | None => Stop (PExn RuntimeErr)
              | Some v => let s' := skipn n s in Go ((goto (top s') (p_lhs pr), v) :: s') i
              end
          end
      end
  end.
Fixpoint prun (fuel : nat) (s : stack) (i : input) : presult :=
  match fuel with
  | O => PFuel
  | S n => match pstep_of s i with Stop r => r | Go s' i' => prun n s' i' end
  end.
(** XText shows that the fuel suffices: [PFuel] is never the result. *)
Definition parse_tokens (i : input) : presult := prun (20 * length (toks i) + 20) [] i.
