(** How MicroXPath expressions are read: a grammar in which every sequence of tokens has at most
    one reading.  It mentions neither tables nor the productions of parserules.py. *)
From Verif Require Import PyStr XPath.

Inductive punct := Slash | Slashes | Dot | Dots | Colons | At | LPar | RPar | LBrk | RBrk | Bar | Eq_ | Ne_ | Lt_ | Gt_ | Le_ | Ge_
| Plus | Minus | Star | Comma | Dollar.
Inductive token := Word (s : str) | Quoted (s : str) | Int (z : Z) | Flt (f : flt) | P (p : punct).

(** A token as a binary operator. *)
Definition operator (t : token) : option binop :=
  match t with
  | P Eq_ => Some OpEq | P Ne_ => Some OpNe | P Lt_ => Some OpLt | P Gt_ => Some OpGt | P Le_ => Some OpLe | P Ge_ => Some OpGe
  | P Plus => Some (OpOther (lit "+")) | P Minus => Some (OpOther (lit "-")) | P Bar => Some OpUnion
  | Word s => if str_eqb s (lit "or") then Some OpOr else if str_eqb s (lit "and") then Some OpAnd
              else if str_eqb s (lit "div") || str_eqb s (lit "mod") then Some (OpOther s) else None
  | _ => None
  end.
(** How tight it binds. *)
Definition strength (op : binop) : nat :=
  match op with
  | OpOr | OpAnd => 1
  | OpEq | OpNe => 2
  | OpLt | OpGt | OpLe | OpGe => 3
  | OpOther s => if str_eqb s (lit "+") || str_eqb s (lit "-") then 4 else 5
  | OpUnion => 7
  | OpPath | OpDeep => 8
  end.
Definition minus_strength : nat := 6.

(** [a op ...]: the operator goes to the right end of [a] instead. *)
Fixpoint absorbs (a : expr) (op : binop) : bool :=
  match a with
  | ENeg e => Nat.ltb minus_strength (strength op) || absorbs e op
  | EBin _ o r => Nat.ltb (strength o) (strength op) || absorbs r op
  | EAbs false None => match op with OpOr | OpAnd => true | OpOther s => negb (str_eqb s (lit "+") || str_eqb s (lit "-")) | _ => false end
  | _ => false
  end.
(** [a / ...]: the step continues the path at the right end of [a]. *)
Fixpoint ends_in_path (a : expr) : bool :=
  match a with
  | EStep _ _ | EAbbrev _ | EAbs _ (Some _) => true
  | EBin _ OpPath _ | EBin _ OpDeep _ => true
  | ENeg e => ends_in_path e
  | EBin _ _ r => ends_in_path r
  | _ => false
  end.
Definition is_predicated (a : expr) : bool := match a with EPred _ _ => true | _ => false end.

Definition sep (deep : bool) : token := P (if deep then Slashes else Slash).
Definition sep_op (deep : bool) : binop := if deep then OpDeep else OpPath.

(** The word before [::]. *)
Definition axis_word (ax : axis) : str :=
  match ax with
  | AxAncestor => lit "ancestor" | AxAncestorOrSelf => lit "ancestor-or-self" | AxAttribute => lit "attribute" | AxChild => lit "child"
  | AxDescendant => lit "descendant" | AxDescendantOrSelf => lit "descendant-or-self" | AxFollowing => lit "following"
  | AxFollowingSibling => lit "following-sibling" | AxParent => lit "parent" | AxPreceding => lit "preceding"
  | AxPrecedingSibling => lit "preceding-sibling" | AxSelf => lit "self"
  end.

(** [reads m ts e]: [ts] is read as [e], as the right operand of an operator of strength [m], or,
    with [m = 0], as a whole expression. *)
Inductive reads : nat -> list token -> expr -> Prop :=
| R_str m s : reads m [Quoted s] (ELit (LStr s))
| R_int m z : reads m [Int z] (ELit (LInt z))
| R_flt m f : reads m [Flt f] (ELit (LFlt f))
| R_var m s : reads m [P Dollar; Word s] (EVar s)
| R_call m f ts args : f <> lit "node" -> f <> lit "text" -> arguments ts args -> reads m (Word f :: ts) (ECall f args)
| R_type m ts t : node_type ts t -> reads m ts (ETest t)
| R_seq m ts es : arguments ts es -> reads m ts (ESeq es)
| R_path m ts p : path false ts p -> reads m ts p
| R_root m : reads m [P Slash] (EAbs false None)
| R_abs m d ts p : path true ts p -> reads m (sep d :: ts) (EAbs d (Some p))
| R_neg m ts e : reads minus_strength ts e -> reads m (P Minus :: ts) (ENeg e)
| R_bin m l o op r a b : operator o = Some op -> m < strength op -> reads m l a -> absorbs a op = false -> reads (strength op) r b ->
    reads m (l ++ o :: r) (EBin a op b)
| R_pred l ps a es : reads 0 l a -> is_predicated a = false -> predicates ps es -> reads 0 (l ++ ps) (EPred a es)
| R_step l d ts a p : reads 0 l a -> ends_in_path a = false -> path true ts p -> reads 0 (l ++ sep d :: ts) (EBin a (sep_op d) p)
(** in parentheses *)
with arguments : list token -> list expr -> Prop :=
| A_none : arguments [P LPar; P RPar] []
| A_some ts es : listed ts es -> arguments (P LPar :: ts ++ [P RPar]) es
with listed : list token -> list expr -> Prop :=
| L_one ts e : reads 0 ts e -> listed ts [e]
| L_more ts e ts' es : reads 0 ts e -> listed ts' es -> listed (ts ++ P Comma :: ts') (e :: es)
with predicates : list token -> list expr -> Prop :=
| Ps_one ts e : reads 0 ts e -> predicates (P LBrk :: ts ++ [P RBrk]) [e]
| Ps_more ts e ts' es : reads 0 ts e -> predicates ts' es -> predicates (P LBrk :: ts ++ P RBrk :: ts') (e :: es)
(** [node()] and [text()]; what is between the parentheses does not matter. *)
with node_type : list token -> ntest -> Prop :=
| N_node ts es : arguments ts es -> node_type (Word (lit "node") :: ts) TNode
| N_text ts es : arguments ts es -> node_type (Word (lit "text") :: ts) TText
with node_test : list token -> ntest -> Prop :=
| T_name s : node_test [Word s] (TName s)
| T_star : node_test [P Star] TStar
| T_type ts t : node_type ts t -> node_test ts t
(** A step; [f]: it may be node() or text() without axis. *)
with one_step : bool -> list token -> expr -> Prop :=
| S_self f : one_step f [P Dot] (EAbbrev false)
| S_up f : one_step f [P Dots] (EAbbrev true)
| S_name f s : one_step f [Word s] (EStep AxChild (TName s))
| S_star f : one_step f [P Star] (EStep AxChild TStar)
| S_type ts t : node_type ts t -> one_step true ts (EStep AxChild t)
| S_attr f ts t : node_test ts t -> one_step f (P At :: ts) (EStep AxAttribute t)
| S_axis f ax ts t : node_test ts t -> one_step f (Word (axis_word ax) :: P Colons :: ts) (EStep ax t)
with path : bool -> list token -> expr -> Prop :=
| P_step f ts e : one_step f ts e -> path f ts e
| P_more f ts e d ts' e' : path f ts e -> one_step true ts' e' -> path f (ts ++ sep d :: ts') (EBin e (sep_op d) e').
