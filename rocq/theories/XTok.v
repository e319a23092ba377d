(** The tokens of XGramSpec as the parser sees them: their kinds and values. *)
From Verif Require Import PyStr XPath Lalr XGram XGramSpec.

Definition word_kind (s : str) : tk :=
  if str_eqb s (lit "or") || str_eqb s (lit "and") then LOGICAL_OP
  else if str_eqb s (lit "div") || str_eqb s (lit "mod") then DIVMOD_OP
  else NAME.
Definition punct_tok (p : punct) : tk * str :=
  match p with
  | Slash => (PATH_SEP, lit "/") | Slashes => (ABBREV_PATH_SEP, lit "//") | Dot => (ABBREV_STEP_SELF, lit ".")
  | Dots => (ABBREV_STEP_PARENT, lit "..") | Colons => (AXIS_SEP, lit "::") | At => (ABBREV_AXIS_AT, lit "@")
  | LPar => (OPEN_PAREN, lit "(") | RPar => (CLOSE_PAREN, lit ")") | LBrk => (OPEN_BRACKET, lit "[") | RBrk => (CLOSE_BRACKET, lit "]")
  | Bar => (UNION_OP, lit "|") | Eq_ => (EQUAL_OP, lit "=") | Ne_ => (EQUAL_OP, lit "!=") | Lt_ => (REL_OP, lit "<")
  | Gt_ => (REL_OP, lit ">") | Le_ => (REL_OP, lit "<=") | Ge_ => (REL_OP, lit ">=") | Plus => (PLUS_OP, lit "+")
  | Minus => (MINUS_OP, lit "-") | Star => (STAR_OP, lit "*") | Comma => (COMMA, lit ",") | Dollar => (DOLLAR, lit "$")
  end.
Definition emb (t : token) : xtok :=
  match t with
  | Word s => mkX (word_kind s) (TStr s)
  | Quoted s => mkX LITERAL (TStr s)
  | Int z => mkX INTEGER (TInt z)
  | Flt f => mkX FLOAT (TFlt f)
  | P p => mkX (fst (punct_tok p)) (TStr (snd (punct_tok p)))
  end.
