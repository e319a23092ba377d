(** What a command line of microx asks for. *)
From Verif Require Import PyStr XTree XPath XGram XGramSpec XLex XLexSpec XQuery XQueryFacts Microx MicroxMain.

(** An option that is not given, or given as the empty string. *)
Definition absent (o : option str) : Prop := o = None \/ o = Some [].
(** The pieces of a text between commas *)
Inductive comma_pieces : str -> list str -> Prop :=
| cp_last s : ~ In 44%N s -> comma_pieces s [s]
| cp_more s t l : ~ In 44%N s -> comma_pieces t l -> comma_pieces (s ++ 44%N :: t) (s :: l).
Definition shows (a : options) (l : list str) : Prop :=
  (absent (o_show_attrs a) /\ l = []) \/ (exists c s, o_show_attrs a = Some (c :: s) /\ comma_pieces (c :: s) l).
Definition inner (v : lexenv) (a : options) (fe : option expr) : Prop :=
  (absent (o_foreach a) /\ fe = None) \/ (exists s e, s <> [] /\ o_foreach a = Some s /\ expression v s e /\ fe = Some e).
(** One command with the inner expression *)
Inductive asks (v : lexenv) (a : options) : command -> option expr -> Prop :=
| as_expr s e fe : s <> [] -> o_expr a = Some s -> absent (o_match a) -> absent (o_find_text a) -> expression v s e -> inner v a fe -> asks v a (CmdExpr e) fe
| as_match s e fe : s <> [] -> o_match a = Some s -> absent (o_expr a) -> absent (o_find_text a) -> expression v s e -> inner v a fe -> asks v a (CmdMatch e) fe
| as_find s fe : s <> [] -> o_find_text a = Some s -> absent (o_expr a) -> absent (o_match a) -> inner v a fe -> asks v a (CmdFind s) fe.
(** How many commands are given. *)
Definition given (o : option str) : nat := match o with Some (_ :: _) => 1 | _ => 0 end.
Definition how_many (a : options) : nat := given (o_expr a) + given (o_match a) + given (o_find_text a).
(** One command and nothing that changes which documents it is done on; --limit and --show-attrs may be there. *)
Definition only_expr (a : options) (s : str) : Prop := o_expr a = Some s /\ absent (o_match a) /\ absent (o_find_text a) /\ absent (o_foreach a) /\ absent (o_partition a).
Definition only_match (a : options) (s : str) : Prop := o_match a = Some s /\ absent (o_expr a) /\ absent (o_find_text a) /\ absent (o_foreach a) /\ absent (o_partition a).
Definition only_find (a : options) (s : str) : Prop := o_find_text a = Some s /\ absent (o_expr a) /\ absent (o_match a) /\ absent (o_foreach a) /\ absent (o_partition a).
