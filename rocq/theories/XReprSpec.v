(** What is to be read off repr() of a parsed expression. *)
From Verif Require Import PyStr XPath XLex XSerial.

(** The class of an expression. *)
Definition kind (e : expr) : str :=
  match e with
  | ELit _ => lit "literal_wrapper" | ENeg _ => lit "unary_expression" | EBin _ _ _ => lit "binary_expression" | EAbs _ _ => lit "absolute_path"
  | EStep _ _ => lit "step" | EPred _ _ => lit "predicated_expression" | ETest TStar | ETest (TName _) => lit "name_test" | ETest _ => lit "node_type_test"
  | EAbbrev _ => lit "abbreviated_step" | EVar _ => lit "variable_reference" | ECall _ _ => lit "function_call" | ESeq _ => lit "Sequence"
  end.
(** Expressions whose parts are written in a readable way; an operator at the top has blanks around it. *)
Definition shown (w : env) (v : lexenv) (e : expr) : Prop :=
  match e with EBin l _ r => plain w v l /\ plain w v r | _ => plain w v e end.
(** What stands in [s] around [body]. *)
Definition framed (s cls body : str) : Prop := s = [123%N] ++ cls ++ [32%N] ++ body ++ [125%N].
