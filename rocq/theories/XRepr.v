(** repr() of nodes and of parsed expressions. *)
From Coq Require Import ZArith.
From Verif Require Import PyStr XTree XPath.

(** tree.py 156-157: element.__repr__; [h] is hash(self), which an element takes from its identity,
    and [k] the number of its children *)
Definition element_repr (h : Z) (name : str) (k : nat) : str :=
  lit "{uxml.element (" ++ int_str h ++ lit ") """ ++ name ++ lit """ with " ++ int_str (Z.of_nat k) ++ lit " children}".
(** tree.py 172-173: text.__repr__ *)
Definition text_repr (s : str) : str := lit "{uxml.text """ ++ firstn 10 s ++ lit """...}".
(** A node of a document: [h] is used for elements only *)
Definition tree_repr (h : Z) (t : xtree) : str :=
  match t with XE n _ kids => element_repr h n (length kids) | XT s => text_repr s end.
(** xast.py 47-48: root_node.__repr__ *)
Definition root_repr : str := lit "{uxpath.rootnode}".
(** xast.py 71-72: attribute_node.__repr__ *)
Definition attribute_repr (n v : str) : str := lit "{uxpath.attribute " ++ n ++ lit "=""" ++ v ++ lit """}".

Section Expressions.
  Variable w : env.
  (** '{{{} {}}}'.format(cls, body) *)
  Definition in_braces (cls body : str) : str := lit "{" ++ cls ++ lit " " ++ body ++ lit "}".
  Definition slash_text (d : bool) : str := if d then lit "//" else lit "/".
  (** xast.py 172-173 literal_wrapper, 199-200 unary_expression, 232-233 binary_expression, 343-347 absolute_path,
      401-402 step, 517-518 predicated_expression, 567-568 name_test, 600-601 node_type_test, 631-632 abbreviated_step,
      663-664 variable_reference, 689-690 function_call, 727-728 Sequence *)
  Definition expr_repr (e : expr) : str :=
    match e with
    | ELit l => lit "literal_wrapper: " ++ literal_text w l
    | ENeg _ => in_braces (lit "unary_expression") (lit "- " ++ serialize w e)
    | EBin l op r => in_braces (lit "binary_expression") (serialize w l ++ lit " " ++ op_name op ++ lit " " ++ serialize w r)
    | EAbs d None => in_braces (lit "absolute_path") (slash_text d)
    | EAbs d (Some r) => in_braces (lit "absolute_path") (slash_text d ++ lit " " ++ serialize w r)
    | EStep _ _ => in_braces (lit "step") (serialize w e)
    | EPred _ _ => in_braces (lit "predicated_expression") (serialize w e)
    | ETest (TStar | TName _) => in_braces (lit "name_test") (serialize w e)
    | ETest (TNode | TText) => in_braces (lit "node_type_test") (serialize w e)
    | EAbbrev _ => in_braces (lit "abbreviated_step") (serialize w e)
    | EVar _ => in_braces (lit "variable_reference") (serialize w e)
    | ECall _ _ => in_braces (lit "function_call") (serialize w e)
    | ESeq _ => in_braces (lit "Sequence") (serialize w e)
    end.
End Expressions.
