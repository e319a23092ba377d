(** The same selection by treeutil, by MicroXPath and by streaming: how the requests correspond. *)
From Verif Require Import PyStr XTree Path Nodes Pattern PatternSpec XPath XPathSpec XGramSpec XLexSpec.

(** A step for a component of a pattern, a path for a pattern (grouped in any way). *)
Inductive path_for : list stage -> expr -> Prop :=
| pf_any : path_for [StAny] (EStep AxChild TStar)
| pf_name n : path_for [StName n] (EStep AxChild (TName n))
| pf_path p q e f : path_for p e -> path_for q f -> path_for (p ++ q) (EBin e OpPath f).
(** A component as it is written in a path: [*] or a name; a pattern as an absolute path. *)
Definition plain_stage (st : stage) : Prop := match st with StAny => True | StName n => name n | _ => False end.
Definition written (st : stage) : str := match st with StName n => n | _ => lit "*" end.
Definition pattern_text (p : list stage) : str := flat_map (fun st => lit "/" ++ written st) p.
(** What was found in the subtree at [a], as items of the document. *)
Definition items_at (a : addr) (l : list located) : list item := map (fun x => INode (a ++ fst x)) l.
