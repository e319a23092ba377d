(** exec/microx 196-210: the flags --html and --lax.  Not modelled: documents without any element
    (html5lib makes at least html, head and body). *)
From Verif Require Import PyStr Parser XTree Heap HeapSpec Builder Expat Html5 Html5Hist.
From Verif Require Import XPath XGram XLex XQuery Microx MicroxMain.

(** A source: what expat reports of it, and what html5lib makes of it: the heap after html5lib's calls
    and the root nodes of its document. *)
Record source := mkS { s_cbs : list cb; s_heap : heap; s_roots : list root_node }.

(** The end of the program: as in [fin], or the IndexError of html5.py 343. *)
Inductive hend := HEnd (f : fin) | HIndexError.

(** microx 203-206 [root = html5.parse(...)] or [html5.parse_lax_xml(...)]: the heap and the element. *)
Inductive html_root (lax : bool) (s : source) : heap -> ref -> Prop :=
| hr_parse i : lax = false -> first_element (s_roots s) = Some i -> html_root lax s (s_heap s) i
| hr_lax h' i : lax = true -> parse_lax (s_heap s) (first_element (s_roots s)) = LaxOk h' i -> html_root lax s h' i.

(** microx 155-189 process_partition; with --lax the document may be a text node, for which context(root)
    of 158 fails (xast.py 55). *)
Definition process (w : env) (n : nat) (c : command) (fe : option expr) (limit : option nat) (sh : list str) : list str * fin :=
  match doc w, c with
  | XT _, CmdExpr _ => ([], Exn AssertionErr)
  | _, _ => run w n c fe limit sh
  end.

Section Sources.
  (** What is printed for one document *)
  Variable go : xtree -> list str * fin.
  Variable lax : bool.
  (** microx 196-210 *)
  Inductive print_html : list source -> list str * hend -> Prop :=
  | ph_end : print_html [] ([], HEnd Done)
  | ph_next s srcs h i t ls ls' f : html_root lax s h i -> holds_tree h i t -> go t = (ls, Done) ->
      print_html srcs (ls', f) -> print_html (s :: srcs) (ls ++ ls', f)
  | ph_stop s srcs h i t ls f : html_root lax s h i -> holds_tree h i t -> go t = (ls, f) -> f <> Done ->
      print_html (s :: srcs) (ls, HEnd f)
  | ph_index s srcs : lax = true -> parse_lax (s_heap s) (first_element (s_roots s)) = LaxIndexError -> print_html (s :: srcs) ([], HIndexError).
End Sources.

(** microx 196-210, 215-282 with the flags: --partition is looked at first, then --html, then --lax. *)
Inductive microx_flags (v : lexenv) (tf : str -> option flt) (fs : flt -> str) (n : nat) (h : heap) (a : options) (html lax : bool) (srcs : list source) : list str * hend -> Prop :=
| mf_xml ls f : html = false \/ truthy_opt (o_partition a) <> None -> lax = false \/ truthy_opt (o_partition a) <> None ->
    microx v tf fs n h a (map s_cbs srcs) (ls, f) -> microx_flags v tf fs n h a html lax srcs (ls, HEnd f)
| mf_fail x : prepare v a = inr x -> microx_flags v tf fs n h a html lax srcs ([], HEnd (Exn x))
| mf_html c fe o : prepare v a = inl (c, fe) -> truthy_opt (o_partition a) = None -> html = true \/ lax = true ->
    print_html (fun t => process (world v [] tf fs t) n c fe (o_limit a) (show_attrs a)) (negb html) srcs o -> microx_flags v tf fs n h a html lax srcs o.
