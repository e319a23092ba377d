(** exec/microx 191-282: the sources, --partition and the command line.  Not modelled: opening
    files and URLs, closing.  For sources that expat rejects see MicroxBad, for sources without any
    element MicroxNone, for --html
    and --lax see MicroxHtml. *)
From Verif Require Import PyStr Parser XTree Heap HeapSpec Builder Expat Pattern TreeIter TreeIterSpec.
From Verif Require Import XPath XGram XLex XQuery Microx.

(** ** The sources: what expat reports of each *)
Section Sources.
  (** What is printed for one document *)
  Variable go : xtree -> list str * fin.

  (** microx 110-111, 196-210 without --partition: all sources go through one builder [TB]. *)
  Inductive print_sources : bstate -> list (list cb) -> list str * fin -> Prop :=
  | so_end s : print_sources s [] ([], Done)
  | so_next s cs srcs evs stk s' i t ls ls' f :
      callbacks [] cs = (evs, Some stk) -> xml_tree_parse s evs s' (Some i) -> holds_tree (bheap s') i t ->
      go t = (ls, Done) -> print_sources s' srcs (ls', f) -> print_sources s (cs :: srcs) (ls ++ ls', f)
  | so_stop s cs srcs evs stk s' i t ls f :
      callbacks [] cs = (evs, Some stk) -> xml_tree_parse s evs s' (Some i) -> holds_tree (bheap s') i t ->
      go t = (ls, f) -> f <> Done -> print_sources s (cs :: srcs) (ls, f).

  (** microx 191-200 with --partition: every source has its own sender, whose sink prints every
      subtree it gets; the sink does not edit the subtrees.  [h]: the heap when the sender is made.
      An exception in the sink ends everything: nothing after it is printed. *)
  Inductive print_parts (p : list stage) : list (list cb) -> list str * fin -> Prop :=
  | pa_end : print_parts p [] ([], Done)
  | pa_next h cs srcs evs stk s' ts ls ls' f :
      callbacks [] cs = (evs, Some stk) -> allocated h -> thandle (stateses [p]) (new_handler (new_sender h [p])) evs s' None ->
      sent_since (new_sender h [p]) s' 0 ts -> each go ts Done = (ls, Done) -> print_parts p srcs (ls', f) -> print_parts p (cs :: srcs) (ls ++ ls', f)
  | pa_stop h cs srcs evs stk s' x ts ls f :
      callbacks [] cs = (evs, Some stk) -> allocated h -> thandle (stateses [p]) (new_handler (new_sender h [p])) evs s' x ->
      sent_since (new_sender h [p]) s' 0 ts -> each go ts Done = (ls, f) -> f <> Done -> print_parts p (cs :: srcs) (ls, f)
  | pa_type h cs srcs evs stk s' x ts ls :              (* an exception of the handler itself *)
      callbacks [] cs = (evs, Some stk) -> allocated h -> thandle (stateses [p]) (new_handler (new_sender h [p])) evs s' (Some x) ->
      sent_since (new_sender h [p]) s' 0 ts -> each go ts Done = (ls, Done) -> print_parts p (cs :: srcs) (ls, Exn TypeErr).
End Sources.

(** ** The command line: microx 215-282 *)
Record options := mkO {
  o_expr : option str; o_match : option str; o_find_text : option str;
  o_foreach : option str; o_partition : option str; o_limit : option nat; o_show_attrs : option str }.
(** [if x]: given and not empty *)
Definition truthy_opt (o : option str) : option str := match o with Some (c :: s) => Some (c :: s) | _ => None end.
Inductive command_name := NExpr | NMatch | NFindText.
(** 259-263, with 215 COMMANDS *)
Definition commands (a : options) : list (command_name * str) :=
  flat_map (fun x => match truthy_opt (snd x) with Some d => [(fst x, d)] | None => [] end)
    [(NExpr, o_expr a); (NMatch, o_match a); (NFindText, o_find_text a)].
(** [s.split(',')] *)
Fixpoint split_comma (s : str) : list str :=
  match s with
  | [] => [[]]
  | c :: r => if N.eqb c 44 then [] :: split_comma r
              else match split_comma r with x :: l => (c :: x) :: l | [] => [[c]] end
  end.
(** 271-274 *)
Definition show_attrs (a : options) : list str := match truthy_opt (o_show_attrs a) with Some s => split_comma s | None => [] end.

(** 265-269 and 142-147: the command and the inner expression, before any source is looked at. *)
Definition prepare (v : lexenv) (a : options) : (command * option expr) + xexn :=
  match commands a with
  | [(name, detail)] =>
      let c := match name with
               | NExpr => match uxpath_parse v detail with inl e => inl (CmdExpr e) | inr x => inr x end
               | NMatch => match uxpath_parse v detail with inl e => inl (CmdMatch e) | inr x => inr x end
               | NFindText => inl (CmdFind detail)
               end in
      match c with
      | inr x => inr x
      | inl c => match truthy_opt (o_foreach a) with
                 | None => inl (c, None)
                 | Some s => match uxpath_parse v s with inl e => inl (c, Some e) | inr x => inr x end
                 end
      end
  | _ => inr ValueErr
  end.
(** microx 198: the pattern [('**', partition)] *)
Definition partition_pattern (s : str) : list stage := [StDeep; stage_of (RStr s)].
(** The program with these options and sources: the lines printed and how it ends.  [n] bounds the
    evaluation of expressions; [h] is the heap at the start. *)
Inductive microx (v : lexenv) (tf : str -> option flt) (fs : flt -> str) (n : nat) (h : heap) (a : options) (srcs : list (list cb)) : list str * fin -> Prop :=
| mx_fail x : prepare v a = inr x -> microx v tf fs n h a srcs ([], Exn x)
| mx_sources c fe o : prepare v a = inl (c, fe) -> truthy_opt (o_partition a) = None ->
    print_sources (fun t => run (world v [] tf fs t) n c fe (o_limit a) (show_attrs a)) (new_builder h) srcs o -> microx v tf fs n h a srcs o
| mx_parts c fe p o : prepare v a = inl (c, fe) -> truthy_opt (o_partition a) = Some p ->
    print_parts (fun t => run (world v [] tf fs t) n c fe (o_limit a) (show_attrs a)) (partition_pattern p) srcs o -> microx v tf fs n h a srcs o.
