(** exec/microx 191-282 with sources that are not well-formed.  What expat does with a source: the calls
    it makes, and whether it then raises ExpatError.  Without --partition the text is given to
    [Parse(source)] (xml.py 128), which is not told that there is no more: a source that merely breaks
    off is no error.  With --partition [ParseFile] (xmliter.py 52) tells so. *)
From Verif Require Import PyStr Parser XTree Heap HeapSpec Builder Expat Pattern TreeIter TreeIterSpec.
From Verif Require Import XPath XGram XLex XQuery Microx MicroxMain.

Inductive ending := Ends (f : fin) | ExpatError.
Definition source : Type := list cb * bool.

Section Sources.
  Variable go : xtree -> list str * fin.
  (** microx 110-111, 196, 202-210; as [print_sources].  An error of expat leaves [P] (209): nothing of the source is printed. *)
  Inductive read_sources : bstate -> list source -> list str * ending -> Prop :=
  | rs_end s : read_sources s [] ([], Ends Done)
  | rs_next s cs srcs evs stk s' i t ls ls' f :
      callbacks [] cs = (evs, Some stk) -> xml_tree_parse s evs s' (Some i) -> holds_tree (bheap s') i t ->
      go t = (ls, Done) -> read_sources s' srcs (ls', f) -> read_sources s ((cs, false) :: srcs) (ls ++ ls', f)
  | rs_stop s cs srcs evs stk s' i t ls f :
      callbacks [] cs = (evs, Some stk) -> xml_tree_parse s evs s' (Some i) -> holds_tree (bheap s') i t ->
      go t = (ls, f) -> f <> Done -> read_sources s ((cs, false) :: srcs) (ls, Ends f)
  | rs_bad s cs srcs evs stk : callbacks [] cs = (evs, Some stk) -> read_sources s ((cs, true) :: srcs) ([], ExpatError).
  (** microx 191-200; as [print_parts].  What the sink has got before the error is printed. *)
  Inductive read_parts (p : list stage) : list source -> list str * ending -> Prop :=
  | rq_end : read_parts p [] ([], Ends Done)
  | rq_next h cs srcs evs stk s' ts ls ls' f :
      callbacks [] cs = (evs, Some stk) -> allocated h -> thandle (stateses [p]) (new_handler (new_sender h [p])) evs s' None ->
      sent_since (new_sender h [p]) s' 0 ts -> each go ts Done = (ls, Done) -> read_parts p srcs (ls', f) -> read_parts p ((cs, false) :: srcs) (ls ++ ls', f)
  | rq_stop h cs b srcs evs stk s' x ts ls f :
      callbacks [] cs = (evs, Some stk) -> allocated h -> thandle (stateses [p]) (new_handler (new_sender h [p])) evs s' x ->
      sent_since (new_sender h [p]) s' 0 ts -> each go ts Done = (ls, f) -> f <> Done -> read_parts p ((cs, b) :: srcs) (ls, Ends f)
  | rq_type h cs b srcs evs stk s' x ts ls :
      callbacks [] cs = (evs, Some stk) -> allocated h -> thandle (stateses [p]) (new_handler (new_sender h [p])) evs s' (Some x) ->
      sent_since (new_sender h [p]) s' 0 ts -> each go ts Done = (ls, Done) -> read_parts p ((cs, b) :: srcs) (ls, Ends (Exn TypeErr))
  | rq_bad h cs srcs evs stk s' ts ls :
      callbacks [] cs = (evs, Some stk) -> allocated h -> thandle (stateses [p]) (new_handler (new_sender h [p])) evs s' None ->
      sent_since (new_sender h [p]) s' 0 ts -> each go ts Done = (ls, Done) -> read_parts p ((cs, true) :: srcs) (ls, ExpatError).
End Sources.

(** The program, as [microx]. *)
Inductive microx_files (v : lexenv) (tf : str -> option flt) (fs : flt -> str) (n : nat) (h : heap) (a : options) (srcs : list source) : list str * ending -> Prop :=
| mf_fail x : prepare v a = inr x -> microx_files v tf fs n h a srcs ([], Ends (Exn x))
| mf_sources c fe o : prepare v a = inl (c, fe) -> truthy_opt (o_partition a) = None ->
    read_sources (fun t => run (world v [] tf fs t) n c fe (o_limit a) (show_attrs a)) (new_builder h) srcs o -> microx_files v tf fs n h a srcs o
| mf_parts c fe p o : prepare v a = inl (c, fe) -> truthy_opt (o_partition a) = Some p ->
    read_parts (fun t => run (world v [] tf fs t) n c fe (o_limit a) (show_attrs a)) (partition_pattern p) srcs o -> microx_files v tf fs n h a srcs o.
