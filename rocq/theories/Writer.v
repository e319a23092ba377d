(** writer.py: the raw and the namespacing writer.

    A writer object is driven by method calls ([wcall]).  Both classes translate a call into a
    list of [write(ctx, text)] calls on the write handler, which is the writer itself when
    [whandler] is not given (writer.py 60); for other write handlers see WriterHandler.v.
    The file object is the text written so far. *)
From Verif Require Import PyStr Parser XTree.

(** writer.py 11-20; [attr_quote] (17) is never written. *)
Inductive wtoken :=
| TkStartOpen | TkStartClose | TkEndOpen | TkEndClose | TkEmptyClose | TkBetweenAttr | TkPreAttr | TkAttrEquals.

(** writer.py 23-33 TOKENS *)
Definition token_text (t : wtoken) : str :=
  match t with
  | TkStartOpen => lit "<"
  | TkStartClose => lit ">"
  | TkEndOpen => lit "</"
  | TkEndClose => lit ">"
  | TkEmptyClose => lit "/>"
  | TkPreAttr => lit " "
  | TkBetweenAttr => lit " "
  | TkAttrEquals => lit "="
  end.

(** writer.py 36-42 *)
Inductive wctx := CxStart | CxEnd | CxElemName | CxAttrName | CxAttrText | CxText.

(** The argument [text] of [write]: a token or a string. *)
Inductive witem := ITok (t : wtoken) | IStr (s : str).

(** Method calls on a writer. *)
Inductive wcall :=
| CStart (n : str) (attrs : dict str) (empty : bool)
| CEnd (n : str)
| CText (s : str).

(** The attributes [_indent] ([[]] for [None]; writer.py 61), [_depth] and
    [_awaiting_indent] (62-63). *)
Record wstate := mkW { windent : str; wdepth : Z; wawait : bool }.

(** [s * n] for an integer [n]: empty for negative [n]. *)
Definition str_times (s : str) (n : Z) : str := str_repeat s (Z.to_nat n).

(** writer.py 80-81, 101-102, 114-115 *)
Definition indent_writes (s : wstate) : list (wctx * witem) :=
  [(CxText, IStr [c_nl]); (CxText, IStr (str_times (windent s) (wdepth s)))].
Definition indenting (s : wstate) : bool := match windent s with [] => false | _ => true end.

(** writer.py 87-97; [first] is [first_attribute] *)
Fixpoint attr_writes (first : bool) (a : dict str) : list (wctx * witem) :=
  match a with
  | [] => []
  | (k, v) :: a' =>
      (CxStart, ITok (if first then TkPreAttr else TkBetweenAttr)) :: (CxAttrName, IStr k)
      :: (CxStart, ITok TkAttrEquals) :: (CxAttrText, IStr (py_quoteattr v)) :: attr_writes false a'
  end.

(** writer.py 75-107 raw.start_element *)
Definition start_writes (s : wstate) (n : str) (a : dict str) (empty : bool) : wstate * list (wctx * witem) :=
  let '(s1, w1) :=
    if wawait s && indenting s
    then (mkW (windent s) (wdepth s) false, indent_writes s)
    else (s, []) in
  let w2 := (CxStart, ITok TkStartOpen) :: (CxElemName, IStr n) :: attr_writes true a in
  if empty
  then (s1, w1 ++ w2 ++ (CxStart, ITok TkEmptyClose) :: if indenting s1 then indent_writes s1 else [])
  else (mkW (windent s1) (wdepth s1 + 1) true, w1 ++ w2 ++ [(CxStart, ITok TkStartClose)]).

(** writer.py 109-118 raw.end_element *)
Definition end_writes (s : wstate) (n : str) : wstate * list (wctx * witem) :=
  (mkW (windent s) (wdepth s - 1) false,
   [(CxEnd, ITok TkEndOpen); (CxElemName, IStr n); (CxEnd, ITok TkEndClose)]
   ++ if indenting s then indent_writes s else []).

(** A method call; writer.py 120-122 raw.text *)
Definition call_writes (s : wstate) (c : wcall) : wstate * list (wctx * witem) :=
  match c with
  | CStart n a empty => start_writes s n a empty
  | CEnd n => end_writes s n
  | CText t => (s, [(CxText, IStr t)])
  end.

(** writer.py 66-73 raw.write *)
Definition item_text (i : witem) : str := match i with ITok t => token_text t | IStr s => s end.
Definition raw_write (w : wctx * witem) : str :=
  match w with
  | (CxText, IStr s) => py_escape s
  | (_, i) => item_text i
  end.

(** Calls on a raw writer: its final state and what was written. *)
Fixpoint raw_run (s : wstate) (cs : list wcall) : wstate * str :=
  match cs with
  | [] => (s, [])
  | c :: cs' => let '(s1, ws) := call_writes s c in
                let '(s2, out) := raw_run s1 cs' in
                (s2, flat_map raw_write ws ++ out)
  end.

(** writer.py 57-64 raw(fp, indent=indent, depth=depth) *)
Definition new_raw (indent : str) (depth : Z) : wstate := mkW indent depth false.

(** ** namespacer *)

(** writer.py 141-146: [_first_element], [_ns_handled], [_prefixes], [_mapping]; the base class
    is initialised without indent and depth. *)
Record nstate := mkN { nbase : wstate; nfirst : bool; nhandled : bool }.
Definition new_namespacer : nstate := mkN (new_raw [] 0) true false.

(** writer.py 161-166 *)
Definition declarations (prefixes : dict str) : str :=
  flat_map (fun kv => lit " " ++ (match fst kv with [] => lit "xmlns" | k => lit "xmlns:" ++ k end)
                      ++ lit "=" ++ py_quoteattr (snd kv)) prefixes.

(** writer.py 171-173, 176-178 *)
Definition ns_prefix (mapping : dict (str * str)) (key : str) : str :=
  match dict_get mapping key with
  | Some (_, []) => []
  | Some (_, p) => p ++ lit ":"
  | None => []
  end.

(** writer.py 153-181 namespacer.write *)
Definition ns_write (prefixes : dict str) (mapping : dict (str * str)) (s : nstate) (w : wctx * witem) : nstate * str :=
  match w with
  | (CxText, IStr t) => (s, py_escape t)
  | (CxStart, i) =>
      match i with
      | ITok TkPreAttr | ITok TkStartClose =>
          if nfirst s && negb (nhandled s)
          then (mkN (nbase s) (nfirst s) true, declarations prefixes ++ item_text i)
          else (s, item_text i)
      | _ => (s, item_text i)
      end
  | (CxElemName, IStr n) => (s, ns_prefix mapping n ++ n)
  | (CxAttrName, IStr k) => (s, ns_prefix mapping (lit "@" ++ k) ++ k)
  | (_, i) => (s, item_text i)
  end.
Fixpoint ns_writes (prefixes : dict str) (mapping : dict (str * str)) (s : nstate) (ws : list (wctx * witem)) : nstate * str :=
  match ws with
  | [] => (s, [])
  | w :: ws' => let '(s1, o1) := ns_write prefixes mapping s w in
                let '(s2, o2) := ns_writes prefixes mapping s1 ws' in
                (s2, o1 ++ o2)
  end.

(** writer.py 148-151 namespacer.start_element, which has no parameter [empty]: calls with
    [empty=True] (a TypeError, see WriterHandler.v) are treated as calls without it here. *)
Definition ns_call (prefixes : dict str) (mapping : dict (str * str)) (s : nstate) (c : wcall) : nstate * str :=
  match c with
  | CStart n a _ =>
      let s0 := mkN (nbase s) (nfirst s) false in
      let '(b, ws) := start_writes (nbase s) n a false in
      let '(s1, out) := ns_writes prefixes mapping s0 ws in
      (mkN b false (nhandled s1), out)
  | _ =>
      let '(b, ws) := call_writes (nbase s) c in
      let '(s1, out) := ns_writes prefixes mapping s ws in
      (mkN b (nfirst s1) (nhandled s1), out)
  end.
Fixpoint ns_run (prefixes : dict str) (mapping : dict (str * str)) (s : nstate) (cs : list wcall) : nstate * str :=
  match cs with
  | [] => (s, [])
  | c :: cs' => let '(s1, o1) := ns_call prefixes mapping s c in
                let '(s2, o2) := ns_run prefixes mapping s1 cs' in
                (s2, o1 ++ o2)
  end.

(** ** writer.py 184-197 write(elem, a_writer): the method calls it makes.  It is called with an
    element; for a text node, which has no [xml_name], see the branch 194-195. *)
Fixpoint write_calls (t : xtree) : list wcall :=
  match t with
  | XE n a ks => CStart n a false :: flat_map write_calls ks ++ [CEnd n]
  | XT s => [CText s]
  end.
