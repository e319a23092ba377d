(** What a write handler is given. *)
From Verif Require Import PyStr Parser XTree.
From Verif Require Import Writer WriterHandler. (* only for the types of [write] *)

Definition tok (c : wctx) (t : wtoken) : wctx * witem := (c, ITok t).
Definition attr_markup (sep : wtoken) (kv : str * str) : list (wctx * witem) :=
  [tok CxStart sep; (CxAttrName, IStr (fst kv)); tok CxStart TkAttrEquals; (CxAttrText, IStr (py_quoteattr (snd kv)))].
Definition attrs_markup (a : dict str) : list (wctx * witem) :=
  match a with [] => [] | kv :: r => attr_markup TkPreAttr kv ++ concat (map (attr_markup TkBetweenAttr) r) end.
Fixpoint markup (t : xtree) : list (wctx * witem) :=
  match t with
  | XE n a ks =>
      [tok CxStart TkStartOpen; (CxElemName, IStr n)] ++ attrs_markup a ++ [tok CxStart TkStartClose] ++ concat (map markup ks)
      ++ [tok CxEnd TkEndOpen; (CxElemName, IStr n); tok CxEnd TkEndClose]
  | XT s => [(CxText, IStr s)]
  end.

(** [given act s ws s' out x]: an object, starting as [s], is given [ws], one after the other up to
    the first exception. *)
Inductive given {St X : Type} (act : St -> wctx * witem -> St * str * option X) : St -> list (wctx * witem) -> St -> str -> option X -> Prop :=
| gv_done s : given act s [] s [] None
| gv_more s w ws s1 o1 s2 o2 x : act s w = (s1, o1, None) -> given act s1 ws s2 o2 x -> given act s (w :: ws) s2 (o1 ++ o2) x
| gv_exn s w ws s1 o1 x : act s w = (s1, o1, Some x) -> given act s (w :: ws) s1 o1 (Some x).

(** A handler that writes only the texts, as they are. *)
Definition text_handler (s : unit) (w : wctx * witem) : unit * str * option wexn :=
  (s, match w with (CxText, IStr t) => t | _ => [] end, None).
