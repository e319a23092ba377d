(** Property C119 (writer.py with [whandler]).  The specifications are in WriterHandlerSpec.v. *)
From Verif Require Import PyStr Parser XTree Tree TreeSpec Writer WriterSpec WriterHandler WriterHandlerSpec WriterHandlerFacts.

(** ** C119 *)
(** Writing a tree, the handler is given its markup, piece by piece. *)
Theorem C119_tree (St : Type) (hw : St -> wctx * witem -> outcome St) t d s s' o x :
  h_run hw (new_raw [] d) s (write_calls t) = (s', o, x) <-> given hw s (markup t) s' o x.
Proof. exact (handler_tree St hw t d s s' o x). Qed.
Print Assumptions C119_tree.
(** For any calls, what handlers are given does not depend on the handler; without handler the
    pieces are written. *)
Theorem C119_calls indent d cs : exists ws, snd (raw_run (new_raw indent d) cs) = flat_map raw_write ws /\
  forall (St : Type) (hw : St -> wctx * witem -> outcome St) s s' o x,
    h_run hw (new_raw indent d) s cs = (s', o, x) <-> given hw s ws s' o x.
Proof. exists (log (new_raw indent d) cs). split; [exact (raw_log cs _)|]. intros. apply handler_given. Qed.
Print Assumptions C119_calls.
(** A handler that writes only text gives the string value. *)
Theorem C119_text t d : h_run text_handler (new_raw [] d) tt (write_calls t) = (tt, flat_map event_text (doc_events t), None).
Proof. exact (text_handler_value t d). Qed.
Print Assumptions C119_text.
(** [whandler=raw] changes nothing. *)
Theorem C119_raw indent d cs : h_run raw_handler (new_raw indent d) tt cs = (tt, snd (raw_run (new_raw indent d) cs), None).
Proof. exact (raw_handler_same (new_raw indent d) tt cs). Qed.
Print Assumptions C119_raw.
(** [whandler=namespacer] does not survive the first start tag. *)
Theorem C119_namespacer indent d n a cs :
  h_run ns_handler (new_raw indent d) tt (CStart n a false :: cs) = (tt, lit "<" ++ n, Some WAttr).
Proof. exact (ns_handler_first indent d tt n a cs). Qed.
Print Assumptions C119_namespacer.
Theorem C119_namespacer_never indent d cs : snd (h_run ns_handler (new_raw indent d) tt cs) = None <->
  forall n a e, In (CStart n a e) cs -> e = true /\ a = [].
Proof. exact (ns_handler_none (new_raw indent d) tt cs). Qed.
Print Assumptions C119_namespacer_never.
(** A namespacer with a handler writes neither declarations nor prefixes. *)
Theorem C119_prefixes_lost cs : (forall n a, ~ In (CStart n a true) cs) ->
  h_ns_run raw_handler (new_raw [] 0) tt cs = (tt, snd (raw_run (new_raw [] 0) cs), None).
Proof. intros N. rewrite h_ns_same by exact N. exact (raw_handler_same (new_raw [] 0) tt cs). Qed.
Print Assumptions C119_prefixes_lost.
(** A namespacer, with a handler or without, cannot write empty elements. *)
Theorem C119_empty prefixes mapping cs n a r : (forall n a, ~ In (CStart n a true) cs) ->
  snd (ns_run_all prefixes mapping new_namespacer (cs ++ CStart n a true :: r)) = Some WType /\
  snd (fst (ns_run_all prefixes mapping new_namespacer (cs ++ CStart n a true :: r))) = snd (ns_run prefixes mapping new_namespacer cs) /\
  forall (St : Type) (hw : St -> wctx * witem -> outcome St) s s' o, h_run hw (new_raw [] 0) s cs = (s', o, None) ->
    h_ns_run hw (new_raw [] 0) s (cs ++ CStart n a true :: r) = (s', o, Some WType).
Proof.
  intros N. rewrite ns_all_empty by exact N. destruct (ns_run prefixes mapping new_namespacer cs) as (s', o). split; [reflexivity|].
  split; [reflexivity|]. intros St hw s s1 o1 E. now apply h_ns_empty.
Qed.
Print Assumptions C119_empty.

Definition c119_tree : xtree := XE (lit "a") [(lit "k", lit "1"); (lit "l", lit "<")] [XT (lit "x&"); XE (lit "b") [] []].
Example C119_case :
  markup c119_tree =
    [tok CxStart TkStartOpen; (CxElemName, IStr (lit "a")); tok CxStart TkPreAttr; (CxAttrName, IStr (lit "k")); tok CxStart TkAttrEquals;
     (CxAttrText, IStr (lit """1""")); tok CxStart TkBetweenAttr; (CxAttrName, IStr (lit "l")); tok CxStart TkAttrEquals;
     (CxAttrText, IStr (lit """&lt;""")); tok CxStart TkStartClose; (CxText, IStr (lit "x&")); tok CxStart TkStartOpen;
     (CxElemName, IStr (lit "b")); tok CxStart TkStartClose; tok CxEnd TkEndOpen; (CxElemName, IStr (lit "b")); tok CxEnd TkEndClose;
     tok CxEnd TkEndOpen; (CxElemName, IStr (lit "a")); tok CxEnd TkEndClose] /\
  h_run text_handler (new_raw [] 0) tt (write_calls c119_tree) = (tt, lit "x&", None) /\
  h_run raw_handler (new_raw [] 0) tt (write_calls c119_tree) = (tt, lit "<a k=""1"" l=""&lt;"">x&amp;<b></b></a>", None) /\
  snd (ns_run [([], lit "u")] [] new_namespacer [CStart (lit "a") [] false]) = lit "<a xmlns=""u"">" /\
  h_ns_run raw_handler (new_raw [] 0) tt [CStart (lit "a") [] false] = (tt, lit "<a>", None) /\
  snd (h_run ns_handler (new_raw [] 0) tt [CStart (lit "a") [] true; CText (lit "t")]) = None /\
  (forall n a, ~ In (CStart n a true) [CStart (lit "a") [] false]).
Proof.
  split; [reflexivity|]. split; [reflexivity|]. split; [reflexivity|]. split; [reflexivity|]. split; [reflexivity|]. split; [reflexivity|].
  intros n a [E|[]]. discriminate E.
Qed.
