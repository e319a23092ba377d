(** Property C127: event handlers that raise or end (parser.py).  When is in HandlerStopSpec.v. *)
From Verif Require Import PyStr XTree Grammar Parser ParserSpec ParserMore ParserClass HandlerStop HandlerStopSpec HandlerStopFacts.

(** ** C127 *)
(** A handler is quiet, or there is a first event at which it raises. *)
Theorem C127_cases (h : event_handler) evs : quiet h evs \/ exists a e b x, evs = a ++ e :: b /\ raises_at h a e x.
Proof. intros. destruct (deliver_case h evs []) as [H|H]; [intros a b E; destruct a; [congruence|discriminate]|now left|now right]. Qed.
Print Assumptions C127_cases.
(** While it is quiet, it is sent the events the parser finds, whatever the client sends and goes on sending. *)
Theorem C127_quiet (h : event_handler) l evs o : sends new_parser l = (evs, o) -> quiet h evs -> exists l1 l2, l = l1 ++ l2 /\
  session h [] new_parser l = (evs, repeat HOk (length l1) ++
    match o, l2 with Raised e, _ :: r => HRaised (ROwn e) :: map (fun _ => HRaised (ROwn StopIter)) r | Hung, _ :: _ => [HHang] | _, _ => [] end) /\
  (match o with Suspended _ => l2 = [] | _ => l2 <> [] end).
Proof. exact (session_quiet h l new_parser [] evs o). Qed.
Print Assumptions C127_quiet.
(** When it raises, it has been sent the events up to this one and is never sent anything again.  The
    exception leaves the call in which the parser finds the event; all later calls raise StopIteration. *)
Theorem C127_raises (h : event_handler) l a e b x o : sends new_parser l = (a ++ e :: b, o) -> raises_at h a e x -> exists l1 p l2, l = l1 ++ p :: l2 /\
  session h [] new_parser l = (a ++ [e], repeat HOk (length l1) ++ HRaised (leaves x) :: map (fun _ => HRaised (ROwn StopIter)) l2) /\
  (exists r, a = fst (sends new_parser l1) ++ r) /\ exists r, fst (sends new_parser (l1 ++ [p])) = a ++ e :: r.
Proof. intros E (Q & R). exact (session_raise h x e b l new_parser [] a o E Q R). Qed.
Print Assumptions C127_raises.
(** As StopIteration, if the handler ended. *)
Theorem C127_leaves x : (x = HStop \/ x = HExit -> leaves x = ROwn StopIter) /\ forall n, x = HFail n -> leaves x = RHandler n.
Proof. split; [intros [-> | ->]; reflexivity|intros n ->; reflexivity]. Qed.
Print Assumptions C127_leaves.
(** A document in pieces. *)
Theorem C127_document (h : event_handler) pieces t a e b x : safe_cuts pieces = true -> lenient_doc (concat pieces) t -> doc_events t = a ++ e :: b -> raises_at h a e x ->
  exists l1 p l2, pieces = l1 ++ p :: l2 /\
    session h [] new_parser (map (fun f => (f, false)) pieces) = (a ++ [e], repeat HOk (length l1) ++ HRaised (leaves x) :: map (fun _ => HRaised (ROwn StopIter)) l2).
Proof. intros C D E (Q & R). exact (handler_document h pieces t a e b x C D E Q R). Qed.
Print Assumptions C127_document.
Theorem C127_whole (h : event_handler) pieces t : safe_cuts pieces = true -> lenient_doc (concat pieces) t -> quiet h (doc_events t) ->
  session h [] new_parser (map (fun f => (f, false)) pieces) = (doc_events t, map (fun _ => HOk) pieces).
Proof. exact (handler_all h pieces t). Qed.
Print Assumptions C127_whole.
(** A handler that cannot be started is noticed when the parser is made; one that has ended as a RuntimeError. *)
Theorem C127_start primed : (make_parser primed = inl new_parser <-> primed = None) /\
  (forall x, make_parser primed = inr x <-> (x = MRuntime /\ primed = Some HStop) \/ (x = MExit /\ primed = Some HExit) \/ exists n, x = MHandler n /\ primed = Some (HFail n)).
Proof.
  split; [destruct primed as [[]|]; split; intros H; try discriminate H; reflexivity|].
  intros x. split.
  - destruct primed as [[]|]; intros H; try discriminate H; injection H as <-; eauto.
  - intros [[-> ->]|[[-> ->]|(n & -> & ->)]]; reflexivity.
Qed.
Print Assumptions C127_start.

(** Ends at the second start tag. *)
Definition two_starts : event_handler := fun evs => if (length (filter (fun e => match e with EvStart _ _ _ => true | _ => false end) evs) =? 2)%nat then Some HStop else None.
Example C127_case : let ps := [lit "<a>x<"; lit "b>y"; lit "</b></a>"] in
  safe_cuts ps = true /\ sends new_parser (map (fun f => (f, false)) ps) = ([EvStart (lit "a") [] []; EvChars (lit "x")] ++ EvStart (lit "b") [] [lit "a"] :: [EvChars (lit "y"); EvEnd (lit "b") [lit "a"]; EvEnd (lit "a") []],
    snd (sends new_parser (map (fun f => (f, false)) ps))) /\
  raises_at two_starts [EvStart (lit "a") [] []; EvChars (lit "x")] (EvStart (lit "b") [] [lit "a"]) HStop /\
  session two_starts [] new_parser (map (fun f => (f, false)) ps) =
    ([EvStart (lit "a") [] []; EvChars (lit "x"); EvStart (lit "b") [] [lit "a"]], [HOk; HRaised (ROwn StopIter); HRaised (ROwn StopIter)]).
Proof.
  split; [reflexivity|]. split; [vm_compute; reflexivity|]. split; [|vm_compute; reflexivity]. split; [|reflexivity].
  intros a b E N. destruct a as [|x [|y [|z a]]]; [congruence| | |destruct a; discriminate]; injection E; intros; subst; reflexivity.
Qed.
