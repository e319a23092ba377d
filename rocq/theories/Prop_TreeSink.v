(** Theorems about treeiter.sender with sinks that edit trees. *)
From Verif Require Import PyStr Parser XTree Grammar ParserSpec Heap Builder HeapSpec Path Pattern PatternSpec TreeUtil TreeUtilSpec.
From Verif Require Import TreeIter TreeIterSpec TreeIterMore Prop_TreeIter TreeSink TreeSinkSpec TreeSinkFacts TreeSinkCollect.

(** ** C112 *)
(** Whatever the sink does, as long as the element it was sent has no parent afterwards. *)
Theorem C112_loose sink p s t s' x : leaves_loose sink -> no_deep p -> p <> [] -> served_with sink p s -> is_element t ->
  whandle sink (stateses [p]) (new_handler s) (doc_events t) s' x ->
  x = None /\ served_with sink p s' /\
  exists l, listing t (fun a u => is_element u /\ matches p (path_names t a)) l /\ sent_since s s' 0 (map snd l).
Proof. exact (loose_exact sink p s t s' x). Qed.
Print Assumptions C112_loose.
(** Appended to a collector. *)
Theorem C112_collected p h c cn ca ck cp t s' x : no_deep p -> p <> [] -> is_element t ->
  hp h c = Some (OElem cn ca ck cp) -> c < nxt h ->
  whandle (appends_to c) (stateses [p]) (new_handler (new_sender_with h [c] p)) (doc_events t) s' x -> In c (tkept s') ->
  x = None /\ exists l is, listing t (fun a u => is_element u /\ matches p (path_names t a)) l /\
    Forall2 (has_under (theap s') c) is (map snd l) /\
    hp (theap s') c = Some (OElem cn ca (ck ++ doubled is) cp).
Proof. exact (collected p h c cn ca ck cp t s' x). Qed.
Print Assumptions C112_collected.
(** Sinks that edit nothing, for any patterns and events, exceptions included: the same runs as in C39. *)
Theorem C112_idle ss s evs s' x : whandle looks_on ss s evs s' x <-> thandle ss s evs s' x.
Proof. exact (looks_on_handle ss evs s s' x). Qed.
Print Assumptions C112_idle.

(** A document with three matches; the sink empties each element it gets, or collects it under node 0. *)
Definition c112_doc : xtree := el "a" [el "b" [XT (lit "1")]; el "x" []; el "b" [el "c" []]; el "b" []].
Definition c112_pat : list stage := [nm "a"; nm "b"].
Definition c112_heap : heap := fst (alloc empty_heap (OElem (lit "all") [] [] None)).
Definition c112_run (f : ref -> heap -> option heap) : tstate :=
  match whandle1 f (stateses [c112_pat]) (new_handler (new_sender_with c112_heap [0] c112_pat)) (doc_events c112_doc) with
  | Some s => s | None => new_sender_with empty_heap [] [] end.
Lemma c112_runs f : match whandle1 f (stateses [c112_pat]) (new_handler (new_sender_with c112_heap [0] c112_pat)) (doc_events c112_doc) with Some _ => true | None => false end = true ->
  whandle (sink_of f) (stateses [c112_pat]) (new_handler (new_sender_with c112_heap [0] c112_pat)) (doc_events c112_doc) (c112_run f) None.
Proof. intros H. apply whandle1_ok. unfold c112_run. destruct (whandle1 _ _ _ _); [reflexivity|discriminate]. Qed.
Example C112_case :
  no_deep c112_pat /\ leaves_loose (sink_of clear_fun) /\
  whandle (sink_of clear_fun) (stateses [c112_pat]) (new_handler (new_sender_with c112_heap [0] c112_pat)) (doc_events c112_doc) (c112_run clear_fun) None /\
  map (fun x => map (hp (snd x)) [1; 2; 3; 4; 5]) (tsent (c112_run clear_fun)) =
    [[Some (OElem (lit "b") [] [2] None); Some (OText (lit "1") (Some 1)); None; None; None];
     [Some (OElem (lit "b") [] [] None); Some (OText (lit "1") (Some 1)); Some (OElem (lit "b") [] [4] None); Some (OElem (lit "c") [] [] (Some 3)); None];
     [Some (OElem (lit "b") [] [] None); Some (OText (lit "1") (Some 1)); Some (OElem (lit "b") [] [] None); Some (OElem (lit "c") [] [] (Some 3)); Some (OElem (lit "b") [] [] None)]] /\
  whandle (appends_to 0) (stateses [c112_pat]) (new_handler (new_sender_with c112_heap [0] c112_pat)) (doc_events c112_doc) (c112_run (append_fun 0)) None /\
  In 0 (tkept (c112_run (append_fun 0))) /\
  hp (theap (c112_run (append_fun 0))) 0 = Some (OElem (lit "all") [] [1; 3; 3; 5; 5] None).
Proof.
  split; [no_such|]. split; [exact clear_loose|]. split; [apply c112_runs; vm_compute; reflexivity|]. split; [vm_compute; reflexivity|].
  split; [apply (whandle_mono (sink_of (append_fun 0))); [exact (append_fun_ok 0)|apply c112_runs; vm_compute; reflexivity]|].
  split; vm_compute; auto.
Qed.
Lemma same_length {A B} (R : A -> B -> Prop) l1 l2 : Forall2 R l1 l2 -> length l1 = length l2.
Proof. intros H. induction H; cbn; congruence. Qed.
Lemma three_of_five {A} (l : list A) : length (doubled l) = 5 -> length l = 3.
Proof. destruct l as [|i0 [|i1 [|i2 [|i3 l]]]]; cbn; intros K; try discriminate; reflexivity. Qed.
(** So collecting the matches does not give the matches. *)
Theorem C112_collect_refuted : exists p h c cn ca t s', no_deep p /\ p <> [] /\ is_element t /\ hp h c = Some (OElem cn ca [] None) /\
  whandle (appends_to c) (stateses [p]) (new_handler (new_sender_with h [c] p)) (doc_events t) s' None /\ In c (tkept s') /\
  exists l is, listing t (fun a u => is_element u /\ matches p (path_names t a)) l /\ hp (theap s') c = Some (OElem cn ca is None) /\
    length l = 3 /\ length is = 5.
Proof.
  destruct C112_case as (H1 & _ & _ & _ & H2 & H3 & H4).
  exists c112_pat, c112_heap, 0, (lit "all"), [], c112_doc, (c112_run (append_fun 0)). split; [exact H1|]. split; [discriminate|]. split; [repeat eexists|]. split; [reflexivity|].
  split; [exact H2|]. split; [exact H3|].
  destruct (C112_collected c112_pat c112_heap 0 (lit "all") [] [] None c112_doc _ None H1 ltac:(discriminate) ltac:(repeat eexists) eq_refl ltac:(cbn; lia) H2 H3) as (_ & l & is & G1 & G2 & G3).
  exists l, [1; 3; 3; 5; 5]. split; [exact G1|]. split; [exact H4|]. split; [|reflexivity].
  rewrite H4 in G3. injection G3 as G3. assert (E : length is = length (map snd l)) by (apply (same_length _ _ _ G2)). rewrite map_length in E. rewrite <- E.
  assert (K : length (doubled is) = 5) by (cbn [app] in G3; rewrite <- G3; reflexivity).
  exact (three_of_five _ K).
Qed.
Print Assumptions C112_collect_refuted.
