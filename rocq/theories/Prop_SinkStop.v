(** Theorems about treeiter.sender with sinks that raise. *)
From Verif Require Import PyStr Parser XTree Grammar ParserSpec Heap Builder HeapSpec Path Pattern PatternSpec TreeUtil TreeUtilSpec.
From Verif Require Import TreeIter TreeIterSpec TreeIterMore Prop_TreeIter TreeSink TreeSinkSpec SinkStop SinkStopSpec SinkStopFacts SinkStopMany.

(** ** C125 *)
(** Until the sink raises it gets the matching elements in order. *)
Theorem C125_until sink p s t s' x : stop_loose sink -> no_deep p -> p <> [] -> fed sink p s -> is_element t ->
  shandle sink (stateses [p]) (new_handler s) (doc_events t) s' x ->
  exists l, listing t (fun a u => is_element u /\ matches p (path_names t a)) l /\
    (x = TEnd /\ sent_since s s' 0 (map snd l) \/
     x = TSink /\ exists l1 au l2, l = l1 ++ au :: l2 /\ sent_since s s' 0 (map snd (l1 ++ [au]))).
Proof. exact (until_stop sink p s t s' x). Qed.
Print Assumptions C125_until.
(** After that only the root element of a document is ever sent, and only its name decides. *)
Theorem C125_after sink q st s n a ks s' x : no_deep (q ++ [st]) -> stopped sink (q ++ [st]) s ->
  shandle sink (stateses [q ++ [st]]) (new_handler s) (doc_events (XE n a ks)) s' x ->
  exists lst, tsent s' = tsent s ++ lst /\
    (x = TEnd /\ lst = [] /\ ~ stage_ok st n \/ (x = TEnd \/ x = TSink) /\ length lst = 1 /\ stage_ok st n).
Proof. exact (after_stop sink q st s n a ks s' x). Qed.
Print Assumptions C125_after.

(** A sink that raises at elements with children. *)
Definition c125_fun (i : ref) (h : heap) : bool := match hp h i with Some (OElem _ _ (_ :: _) _) => true | _ => false end.
Definition c125_pat : list stage := [nm "a"; nm "b"].
Definition c125_next (s : tstate) (t : xtree) : tstate * tend :=
  match shandle1 c125_fun (stateses [c125_pat]) (new_handler s) (doc_events t) with Some r => r | None => (s, TExn TypeErr) end.
Lemma c125_runs s t r : c125_next s t = r -> snd r <> TExn TypeErr ->
  shandle (stops c125_fun) (stateses [c125_pat]) (new_handler s) (doc_events t) (fst r) (snd r).
Proof.
  intros <- Hn. unfold c125_next in *. destruct (shandle1 _ _ _ _) as [[s' x]|] eqn:E; [apply shandle1_ok; exact E|cbn in Hn; congruence].
Qed.
Definition c125_s0 : tstate := new_sender_with empty_heap [] c125_pat.
Definition c125_doc1 : xtree := el "a" [el "b" []; el "b" [XT (lit "1")]; el "b" []].
Definition c125_doc2 : xtree := el "a" [el "b" []; el "b" []].
Definition c125_doc3 : xtree := el "b" [].
Definition c125_s1 : tstate := fst (c125_next c125_s0 c125_doc1).
Definition c125_s2 : tstate := fst (c125_next c125_s1 c125_doc2).
Definition c125_s3 : tstate := fst (c125_next c125_s2 c125_doc3).
Lemma c125_stopped : stopped (stops c125_fun) c125_pat c125_s1 /\ stopped (stops c125_fun) c125_pat c125_s2.
Proof.
  assert (H1 : stopped (stops c125_fun) c125_pat c125_s1).
  { apply (st_first _ _ c125_s0 c125_doc1); [constructor|repeat eexists|]. exact (c125_runs c125_s0 c125_doc1 _ eq_refl ltac:(vm_compute; discriminate)). }
  split; [exact H1|]. apply (st_later _ _ c125_s1 c125_doc2 _ TEnd H1); [repeat eexists|]. exact (c125_runs c125_s1 c125_doc2 _ eq_refl ltac:(vm_compute; discriminate)).
Qed.
(** Two of three elements are sent; of a second document with two matches none; and the document
    [<b/>], which has no match, is sent as a child of the element at which the sink raised. *)
Example C125_case :
  no_deep c125_pat /\
  shandle (stops c125_fun) (stateses [c125_pat]) (new_handler c125_s0) (doc_events c125_doc1) c125_s1 TSink /\
  map fst (tsent c125_s1) = [(0, Some 0); (0, Some 1)] /\
  shandle (stops c125_fun) (stateses [c125_pat]) (new_handler c125_s1) (doc_events c125_doc2) c125_s2 TEnd /\
  tsent c125_s2 = tsent c125_s1 /\
  shandle (stops c125_fun) (stateses [c125_pat]) (new_handler c125_s2) (doc_events c125_doc3) c125_s3 TEnd /\
  map fst (tsent c125_s3) = [(0, Some 0); (0, Some 1); (0, Some 3)] /\
  map (hp (theap c125_s3)) [1; 2; 3] = [Some (OElem (lit "b") [] [2; 3] None); Some (OText (lit "1") (Some 1)); Some (OElem (lit "b") [] [] (Some 1))].
Proof.
  split; [no_such|]. split; [exact (c125_runs c125_s0 c125_doc1 _ eq_refl ltac:(vm_compute; discriminate))|]. split; [vm_compute; reflexivity|].
  split; [exact (c125_runs c125_s1 c125_doc2 _ eq_refl ltac:(vm_compute; discriminate))|]. split; [vm_compute; reflexivity|].
  split; [exact (c125_runs c125_s2 c125_doc3 _ eq_refl ltac:(vm_compute; discriminate))|]. split; vm_compute; reflexivity.
Qed.
(** So a sender whose sink has raised cannot be used again, whatever the sink does then. *)
Theorem C125_again_refuted : exists sink p s t s' a u, no_deep p /\ stopped sink p s /\
  shandle sink (stateses [p]) (new_handler s) (doc_events t) s' TEnd /\
  subtree t a = Some u /\ is_element u /\ matches p (path_names t a) /\ tsent s' = tsent s.
Proof.
  exists (stops c125_fun), c125_pat, c125_s1, c125_doc2, c125_s2, [0], (el "b" []). split; [no_such|]. split; [exact (proj1 c125_stopped)|].
  split; [apply C125_case|]. split; [reflexivity|]. split; [repeat eexists|]. split; [|vm_compute; reflexivity]. repeat constructor.
Qed.
Print Assumptions C125_again_refuted.

(** A sink that raises when it gets an element with children or a parent, and otherwise does nothing, is one of those of [C125_until]. *)
Definition c125_careful (i : ref) (h : heap) : bool := orb (c125_fun i h) (match xml_parent h i with Some _ => true | None => false end).
Example C125_until_case : stop_loose (stops c125_careful) /\ fed (stops c125_careful) c125_pat c125_s0 /\
  exists s', shandle (stops c125_careful) (stateses [c125_pat]) (new_handler c125_s0) (doc_events c125_doc1) s' TSink /\ length (tsent s') = 2.
Proof.
  split; [|split; [constructor|]].
  - intros ix i h k h' k' (j & E & -> & _ & F). injection E as <-. unfold c125_careful in F. symmetry in F. apply Bool.orb_false_iff in F as [_ F].
    destruct (xml_parent h i); [discriminate|reflexivity].
  - destruct (shandle1 c125_careful (stateses [c125_pat]) (new_handler c125_s0) (doc_events c125_doc1)) as [[s' x]|] eqn:E; [|exfalso; revert E; vm_compute; discriminate].
    pose proof (shandle1_ok _ _ _ _ _ _ E) as H. exists s'. revert E. vm_compute. intros E. injection E as E1 E2. rewrite <- E2 in H. split; [exact H|].
    rewrite <- E1. reflexivity.
Qed.

(** With any number of patterns: the sink raises at the end tag that completes an element; the patterns
    before it have seen the event, the later ones have not (the event stack, which they share, has been
    popped for the former only), and nothing is sent after that. *)
Theorem C125_where sink ss evs s s' : shandle sink ss s evs s' TSink -> exists e1 n anc e2 s1 ix more o h,
  evs = e1 ++ EvEnd n anc :: e2 /\ shandle sink ss s e1 s1 TEnd /\ ix < length ss /\
  tsent s' = tsent s1 ++ more ++ [(ix, o, h)] /\ (forall y, In y more -> fst (fst y) < ix) /\
  S ix <= length (cstack (tctl s1)) /\ cstack (tctl s') = firstn (length (cstack (tctl s1)) - S ix) (cstack (tctl s1)) /\
  nth ix (cdepths (tctl s1)) 0 = 1 /\ nth ix (cdepths (tctl s')) 0 = 0 /\ forall j, ix < j -> nth j (cdepths (tctl s')) 0 = nth j (cdepths (tctl s1)) 0.
Proof. exact (stop_where sink ss evs s s'). Qed.
Print Assumptions C125_where.
(** Two patterns for the root element; the sink raises for the first. *)
Example C125_where_case : exists s', shandle (stops c125_fun) (stateses [[nm "a"]; [nm "a"; nm "a"]]) (new_handler (new_sender empty_heap [[nm "a"]; [nm "a"; nm "a"]])) (doc_events (el "a" [XT (lit "1")])) s' TSink /\
  map fst (tsent s') = [(0, Some 0)] /\ tctl s' = mkC [lit "a"] [0; 0].
Proof.
  destruct (shandle1 c125_fun (stateses [[nm "a"]; [nm "a"; nm "a"]]) (new_handler (new_sender empty_heap [[nm "a"]; [nm "a"; nm "a"]])) (doc_events (el "a" [XT (lit "1")]))) as [[s' x]|] eqn:E; [|exfalso; revert E; vm_compute; discriminate].
  pose proof (shandle1_ok _ _ _ _ _ _ E) as H. exists s'. revert E. vm_compute. intros E. injection E as E1 E2. rewrite <- E2 in H. split; [exact H|]. rewrite <- E1. split; reflexivity.
Qed.
