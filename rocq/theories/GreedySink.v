(** Sinks that edit or raise, with '**' anywhere in the pattern: proofs. *)
From Verif Require Import PyStr Parser XTree Heap Builder HeapSpec Path Nodes Pattern PatternSpec PatternFacts TreeIter TreeIterSpec TreeIterFacts TreeIterMore.
From Verif Require Import TreeSink TreeSinkSpec TreeSinkFacts TreeSinkCollect SinkStop SinkStopSpec SinkStopFacts GreedySpec GreedyFacts.

Theorem loose_greedy sink p s t s' x : leaves_loose sink -> ~ ends_deep p -> p <> [] -> served_with sink p s -> is_element t ->
  whandle sink (stateses [p]) (new_handler s) (doc_events t) s' x ->
  x = None /\ served_with sink p s' /\
  exists l, listing t (fun a u => is_element u /\ greedy p (path_names t a)) l /\ sent_since s s' 0 (map snd l).
Proof.
  intros Hl Hd Hp Hs Ht Hh. destruct (loose_found _ _ _ _ _ _ Hl Hd Hp Hs Ht Hh) as (-> & Hs' & H). split; auto. split; auto.
  exists (found (hits (prep p)) [] t). split; auto. apply greedy_found; auto.
Qed.
Theorem until_greedy sink p s t s' x : stop_loose sink -> ~ ends_deep p -> p <> [] -> fed sink p s -> is_element t ->
  shandle sink (stateses [p]) (new_handler s) (doc_events t) s' x ->
  exists l, listing t (fun a u => is_element u /\ greedy p (path_names t a)) l /\
    (x = TEnd /\ sent_since s s' 0 (map snd l) \/
     x = TSink /\ exists l1 au l2, l = l1 ++ au :: l2 /\ sent_since s s' 0 (map snd (l1 ++ [au]))).
Proof.
  intros Hl Hd Hp Hs Ht Hh. exists (found (hits (prep p)) [] t). split; [apply greedy_found; auto|]. exact (until_found _ _ _ _ _ _ Hl Hd Hp Hs Ht Hh).
Qed.
Theorem collected_greedy p h c cn ca ck cp t s' x : ~ ends_deep p -> p <> [] -> is_element t ->
  hp h c = Some (OElem cn ca ck cp) -> c < nxt h ->
  whandle (appends_to c) (stateses [p]) (new_handler (new_sender_with h [c] p)) (doc_events t) s' x -> In c (tkept s') ->
  x = None /\ exists l is, listing t (fun a u => is_element u /\ greedy p (path_names t a)) l /\
    Forall2 (has_under (theap s') c) is (map snd l) /\
    hp (theap s') c = Some (OElem cn ca (ck ++ doubled is) cp).
Proof.
  intros Hd Hp Ht Hc Hn Hh Hk. destruct (collected_found p h c cn ca ck cp t s' x Hd Hp Ht Hc Hn Hh Hk) as (-> & is & H1 & H2). split; auto.
  exists (found (hits (prep p)) [] t), is. split; [apply greedy_found; auto|]. auto.
Qed.
