(** C118: which elements share their attributes. *)
From Verif Require Import PyStr Parser XTree Heap Builder HeapSpec BuilderMore Pattern TreeIter AttrCells AttrCellsSpec AttrCellsFacts.

(** Changing the attributes of an element that a treebuilder made changes no other element. *)
Theorem C118_builder h k s cs r q : built h k s cs -> r <> q -> kept_apart cs (bheap s) r q.
Proof. exact (c118_builder h k s cs r q). Qed.
(** The same for a sender with one pattern. *)
Theorem C118_one h p k s cs r q : well_linked h -> served h [p] k s cs -> r <> q -> kept_apart cs (theap s) r q.
Proof. exact (c118_one h p k s cs r q). Qed.
(** With several patterns: within one tree. *)
Theorem C118_tree h ps k s cs top r q : well_linked h -> served h ps k s cs ->
  below (theap s) top r -> below (theap s) top q -> r <> q -> kept_apart cs (theap s) r q.
Proof. exact (c118_tree h ps k s cs top r q). Qed.
(** Elements of two trees are independent or have the same attributes for ever. *)
Theorem C118_either h ps k s cs r q : well_linked h -> served h ps k s cs -> r <> q ->
  (exists a, has_attributes (theap s) r a) -> (exists a, has_attributes (theap s) q a) ->
  kept_apart cs (theap s) r q \/ tied cs (theap s) r q.
Proof. exact (c118_either h ps k s cs r q). Qed.
(** The element itself is changed. *)
Theorem C118_own cs h r f a : has_attributes h r a -> has_attributes (change cs h r f) r (f a).
Proof. exact (c118_own cs h r f a). Qed.
(** All the executions of the models of [parse] are among these. *)
Theorem C118_parses h ps k s cs doc s' x : served h ps k s cs -> send_parse ps s doc s' x -> exists k' cs', served h ps k' s' cs'.
Proof. exact (c118_parses h ps k s cs doc s' x). Qed.
Theorem C118_builds h k s cs : built h k s cs ->
  (forall doc s' r, tree_parse s doc s' r -> exists k' cs', built h k' s' cs') /\
  (forall evs s' r, xml_tree_parse s evs s' r -> exists k' cs', built h k' s' cs').
Proof. exact (c118_builds h k s cs). Qed.
(** Trees of two patterns do share: what the first sink does to attributes, the second one
    receives (and whatever it does is done to the first tree). *)
Theorem C118_apart_refuted n a f : a <> [] -> exists k s cs h0 h1,
  served empty_heap [[StName n]; [StName n]] k s cs /\ tsent s = [(0, Some 0, h0); (1, Some 1, h1)] /\
  has_attributes h0 0 a /\ has_attributes h0 1 a /\ tied cs h0 0 1 /\ has_attributes h1 1 (f a).
Proof. exact (c118_leak n a f). Qed.

(** <b i="1"><b i="2"/></b> with the pattern (b): the two elements of the tree that is built. *)
Example C118_case :
  let p := [StName (lit "b")] in let at1 v := [(lit "i", v)] in
  exists k s cs, served empty_heap [p] k s cs /\ troots s = [Some 0] /\ below (theap s) 0 0 /\ below (theap s) 0 1 /\
    has_attributes (theap s) 0 (at1 (lit "1")) /\ has_attributes (theap s) 1 (at1 (lit "2")) /\
    has_attributes (change cs (theap s) 0 (fun _ => [])) 0 [] /\ has_attributes (change cs (theap s) 0 (fun _ => [])) 1 (at1 (lit "2")).
Proof.
  cbv zeta. set (p := [StName (lit "b")]). set (b := lit "b"). set (a1 := [(lit "i", lit "1")]). set (a2 := [(lit "i", lit "2")]).
  set (l1 := [TLoad 0; TNewElem b a1; TAppendElem; TDown 0; TRoot 0]). set (l2 := [TLoad 0; TNewElem b a2; TAppendElem; TDown 0]).
  set (g1 := go 0 (fun _ => None) l1 (new_sender empty_heap [p]) OfElem).
  set (s1 := set_ctl (fst g1) (mkC [b] [1])).
  set (g2 := go 1 (fun _ => None) l2 s1 (snd g1)).
  exists 2, (set_ctl (fst g2) (mkC [b; b] [2])), (snd g2). split.
  - apply (sv_event _ _ 1 s1 (snd g1) (EvStart b a2 []) l2 _ None); [|reflexivity|apply go_cruns].
    apply (sv_event _ _ 0 (new_sender empty_heap [p]) OfElem (EvStart b a1 []) l1 _ None); [apply sv_new|reflexivity|apply go_cruns].
  - split; [reflexivity|]. split; [constructor|]. split; [eapply be_kid; [apply be_refl|]; eexists; split; [reflexivity|left; reflexivity]|].
    split; [exists b, [1], None; reflexivity|]. split; [exists b, [], (Some 0); reflexivity|]. split; [exists b, [1], None; reflexivity|exists b, [], (Some 0); reflexivity].
Qed.

Print Assumptions C118_builder.
Print Assumptions C118_one.
Print Assumptions C118_tree.
Print Assumptions C118_either.
Print Assumptions C118_own.
Print Assumptions C118_parses.
Print Assumptions C118_builds.
Print Assumptions C118_apart_refuted.
