(** Properties C20-C34 and C79 (tree.py, xml.treebuilder).  The specifications are in
    TreeSpec.v, HeapSpec.v, XTree.v and Grammar.v. *)
From Verif Require Import PyStr CharClass Parser XTree Grammar ParserSpec.
From Verif Require Import Tree TreeSpec TreeFacts TreeMore Heap Builder HeapSpec BuilderFacts HeapFacts BuilderMore.

(** The execution without any garbage collection, for examples. *)
Definition plain_run (s : bstate) (evs : list event) : bstate :=
  fold_left (fun s st => exec st s) (flat_map handler_stmts evs) s.

(** ** C20 *)
Theorem C20_tree_of_document text t : lenient_doc text t ->
  (forall s, exists s' r, tree_parse s text s' r) /\
  (forall s s' r, tree_parse s text s' r ->
     exists i, r = Some i /\ nxt (bheap s) <= i /\ holds_tree (bheap s') i t).
Proof. exact (tree_of_document text t). Qed.
Print Assumptions C20_tree_of_document.
(** [holds_tree] determines the tree. *)
Theorem C20_tree_unique h i t t' : holds_tree h i t -> holds_tree h i t' -> t' = t.
Proof. exact (holds_tree_det h i t t'). Qed.
Print Assumptions C20_tree_unique.
Example C20_case : let s := plain_run (new_builder empty_heap) (fst (feed [lit "<a x='1'>t<b></b>u</a>"])) in
  broot s = Some 0 /\ map (hp (bheap s)) [0; 1; 2; 3; 4] =
    [Some (OElem (lit "a") [(lit "x", lit "1")] [1; 2; 3] None); Some (OText (lit "t") (Some 0));
     Some (OElem (lit "b") [] [] (Some 0)); Some (OText (lit "u") (Some 0)); None].
Proof. vm_compute. split; reflexivity. Qed.

(** ** C21 *)
Theorem C21_reuse s1 s2 text s1' r1 s2' r2 : tree_parse s1 text s1' r1 -> tree_parse s2 text s2' r2 ->
  same_result s1' r1 s2' r2.
Proof. exact (tree_parse_same s1 s2 text s1' r1 s2' r2). Qed.
Print Assumptions C21_reuse.
Theorem C21_returns s1 s2 text s1' r1 : tree_parse s1 text s1' r1 -> exists s2' r2, tree_parse s2 text s2' r2.
Proof. exact (tree_parse_returns s1 s2 text s1' r1). Qed.
Print Assumptions C21_returns.
(** Trees built before are not touched. *)
Theorem C21_frame s text s' r : allocated (bheap s) -> tree_parse s text s' r -> old_kept (bheap s) (bheap s').
Proof. exact (tree_parse_frame s text s' r). Qed.
Print Assumptions C21_frame.
Example C21_case : exists s1 r1 s2 r2, tree_parse (new_builder empty_heap) (lit "<a><b>x") s1 r1 /\
  tree_parse s1 (lit "<c></c>") s2 r2 /\ r1 = Some 0 /\ r2 = Some 2.
Proof.
  exists (plain_run (new_builder empty_heap) (fst (feed [lit "<a><b>x"]))), (Some 0).
  eexists (plain_run (reset (plain_run (new_builder empty_heap) (fst (feed [lit "<a><b>x"])))) (fst (feed [lit "<c></c>"]))), (Some 2).
  split; [|split; [|split; reflexivity]].
  - refine (tp _ _ _ _ _ _ (runs_exec _ _)). vm_compute. reflexivity.
  - refine (tp _ _ _ _ _ _ (runs_exec _ _)). vm_compute. reflexivity.
Qed.

(** ** C22 *)
Theorem C22_second_parse h t1 s1 r1 evs s2 r2 : (exists n a ks, t1 = XE n a ks) -> allocated h ->
  xml_tree_parse (new_builder h) (doc_events t1) s1 r1 -> xml_tree_parse s1 evs s2 r2 ->
  exists i, r1 = Some i /\ r2 = Some i /\ holds_tree (bheap s1) i t1 /\ holds_tree (bheap s2) i t1.
Proof. exact (xml_second_parse h t1 s1 r1 evs s2 r2). Qed.
Print Assumptions C22_second_parse.
(** In any state with a root. *)
Theorem C22_root_kept s evs s' r i : broot s = Some i -> xml_tree_parse s evs s' r -> r = Some i.
Proof. exact (xml_root_kept s evs s' r i). Qed.
Print Assumptions C22_root_kept.
(** After a truncated document the second document is grafted into the first one. *)
Theorem C22_graft h evs n open t2 s1 r1 s2 r2 : document_events evs (n :: open) -> (exists m a ks, t2 = XE m a ks) ->
  xml_tree_parse (new_builder h) evs s1 r1 -> xml_tree_parse s1 (doc_events t2) s2 r2 ->
  exists i t, r2 = Some i /\ holds_tree (bheap s2) i t /\ partial_tree (evs ++ tree_events (rev (n :: open)) t2) t.
Proof. exact (xml_graft h evs n open t2 s1 r1 s2 r2). Qed.
Print Assumptions C22_graft.
Theorem C22_reuse_refuted : exists t1 t2 s1 r1 s2 i, t1 <> t2 /\
  xml_tree_parse (new_builder empty_heap) (doc_events t1) s1 r1 /\ xml_tree_parse s1 (doc_events t2) s2 (Some i) /\
  holds_tree (bheap s2) i t1.
Proof.
  set (t1 := XE (lit "a") [] []). set (t2 := XE (lit "b") [] []).
  set (s1 := plain_run (new_builder empty_heap) (doc_events t1)).
  assert (H1 : xml_tree_parse (new_builder empty_heap) (doc_events t1) s1 (broot s1)) by (constructor; apply runs_exec).
  set (s2 := plain_run (mkB (bheap s1) (broot s1) (bpar s1) None None) (doc_events t2)).
  assert (H2 : xml_tree_parse s1 (doc_events t2) s2 (broot s2)) by (constructor; apply runs_exec).
  destruct (xml_second_parse empty_heap t1 s1 _ _ s2 _ ltac:(unfold t1; eauto) ltac:(intros j o H; discriminate) H1 H2) as (i & E1 & E2 & _ & Hh).
  exists t1, t2, s1, (broot s1), s2, i. split; [discriminate|]. split; [exact H1|]. split; [rewrite <- E2; exact H2|exact Hh].
Qed.
Print Assumptions C22_reuse_refuted.
Example C22_case_graft : document_events [EvStart (lit "a") [] []] [lit "a"].
Proof. exists (lit "a"), [], []. split; [reflexivity|constructor]. Qed.

(** ** C23 *)
Theorem C23_gc_independent s evs s1 s2 : broot s = None -> bpar s = None -> well_nested_prefix evs ->
  run_events s evs s1 -> run_events s evs s2 -> same_result s1 (broot s1) s2 (broot s2).
Proof. exact (gc_independent s evs s1 s2). Qed.
Print Assumptions C23_gc_independent.
(** The tree is that of the events so far, and the parent that the builder follows is alive. *)
Theorem C23_tree_so_far s evs t s' : broot s = None -> bpar s = None -> partial_tree evs t -> run_events s evs s' ->
  exists i, broot s' = Some i /\ nxt (bheap s) <= i /\ holds_tree (bheap s') i t.
Proof. exact (build_partial s evs t s'). Qed.
Print Assumptions C23_tree_so_far.
Theorem C23_current_parent s evs open s' : broot s = None -> bpar s = None -> document_events evs open -> run_events s evs s' ->
  match open with
  | [] => bpar s' = None
  | n :: _ => exists i a ks p, bpar s' = Some i /\ hp (bheap s') i = Some (OElem n a ks p)
  end.
Proof. exact (current_parent s evs open s'). Qed.
Print Assumptions C23_current_parent.
Theorem C23_every_prefix evs : well_nested_prefix evs -> evs <> [] -> exists t, partial_tree evs t.
Proof. exact (nested_partial evs). Qed.
Print Assumptions C23_every_prefix.
(** A collection that matters: an object left over from an earlier document disappears. *)
Example C23_case : exists s s', collect s s' /\ (exists i, hp (bheap s) i <> None /\ hp (bheap s') i = None) /\ broot s <> None.
Proof.
  set (h := mkH (fun j => match j with 0 => Some (OElem (lit "old") [] [] None) | 1 => Some (OElem (lit "a") [] [] None) | _ => None end) 2).
  set (h' := mkH (fun j => match j with 1 => Some (OElem (lit "a") [] [] None) | _ => None end) 2).
  exists (mkB h (Some 1) (Some 1) (Some 1) None), (mkB h' (Some 1) (Some 1) (Some 1) None).
  split; [|split; [exists 0; split; [discriminate|reflexivity]|discriminate]].
  split; [|repeat split]. split; [reflexivity|]. intros [|[|i]]; [right|left|left]; try reflexivity.
  split; [reflexivity|]. assert (G : forall i, reach h [1; 1; 1] i -> i = 1).
  { intros i Hr. induction Hr as [i [<-|[<-|[<-|[]]]]|i j o Hr IH Ho Hj]; auto. subst i. cbn in Ho. inversion Ho; subst. destruct Hj. }
  intros H. apply G in H. discriminate.
Qed.

(** ** C24 *)
Theorem C24_round_trip n a ks : writable (XE n a ks) ->
  (forall s, exists s' r, tree_parse s (xml_encode (XE n a ks)) s' r) /\
  (forall s s' r, tree_parse s (xml_encode (XE n a ks)) s' r ->
     exists i, r = Some i /\ holds_tree (bheap s') i (normal (XE n a ks))).
Proof. exact (round_trip n a ks). Qed.
Print Assumptions C24_round_trip.
Theorem C24_exact n a ks : writable (XE n a ks) -> normalised (XE n a ks) -> forall s s' r,
  tree_parse s (xml_encode (XE n a ks)) s' r -> exists i, r = Some i /\ holds_tree (bheap s') i (XE n a ks).
Proof. exact (round_trip_exact n a ks). Qed.
Print Assumptions C24_exact.
(** What comes back is normalised, and normalisation does nothing more. *)
Theorem C24_normal t : normalised (normal t) /\ (normalised t -> normal t = t).
Proof. exact (conj (normal_normalised t) (normal_id t)). Qed.
Print Assumptions C24_normal.
Example C24_case : let t := XE (lit "a") [(lit "x", lit "<&'>")] [XT (lit "1<2"); XT (lit "&"); XE (lit "b") [] []; XT []] in
  writable t /\ normal t = XE (lit "a") [(lit "x", lit "<&'>")] [XT (lit "1<2&"); XE (lit "b") [] []].
Proof.
  assert (N : forall c, is_namestart c = true -> name [c]) by (intros c H; exists c, []; repeat split; auto; intros x []).
  split; [|vm_compute; reflexivity]. constructor.
  - apply N. reflexivity.
  - repeat constructor. intros [].
  - intros k v [E|[]]. inversion E; subst. split; [apply N; reflexivity|].
    repeat split; intros H; cbn in H; decompose [or] H; try discriminate; auto.
  - intros k [<-|[<-|[<-|[<-|[]]]]]; constructor; try (intros ? []; fail); try (intros ? ? []; fail); [apply N; reflexivity|constructor].
Qed.

(** ** C25 *)
Theorem C25_break_lost t : named t -> has_line_break_value t ->
  (forall s, exists s' r, tree_parse s (xml_encode t) s' r) /\
  (forall s s' r, tree_parse s (xml_encode t) s' r ->
     r = None \/ exists i t', r = Some i /\ holds_tree (bheap s') i t' /\ ~ has_line_break_value t').
Proof. exact (break_lost t). Qed.
Print Assumptions C25_break_lost.
Theorem C25_incomplete t : named t -> has_line_break_value t -> forall k,
  exists evs g, feed [xml_encode t ++ k] = (evs, Suspended g) /\ ~ complete_document evs /\ plain_events evs.
Proof. exact (break_incomplete t). Qed.
Print Assumptions C25_incomplete.
Example C25_case : let t := XE (lit "a") [(lit "x", [c_nl])] [] in
  named t /\ has_line_break_value t /\ xml_encode t = lit "<a x=""&#10;""></a>".
Proof.
  assert (N : forall c, is_namestart c = true -> name [c]) by (intros c H; exists c, []; repeat split; auto; intros x []).
  split; [|split; [|vm_compute; reflexivity]].
  - constructor; [apply N; reflexivity|repeat constructor; intros []| |intros k []]. intros k v [E|[]]. inversion E; subst. apply N; reflexivity.
  - eapply hl_here; [left; reflexivity|]. intros (_ & H & _). apply H. left; reflexivity.
Qed.

(** ** C26 *)
Theorem C26_injective n a ks n' a' ks' :
  writable (XE n a ks) -> writable (XE n' a' ks') -> normalised (XE n a ks) -> normalised (XE n' a' ks') ->
  xml_encode (XE n a ks) = xml_encode (XE n' a' ks') -> XE n a ks = XE n' a' ks'.
Proof. exact (encode_injective n a ks n' a' ks'). Qed.
Print Assumptions C26_injective.
(** Without normalisation it is not injective. *)
Theorem C26_not_normalised_refuted : exists t t', writable t /\ writable t' /\ t <> t' /\ xml_encode t = xml_encode t'.
Proof.
  exists (XE (lit "a") [] [XT (lit "x"); XT (lit "y")]), (XE (lit "a") [] [XT (lit "xy")]).
  assert (N : name (lit "a")) by (exists 97%N, []; repeat split; intros x []).
  split; [|split; [|split; [discriminate|vm_compute; reflexivity]]]; (apply wr_elem; [exact N|constructor|intros ? ? []|]).
  - intros k [<-|[<-|[]]]; constructor.
  - intros k [<-|[]]; constructor.
Qed.
Print Assumptions C26_not_normalised_refuted.

(** ** C27 *)
Theorem C27_value t : (forall anc, xml_value t = flat_map event_text (tree_events anc t)) /\ strval t = xml_value t.
Proof. exact (conj (xml_value_text t) (strval_value t)). Qed.
Print Assumptions C27_value.
Example C27_case : xml_value (XE (lit "a") [] [XT (lit "x"); XE (lit "b") [] [XT (lit "y"); XE (lit "c") [] []]; XT (lit "z")]) = lit "xyz".
Proof. vm_compute. reflexivity. Qed.

(** ** C28 *)
Theorem C28_insert_element h self n a ks p i index : hp h self = Some (OElem n a ks p) -> is_elem h i -> i <> self ->
  exists h', xml_insert h self (ARef i) index = EOk h' /\
    hp h' self = Some (OElem n a (firstn (position index (length ks)) ks ++ i :: skipn (position index (length ks)) ks) p) /\
    (forall o, hp h i = Some o -> hp h' i = Some (set_parent o (Some self))) /\
    (forall j, j <> self -> j <> i -> hp h' j = hp h j).
Proof. exact (insert_elem_at h self n a ks p i index). Qed.
Print Assumptions C28_insert_element.
Theorem C28_insert_text h self n a ks p c s index : hp h self = Some (OElem n a ks p) -> allocated h ->
  (c = AStr s \/ exists i, c = ARef i /\ is_text h i s) ->
  exists h', xml_insert h self c index = EOk h' /\
    hp h' self = Some (OElem n a (firstn (position index (length ks)) ks ++ nxt h :: skipn (position index (length ks)) ks) p) /\
    hp h (nxt h) = None /\ hp h' (nxt h) = Some (OText s (Some self)) /\
    (forall j, j <> self -> j <> nxt h -> hp h' j = hp h j).
Proof. exact (insert_text_at h self n a ks p c s index). Qed.
Print Assumptions C28_insert_text.
Theorem C28_append h self c : xml_append h self c = xml_insert h self c (-1) /\ (forall len, position (-1) len = len).
Proof. exact (conj eq_refl (fun len => eq_refl)). Qed.
Print Assumptions C28_append.
Theorem C28_positions index len : (0 <= index -> Z.of_nat (position index len) = Z.min index (Z.of_nat len))%Z /\
  (index < -1 -> Z.of_nat (position index len) = Z.max 0 (index + Z.of_nat len))%Z.
Proof. exact (position_cases index len). Qed.
Print Assumptions C28_positions.
Definition pair_heap : heap := mkH (fun j => match j with
  | 0 => Some (OElem (lit "a") [] [1; 2] None) | 1 => Some (OText (lit "t") (Some 0))
  | 2 => Some (OElem (lit "b") [] [3] (Some 0)) | 3 => Some (OText (lit "t") (Some 2))
  | 4 => Some (OElem (lit "c") [] [] None) | _ => None end) 5.
Example C28_case : forall h', xml_insert pair_heap 0 (ARef 4) (-2) = EOk h' -> hp h' 0 = Some (OElem (lit "a") [] [4; 1; 2] None).
Proof. vm_compute. intros h' H. inversion H; subst. reflexivity. Qed.

(** ** C29 *)
Theorem C29_remove_child h self n a k1 i k2 p : hp h self = Some (OElem n a (k1 ++ i :: k2) p) -> is_elem h i -> i <> self -> ~ In i k1 ->
  exists h', xml_remove h self (ARef i) = EOk h' /\ hp h' self = Some (OElem n a (k1 ++ k2) p) /\
    (forall o, hp h i = Some o -> hp h' i = Some (set_parent o None)) /\
    (forall j, j <> self -> j <> i -> hp h' j = hp h j).
Proof. exact (remove_elem_at h self n a k1 i k2 p). Qed.
Print Assumptions C29_remove_child.
Theorem C29_not_a_child h self n a ks p i : hp h self = Some (OElem n a ks p) -> is_elem h i -> ~ In i ks ->
  xml_remove h self (ARef i) = EExn h ValueErr_.
Proof. exact (remove_elem_error h self n a ks p i). Qed.
Print Assumptions C29_not_a_child.
(** Insertion followed by removal restores the children. *)
Theorem C29_insert_remove h self n a ks p i index h1 : hp h self = Some (OElem n a ks p) -> is_elem h i -> i <> self -> ~ In i ks ->
  xml_insert h self (ARef i) index = EOk h1 ->
  exists h2, xml_remove h1 self (ARef i) = EOk h2 /\ hp h2 self = hp h self /\ (forall j, j <> i -> hp h2 j = hp h j).
Proof. exact (insert_remove h self n a ks p i index h1). Qed.
Print Assumptions C29_insert_remove.
Example C29_case : forall h', xml_remove pair_heap 0 (ARef 2) = EOk h' ->
  hp h' 0 = Some (OElem (lit "a") [] [1] None) /\ hp h' 2 = Some (OElem (lit "b") [] [3] None).
Proof. vm_compute. intros h' H. inversion H; subst. split; reflexivity. Qed.

(** ** C30 *)
Theorem C30_wrong_text_removed h self n a k1 j k2 c k3 p s : hp h self = Some (OElem n a (k1 ++ j :: k2 ++ c :: k3) p) ->
  is_text h j s -> is_text h c s -> j <> c -> (forall x, In x k1 -> ~ is_text h x s) ->
  exists h', xml_remove h self (ARef c) = EOk h' /\
    hp h' self = Some (OElem n a (k1 ++ k2 ++ c :: k3) p) /\ hp h' c = Some (OText s None) /\
    forall x, x <> self -> x <> c -> hp h' x = hp h x.
Proof. exact (remove_text_first h self n a k1 j k2 c k3 p s). Qed.
Print Assumptions C30_wrong_text_removed.
(** So parent and child links may disagree after removing a text child. *)
Theorem C30_links_refuted : exists h self c h', well_linked h /\ child h self c /\ xml_remove h self (ARef c) = EOk h' /\
  child h' self c /\ parent_is h' c None.
Proof. exact text_removal_breaks. Qed.
Print Assumptions C30_links_refuted.
(** A plain string cannot be removed. *)
Theorem C30_str h self n a ks p s : hp h self = Some (OElem n a ks p) -> exists e, xml_remove h self (AStr s) = EExn h e.
Proof. exact (remove_str h self n a ks p s). Qed.
Print Assumptions C30_str.

(** ** C31 *)
Theorem C31_copy h self n a ks p i s index : hp h self = Some (OElem n a ks p) -> allocated h -> is_text h i s ->
  exists h', xml_insert h self (ARef i) index = EOk h' /\ hp h' i = hp h i /\ hp h (nxt h) = None /\ child h' self (nxt h) /\
    parent_is h' (nxt h) (Some self) /\ (child h' self i <-> child h self i).
Proof. exact (insert_text_copy h self n a ks p i s index). Qed.
Print Assumptions C31_copy.
Example C31_case : forall h', xml_insert pair_heap 4 (ARef 1) 0 = EOk h' ->
  hp h' 4 = Some (OElem (lit "c") [] [5] None) /\ hp h' 5 = Some (OText (lit "t") (Some 4)) /\ hp h' 1 = Some (OText (lit "t") (Some 0)).
Proof. vm_compute. intros h' H. inversion H; subst. repeat split. Qed.

(** ** C32 *)
Theorem C32_editing h : edits empty_heap h -> well_linked h.
Proof. exact (editing_well_linked h). Qed.
Print Assumptions C32_editing.
Theorem C32_from_any h h' : well_linked h -> edits h h' -> well_linked h'.
Proof. exact (edits_well_linked h h'). Qed.
Print Assumptions C32_from_any.
Theorem C32_no_parent h i : well_linked h -> (exists o, hp h i = Some o) -> (forall p, ~ child h p i) -> parent_is h i None.
Proof. exact (orphan_no_parent h i). Qed.
Print Assumptions C32_no_parent.
Example C32_case : exists h, edits empty_heap h /\
  map (hp h) [0; 1; 2; 3] = [Some (OElem (lit "a") [] [2] None); Some (OElem (lit "b") [] [] None); Some (OText (lit "t") (Some 0)); None].
Proof.
  eexists. split.
  - eapply eds_cons; [apply (ed_new_elem empty_heap (lit "a") [])|].
    eapply eds_cons; [apply (ed_new_elem _ (lit "b") [])|].
    eapply eds_cons; [eapply (ed_insert_elem _ 0 1 (-1)); [do 4 eexists; reflexivity|eexists; split; reflexivity| |vm_compute; reflexivity]|].
    { intros H. inversion H as [|q j x H1 (o & Ho & Hin)]; subst. revert H1. destruct j as [|[|j]]; cbn in Ho; inversion Ho; subst; destruct Hin. }
    eapply eds_cons; [eapply (ed_insert_text _ 0 (AStr (lit "t")) (lit "t") 0); [left; reflexivity|vm_compute; reflexivity]|].
    eapply eds_cons; [eapply (ed_remove_elem _ 0 1); [do 4 eexists; reflexivity|vm_compute; reflexivity]|].
    apply eds_nil.
  - vm_compute. reflexivity.
Qed.

(** ** C33 *)
Theorem C33_two_parents h self q i index h' : self <> q -> is_elem h i -> i <> q -> child h q i ->
  xml_insert h self (ARef i) index = EOk h' -> child h' q i /\ child h' self i /\ parent_is h' i (Some self).
Proof. exact (insert_two_parents h self q i index h'). Qed.
Print Assumptions C33_two_parents.
Theorem C33_cycle h self i index h' : linked h -> is_elem h i -> parent_is h i None -> below h i self ->
  xml_insert h self (ARef i) index = EOk h' -> child h' self i /\ below h' i self /\ forall p t ids, ~ holds h' p i t ids.
Proof. exact (insert_cycle h self i index h'). Qed.
Print Assumptions C33_cycle.
Example C33_cycle_case : exists h, linked h /\ is_elem h 0 /\ parent_is h 0 None /\ below h 0 0 /\ exists h', xml_insert h 0 (ARef 0) 0 = EOk h'.
Proof.
  exists (fst (alloc empty_heap (OElem (lit "a") [] [] None))). split; [|split; [|split; [|split]]].
  - apply (editing_well_linked _ (eds_cons _ _ _ (ed_new_elem empty_heap (lit "a") []) (eds_nil _))).
  - do 4 eexists; reflexivity.
  - eexists; split; reflexivity.
  - constructor.
  - eexists. reflexivity.
Qed.
Theorem C33_refuted : exists h self i index h', well_linked h /\ is_elem h i /\
  xml_insert h self (ARef i) index = EOk h' /\ ~ linked h'.
Proof. exact insert_breaks. Qed.
Print Assumptions C33_refuted.

(** ** C34 *)
Theorem C34_text s : ~ In c_lt (py_escape s) /\ ~ In c_gt (py_escape s) /\
  forall a b, py_escape s = a ++ c_amp :: b -> exists body rest x, b = body ++ c_semi :: rest /\ refers body x.
Proof. exact (escape_clean s). Qed.
Print Assumptions C34_text.
Theorem C34_value v : exists q raw, py_quoteattr v = q :: raw ++ [q] /\ is_quote q = true /\
  ~ In q raw /\ ~ In c_lt raw /\ ~ In c_gt raw.
Proof. exact (quoteattr_clean v). Qed.
Print Assumptions C34_value.
Example C34_case : py_quoteattr (lit "a""b'<") = lit """a&quot;b'&lt;""" /\ py_escape (lit "]]>&lt;") = lit "]]&gt;&amp;lt;".
Proof. split; vm_compute; reflexivity. Qed.

(** ** C79 *)
Theorem C79_indentation indent n a ks : blank indent -> writable (XE n a ks) -> forall s s' r,
  tree_parse s (element_encode indent 0 (XE n a ks)) s' r ->
  exists i t, r = Some i /\ holds_tree (bheap s') i t /\
    skeleton (doc_events t) = skeleton (doc_events (normal (XE n a ks))).
Proof. exact (indent_round_trip indent n a ks). Qed.
Print Assumptions C79_indentation.
Theorem C79_returns indent n a ks : blank indent -> writable (XE n a ks) -> forall s,
  exists s' r, tree_parse s (element_encode indent 0 (XE n a ks)) s' r.
Proof. exact (indent_returns indent n a ks). Qed.
Print Assumptions C79_returns.
Example C79_case : element_encode (lit "  ") 0 (XE (lit "a") [] [XE (lit "b") [] [XT (lit "x")]]) =
  lit "<a>" ++ [c_nl] ++ lit "<b>" ++ [c_nl] ++ lit "  x</b>" ++ [c_nl] ++ lit "</a>".
Proof. vm_compute. reflexivity. Qed.
