(** Iterators of treeutil.py over trees that are edited meanwhile: C134. *)
From Verif Require Import PyStr Parser XTree Tree Nodes Pattern TreeUtil Path Heap Builder BuilderFacts HeapSpec HeapFacts BuilderMore.
From Verif Require Import RootCache XPath HeapNav HeapNavSpec LiveIter LiveIterSpec LiveIterFacts LiveIterMore LiveIterTests LiveIterLoops LiveIterText.

(** ** C134 *)
(** What is still to come is determined by the tree as it is now and by the cursors; next()
    delivers the first of it. *)
Theorem C134_defined {T} (v : T -> heap -> ref -> act T) h st : well_linked h ->
  exists l e, future v h st l e /\ forall l' e', future v h st l' e' -> l' = l /\ e' = e.
Proof. intros W. destruct (future_total v h st W) as (l & e & F). exists l, e. split; [exact F|]. apply future_det. exact F. Qed.
Print Assumptions C134_defined.
Theorem C134_next {T} (v : T -> heap -> ref -> act T) h st l e : future v h st l e ->
  match l with
  | c :: l' => exists st', pulls v h st (Gives c st') /\ future v h st' l' e
  | [] => pulls v h st (if e then Fails else Ends)
  end /\ forall r r', pulls v h st r -> pulls v h st r' -> r = r'.
Proof. intros F. split; [exact (next_answers v h st l e F)|]. intros r r'. apply pulls_det. Qed.
Print Assumptions C134_next.
(** Without edits: all elements in document order, and what the filters leave of them. *)
Theorem C134_descendants h p r t ids f : holds h p r t ids ->
  future deep h [(r, 0, tt)] (filter (elem_of h) (tl ids)) false /\
  future (kept (chosen f) deep) h [(r, 0, tt)] (filter (chosen f h) (filter (elem_of h) (tl ids))) false.
Proof. intros H. split; [|apply future_kept]; eapply future_deep; eauto. Qed.
Print Assumptions C134_descendants.
Theorem C134_filter {T} (v : T -> heap -> ref -> act T) p h st l e : future v h st l e -> future (kept p v) h st (filter (p h) l) e.
Proof. exact (future_kept v p h st l e). Qed.
Print Assumptions C134_filter.
Theorem C134_children p h r i : future (flat p) h [(r, i, tt)] (filter (p h) (to_come h r i)) false.
Proof. exact (future_flat p h r i). Qed.
Print Assumptions C134_children.
Theorem C134_siblings h i st : siblings_from h i = Some st ->
  exists l, following_siblings h i = Some l /\ future (flat (fun _ _ => true)) h st l false.
Proof. exact (siblings_future h i st). Qed.
Print Assumptions C134_siblings.
(** The same nodes as the functions on trees deliver (C44, C45, C47). *)
Theorem C134_start h p r t ids : well_linked h -> holds h p r t ids ->
  starts h r deep tt (descendants t, false) /\
  starts h r (flat (chosen any_elem)) tt (select_elements (SrcElem t), false) /\
  (forall name, starts h r (flat (chosen (named name))) tt (select_name (SrcElem t) name, false)) /\
  (forall pat, starts h r (flat (chosen (matching pat))) tt (select_name_pattern (SrcElem t) pat, false)) /\
  (forall name val, starts h r (flat (chosen (having name val))) tt (select_attribute (SrcElem t) name val, false)) /\
  (forall val, starts h r (flat (valued val)) tt (select_value (SrcElem t) val, false)) /\
  (forall s, starts h r by_state s (select_state t s)).
Proof. exact (starts_all h p r t ids). Qed.
Print Assumptions C134_start.
(** Edits of the list that an iterator is on: an insertion behind the cursor brings the last child
    back, a removal behind it makes the iterator pass over the next child. *)
Theorem C134_insert h r x index h' : well_linked h -> xml_insert h r x index = EOk h' -> (forall i, x = ARef i -> is_elem h i -> i <> r) ->
  exists c, let q := position index (length (kids_of h r)) in
  (forall i, i <= q -> to_come h' r i = firstn (q - i) (to_come h r i) ++ c :: skipn (q - i) (to_come h r i)) /\
  (forall i y, q <= i -> nth_error (kids_of h r) i = Some y -> to_come h' r (S i) = y :: to_come h r (S i)) /\
  (forall i, length (kids_of h r) < i -> to_come h' r i = []) /\
  (forall j i, j <> r -> to_come h' j i = to_come h j i).
Proof. exact (insert_cursor h r x index h'). Qed.
Print Assumptions C134_insert.
Theorem C134_remove h r c h' k1 k2 : well_linked h -> is_elem h c -> kids_of h r = k1 ++ c :: k2 -> xml_remove h r (ARef c) = EOk h' ->
  (forall i, length k1 < i -> to_come h' r i = tl (to_come h r i)) /\
  (forall i, i <= length k1 -> to_come h r i = skipn i k1 ++ c :: k2 /\ to_come h' r i = skipn i k1 ++ k2) /\
  (forall j i, j <> r -> to_come h' j i = to_come h j i).
Proof. exact (remove_cursor h r c h' k1 k2). Qed.
Print Assumptions C134_remove.
(** [for c in select(r): r.xml_remove(c)] *)
Theorem C134_drop f h r : well_linked h ->
  (exists out h' st', loop (flat (chosen f)) (drop_from r) h [(r, 0, tt)] out h' st' /\ pulls (flat (chosen f)) h' st' Ends) /\
  forall out h' st', loop (flat (chosen f)) (drop_from r) h [(r, 0, tt)] out h' st' -> pulls (flat (chosen f)) h' st' Ends ->
    out = taken (chosen f h) (kids_of h r) /\ kids_of h' r = spared (chosen f h) (kids_of h r).
Proof.
  intros W. destruct (drop_run f r _ (kids_of h r) (le_n _) h [] 0 W eq_refl (or_introl eq_refl)) as (h' & st' & L & E & K). split; [eauto|].
  intros out h2 st2 L2 E2. destruct (loop_det _ _ (drop_det r) _ _ _ _ _ L E _ _ _ L2 E2) as (-> & -> & ->). auto.
Qed.
Print Assumptions C134_drop.
Theorem C134_drop_apart f h r out h' st' : well_linked h -> apart (chosen f h) (kids_of h r) ->
  loop (flat (chosen f)) (drop_from r) h [(r, 0, tt)] out h' st' -> pulls (flat (chosen f)) h' st' Ends ->
  out = filter (chosen f h) (kids_of h r) /\ kids_of h' r = filter (fun x => negb (chosen f h x)) (kids_of h r).
Proof. intros W Ha L E. destruct (proj2 (C134_drop f h r W) _ _ _ L E) as [-> ->]. destruct (spared_apart _ _ Ha). auto. Qed.
Print Assumptions C134_drop_apart.
(** [for c in list(select(r)): r.xml_remove(c)] *)
Theorem C134_drop_list f h r : well_linked h -> exists h', drop_all r h (filter (chosen f h) (kids_of h r)) h' /\
  kids_of h' r = filter (fun x => negb (chosen f h x)) (kids_of h r).
Proof.
  intros W. assert (Hd : NoDup (kids_of h r)) by (unfold kids_of; destruct (hp h r) as [o|] eqn:E; [apply (proj1 (proj2 (proj2 W)) _ _ E)|constructor]).
  destruct (drop_list f r (filter (chosen f h) (kids_of h r)) h W (NoDup_filter _ Hd)) as (h' & D & K).
  - intros c Hc. apply filter_In in Hc. tauto.
  - exists h'. split; [exact D|]. rewrite K. apply filter_ext_in. intros x Hx. f_equal. destruct (chosen f h x) eqn:E.
    + apply existsb_exists. exists x. split; [apply filter_In; auto|apply Nat.eqb_refl].
    + destruct (existsb (Nat.eqb x) (filter (chosen f h) (kids_of h r))) eqn:Ex; [|reflexivity]. apply existsb_exists in Ex as (y & Hy & Hxy). apply Nat.eqb_eq in Hxy. subst y.
      apply filter_In in Hy. destruct Hy. congruence.
Qed.
Print Assumptions C134_drop_list.
(** Insertions before the current child: the same child comes again and again, and the loop never ends. *)
Theorem C134_again f h r c a b : well_linked h -> kids_of h r = a ++ c :: b -> chosen f h c = true -> (forall x, In x a -> chosen f h x = false) ->
  (forall n, exists h' st', loop (flat (chosen f)) (text_before r) h [(r, 0, tt)] (repeat c n) h' st') /\
  forall out h' st', loop (flat (chosen f)) (text_before r) h [(r, 0, tt)] out h' st' -> out = repeat c (length out) /\ ~ pulls (flat (chosen f)) h' st' Ends.
Proof.
  intros W Hk Hc Ha. assert (S0 : stuck f r c h [(r, 0, tt)]).
  { split; [exact W|]. split; [exact Hc|]. exists 0, a, b. split; [reflexivity|]. split; [exact Hk|]. split; [lia|exact Ha]. }
  split; [intros n; apply stuck_run; exact S0|]. intros out h' st' L. destruct (stuck_loop _ _ _ _ _ _ _ _ L S0) as [E S1]. split; [exact E|]. intros En.
  destruct (stuck_pull _ _ _ _ _ S1) as (st1 & Hp & _). pose proof (pulls_det _ _ _ _ _ En Hp). discriminate.
Qed.
Print Assumptions C134_again.
(** [for c in descendants(r): c.xml_append(element(n))] never ends. *)
Theorem C134_grow n h r x : well_linked h -> In x (kids_of h r) -> elem_of h x = true ->
  (forall k, exists out h' st', length out = k /\ loop deep (grow n) h [(r, 0, tt)] out h' st') /\
  forall out h' st', loop deep (grow n) h [(r, 0, tt)] out h' st' -> ~ pulls deep h' st' Ends.
Proof.
  intros W Hx He. assert (G : going h [(r, 0, tt)]).
  { split; [exact W|]. destruct (future_total deep h [(r, 0, tt)] W) as ([|c l] & e & F); [|eauto]. exfalso. inversion F as [|? ? ? ? l1 l2 ? Hs _ E1 E2|? ? ? ? ? Hs]; subst.
    - destruct l1; [|discriminate]. eapply sees_deep_some; eauto.
    - eapply sees_deep_some; eauto. }
  split; [intros k; apply going_run; exact G|]. intros out h' st' L En. destruct (going_next n _ _ (going_loop _ _ _ _ _ _ L G)) as (c & st1 & h1 & Hp & _).
  pose proof (pulls_det _ _ _ _ _ En Hp). discriminate.
Qed.
Print Assumptions C134_grow.
(** Edits in other elements do not disturb a loop over the children of [r]. *)
Theorem C134_elsewhere f h r out h' st' : allocated h -> loop (flat (chosen f)) (fun h _ h1 => edits_off r h h1) h [(r, 0, tt)] out h' st' ->
  exists rest, filter (chosen f h) (kids_of h r) = out ++ rest /\ future (flat (chosen f)) h' st' rest false.
Proof.
  intros Al L. destruct (off_loop _ _ _ _ _ _ _ L Al 0 eq_refl) as (k & -> & E & K & C). exists (filter (chosen f h) (to_come h r k)). split; [exact E|].
  assert (Q : filter (chosen f h) (to_come h r k) = filter (chosen f h') (to_come h' r k)) by (unfold to_come; rewrite K; symmetry; apply filter_ext; exact C).
  rewrite Q. apply future_flat.
Qed.
Print Assumptions C134_elsewhere.
(** Editing the text of each element as it is delivered does not disturb a loop over all of them. *)
Theorem C134_texts f h p r t ids out h' st' : allocated h -> holds h p r t ids -> NoDup ids ->
  loop (kept (chosen f) deep) (fun h c h1 => text_edits c h h1) h [(r, 0, tt)] out h' st' ->
  exists rest, filter (chosen f h) (filter (elem_of h) (tl ids)) = out ++ rest /\ future (kept (chosen f) deep) h' st' rest false.
Proof.
  intros Al H Hd L. eapply text_loop; [exact L|exact Al|eapply once_start; eauto|]. apply future_kept. eapply future_deep; eauto.
Qed.
Print Assumptions C134_texts.

(** [<a><b></b><c></c><d></d></a>] made by edits. *)
Definition e134 : heap :=
  let new n h := fst (alloc h (OElem (lit n) [] [] None)) in
  let into i x h := match xml_insert h i x (-1) with EOk h' => h' | EExn h' _ => h' end in
  into 0 (ARef 3) (into 0 (ARef 2) (into 0 (ARef 1) (new "d" (new "c" (new "b" (new "a" empty_heap))))))%string.
Lemma e134_edits : edits empty_heap e134.
Proof.
  eapply eds_cons; [apply (ed_new_elem empty_heap (lit "a") [])|]. eapply eds_cons; [apply (ed_new_elem _ (lit "b") [])|].
  eapply eds_cons; [apply (ed_new_elem _ (lit "c") [])|]. eapply eds_cons; [apply (ed_new_elem _ (lit "d") [])|].
  assert (L : forall h i j, below h i j -> i <> j -> exists o, hp h i = Some o /\ okids o <> []).
  { intros h i j B. induction B as [|i k j B IH (o & Ho & Hin)]; [congruence|]. intros _. destruct (Nat.eq_dec i k) as [->|Hn]; [|auto].
    exists o. split; [auto|]. intros E. rewrite E in Hin. destruct Hin. }
  eapply eds_cons; [eapply (ed_insert_elem _ 0 1 (-1)); [do 4 eexists; reflexivity|eexists; split; reflexivity| |reflexivity]|].
  { intros B. apply L in B as (o & Ho & Hk); [|discriminate]. vm_compute in Ho. inversion Ho; subst. apply Hk. reflexivity. }
  eapply eds_cons; [eapply (ed_insert_elem _ 0 2 (-1)); [do 4 eexists; reflexivity|eexists; split; reflexivity| |reflexivity]|].
  { intros B. apply L in B as (o & Ho & Hk); [|discriminate]. vm_compute in Ho. inversion Ho; subst. apply Hk. reflexivity. }
  eapply eds_cons; [eapply (ed_insert_elem _ 0 3 (-1)); [do 4 eexists; reflexivity|eexists; split; reflexivity| |reflexivity]|].
  { intros B. apply L in B as (o & Ho & Hk); [|discriminate]. vm_compute in Ho. inversion Ho; subst. apply Hk. reflexivity. }
  apply eds_nil.
Qed.
(** Removing the children in a loop over them leaves some of them. *)
Theorem C134_drop_refuted : exists h r out h' st', well_linked h /\ loop (flat (chosen any_elem)) (drop_from r) h [(r, 0, tt)] out h' st' /\
  pulls (flat (chosen any_elem)) h' st' Ends /\ exists c, In c (kids_of h r) /\ chosen any_elem h c = true /\ In c (kids_of h' r) /\ ~ In c out.
Proof.
  pose proof (editing_well_linked _ e134_edits) as W. destruct (C134_drop any_elem e134 0 W) as [(out & h' & st' & L & E) U]. destruct (U _ _ _ L E) as [Eo Ek].
  exists e134, 0, out, h', st'. split; [exact W|]. split; [exact L|]. split; [exact E|]. exists 2. rewrite Ek, Eo. vm_compute. repeat split; auto. intros [A|[A|[]]]; discriminate.
Qed.
Print Assumptions C134_drop_refuted.
Lemma e134_holds : exists ids, holds e134 None 0 (XE (lit "a") [] [XE (lit "b") [] []; XE (lit "c") [] []; XE (lit "d") [] []]) ids /\ ids = [0; 1; 2; 3].
Proof. eexists. split; [eapply hd_elem; [vm_compute; reflexivity|]; repeat (eapply ha_cons || eapply ha_nil); (eapply hd_elem; [vm_compute; reflexivity|apply ha_nil])|reflexivity]. Qed.
(** Two calls of next() on [descendants(a)]; the third would deliver [d].  If [b] is removed
    before it, [d] is passed over; if a text is inserted in front, [c] comes again. *)
Example C134_case : well_linked e134 /\ allocated e134 /\
  (exists t ids, holds e134 None 0 t ids /\ NoDup ids /\ filter (elem_of e134) (tl ids) = [1; 2; 3]) /\
  (exists st1 st2 h1 h2, pull deep 9 e134 [(0, 0, tt)] = Some (Gives 1 st1) /\ pull deep 9 e134 st1 = Some (Gives 2 st2) /\
     pull deep 9 e134 st2 = Some (Gives 3 [(3, 0, tt); (0, 3, tt)]) /\
     xml_remove e134 0 (ARef 1) = EOk h1 /\ pull deep 9 h1 st2 = Some Ends /\
     xml_insert e134 0 (AStr (lit "x")) 0 = EOk h2 /\ pull deep 9 h2 st2 = Some (Gives 2 [(2, 0, tt); (0, 3, tt)])) /\
  taken (chosen any_elem e134) (kids_of e134 0) = [1; 3] /\ spared (chosen any_elem e134) (kids_of e134 0) = [2] /\
  apart (chosen (named (lit "c")) e134) (kids_of e134 0) /\
  pull (kept (chosen (named (lit "d"))) deep) 9 e134 [(0, 0, tt)] = Some (Gives 3 [(3, 0, tt); (0, 3, tt)]) /\
  pull by_state 9 e134 [(0, 0, prep_from PMatched [StName (lit "c")])] = Some (Gives 2 [(0, 2, prep_from PMatched [StName (lit "c")])]) /\
  siblings_from e134 2 = Some [(0, 2, tt)] /\
  (exists h1, text_edits 1 e134 h1 /\ kids_of h1 1 = [4]) /\ (exists h1, edits_off 0 e134 h1 /\ kids_of h1 1 = [4]) /\
  (exists h1, grow (lit "x") e134 1 h1 /\ kids_of h1 1 = [4]) /\ (exists h1, text_before 0 e134 1 h1 /\ kids_of h1 0 = [4; 1; 2; 3]).
Proof.
  pose proof (editing_well_linked _ e134_edits) as W. split; [exact W|]. split; [intros j o Ho; apply (proj1 W _ _ Ho)|].
  split; [destruct e134_holds as (ids & H & ->); do 2 eexists; split; [exact H|]; split; [repeat constructor; cbn; intuition discriminate|vm_compute; reflexivity]|].
  split; [do 4 eexists; repeat (split; [vm_compute; reflexivity|]); vm_compute; reflexivity|].
  split; [vm_compute; reflexivity|]. split; [vm_compute; reflexivity|].
  split.
  { intros a x y b E Hx Hy. assert (K : kids_of e134 0 = [1; 2; 3]) by (vm_compute; reflexivity). rewrite K in E.
    destruct a as [|? [|? a]]; cbn [app] in E; [injection E as <- <- <-|injection E as _ <- <- <-|]; try (vm_compute in Hx; discriminate); try (vm_compute in Hy; discriminate).
    injection E as _ _ E. destruct a as [|? [|? a]]; discriminate. }
  split; [vm_compute; reflexivity|]. split; [vm_compute; reflexivity|]. split; [vm_compute; reflexivity|].
  split; [eexists; split; [eapply tes_cons; [eapply (te_insert _ _ _ (AStr (lit "x")) (lit "x") (-1)); [left; reflexivity|reflexivity]|apply tes_nil]|vm_compute; reflexivity]|].
  split; [eexists; split; [eapply (eo_cons _ 1); [discriminate|left; exists (AStr (lit "x")), (-1)%Z; reflexivity|apply eo_nil]|vm_compute; reflexivity]|].
  split; [eexists; split; [unfold grow; reflexivity|vm_compute; reflexivity]|].
  eexists. split; [exists (lit "x"), 0, [], [2; 3]; split; [vm_compute; reflexivity|]; split; [auto|reflexivity]|vm_compute; reflexivity].
Qed.
