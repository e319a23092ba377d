(** Location paths over trees that are edited meanwhile: C135. *)
From Verif Require Import PyStr Parser XTree Tree Nodes Heap Builder HeapSpec HeapFacts BuilderMore RootCache XPath HeapNav.
From Verif Require Import LiveIter LiveIterSpec LiveIterFacts LiveIterLoops LivePath LivePathSpec LivePathFacts LivePathLoops LivePathEdits LivePathCut LivePathGrow.
From Verif Require Prop_LiveIter.

(** ** C135 *)
(** Whatever has been edited: next() always comes to an end, and so does calling it again and
    again if nothing more is edited. *)
Theorem C135_defined c h st : well_linked h -> exists l f, comes c h st l f /\ forall l' f', comes c h st l' f' -> l' = l /\ f' = f.
Proof. intros W. destruct (comes_total c h st W) as (l & f & C). exists l, f. split; [exact C|]. apply comes_det. exact C. Qed.
Print Assumptions C135_defined.
Theorem C135_next c h st r r' : qpulls c h st r -> qpulls c h st r' -> r = r'.
Proof. exact (qpulls_det c h st r r'). Qed.
Print Assumptions C135_next.
(** Without edits: the results of the path (C131). *)
Theorem C135_start c h fuel s p x l :
  (hpath h c fuel (path_of s p) x = (l, Done) -> comes c h (query x (s :: p)) l Done) /\
  forall double, hpath h c fuel (LAbs double (path_of s p)) x = (l, Done) -> comes c h (query_abs double x (s :: p)) l Done.
Proof. split; [intros H; apply flows_comes, (path_flows c h fuel s p x x l eq_refl H)|intros double H; apply flows_comes, (abs_flows c h fuel double s p x l H)]. Qed.
Print Assumptions C135_start.
(** [for y in r.xml_xpath('descendant::t')]: edits of any element that does not come after [y] in
    document order do not disturb the loop. *)
Theorem C135_behind c h p r t ids tst out h' st' : allocated h -> holds h p r t ids ->
  qloop c (behind ids) h (query (HNode r) [(XDescendant, tst)]) out h' st' ->
  exists rest, picked h tst (HNode r) (tl ids) = out ++ rest /\ comes c h' st' rest Done.
Proof.
  intros Al H L. destruct (tree_order h p r t ids H) as (m & -> & R). cbn [tl].
  eapply (copied_query c r XDescendant tst m false); [discriminate|exact I|discriminate|apply R|exact Al| | |].
  - destruct (proj1 (holds_live h) _ _ _ _ H r (or_introl eq_refl)) as (o & Ho). unfold live. rewrite Ho. discriminate.
  - intros i Hi. destruct (proj1 (holds_live h) _ _ _ _ H i (or_intror Hi)) as (o & Ho). unfold live. rewrite Ho. discriminate.
  - eapply qloop_mono; [|exact L]. intros h0 y h1 (i & -> & E). exists i. split; [reflexivity|]. eapply edits_in_mono; [|exact E]. intros j Hj. right. exact Hj.
Qed.
Print Assumptions C135_behind.
(** The same for [following::t] *)
Theorem C135_following c h p r k is ts ids tst out h' st' : allocated h -> live h r -> hparent h (HNode r) = Some p -> hindex h p (HNode r) = Some k ->
  skipn (S k) (kids_of h p) = is -> holds_all h p is ts ids ->
  qloop c (behind (r :: ids)) h (query (HNode r) [(XFollowing, tst)]) out h' st' ->
  exists rest, picked h tst (HNode r) ids = out ++ rest /\ comes c h' st' rest Done.
Proof.
  intros Al Lr Hp Hk Hs Ha L.
  assert (Ec : cstart h XFollowing (HNode r) = CWork is) by (cbn [cstart]; unfold beside_of; rewrite Hp, Hk; cbn [plus]; rewrite Hs; reflexivity).
  assert (R0 : raws h (HNode r) (CWork []) [] Done) by (apply ra_end; reflexivity).
  pose proof (proj2 (work_order h (HNode r)) _ _ _ _ Ha [] [] Done R0) as R. rewrite !app_nil_r in R.
  eapply (copied_query c r XFollowing tst ids false); [discriminate|rewrite Ec; exact I|discriminate|rewrite Ec; exact R|exact Al|exact Lr| |].
  - intros i Hi. destruct (proj2 (holds_live h) _ _ _ _ Ha i Hi) as (o & Ho). unfold live. rewrite Ho. discriminate.
  - eapply qloop_mono; [|exact L]. intros h0 y h1 (i & -> & E). exists i. split; [reflexivity|]. eapply edits_in_mono; [|exact E]. intros j Hj. right. exact Hj.
Qed.
Print Assumptions C135_following.
(** The sibling axes: no edits disturb the loop. *)
Theorem C135_siblings c h p r k tst out h' st' : well_linked h -> live h r -> hparent h (HNode r) = Some p -> hindex h p (HNode r) = Some k ->
  (qloop c anyhow h (query (HNode r) [(XFollowingSibling, tst)]) out h' st' ->
   exists rest, picked h tst (HNode r) (skipn (S k) (kids_of h p)) = out ++ rest /\ comes c h' st' rest Done) /\
  (qloop c anyhow h (query (HNode r) [(XPrecedingSibling, tst)]) out h' st' ->
   exists rest, picked h tst (HNode r) (rev (firstn k (kids_of h p))) = out ++ rest /\ comes c h' st' rest Done).
Proof.
  intros W Lr Hp Hk. assert (Al : allocated h) by (intros j o; apply (proj1 W)).
  assert (Lk : forall i, In i (kids_of h p) -> live h i).
  { intros i Hi. unfold kids_of in Hi. destruct (hp h p) as [o|] eqn:E; [|destruct Hi]. destruct (proj1 (proj1 (proj2 W) p i)) as (oi & Ho & _); [exists o; auto|]. unfold live. rewrite Ho. discriminate. }
  assert (A : forall h0 y h1, anyhow h0 y h1 -> forall M, past_edits r M true h0 y h1).
  { intros h0 y h1 (i & -> & E) M. exists i. split; [reflexivity|]. eapply edits_in_mono; [|exact E]. auto. }
  split; intros L.
  - assert (Ec : cstart h XFollowingSibling (HNode r) = CList (skipn (S k) (kids_of h p))) by (cbn [cstart]; unfold beside_of; rewrite Hp, Hk; reflexivity).
    eapply (copied_query c r XFollowingSibling tst _ true); [discriminate|rewrite Ec; exact I|intros _; eauto|rewrite Ec; apply raws_list|exact Al|exact Lr| |eapply qloop_mono; [|exact L]; auto].
    intros i Hi. apply Lk. rewrite <- (firstn_skipn (S k) (kids_of h p)). apply in_or_app. right. exact Hi.
  - assert (Ec : cstart h XPrecedingSibling (HNode r) = CList (rev (firstn k (kids_of h p)))) by (cbn [cstart]; unfold beside_of; rewrite Hp, Hk; reflexivity).
    eapply (copied_query c r XPrecedingSibling tst _ true); [discriminate|rewrite Ec; exact I|intros _; eauto|rewrite Ec; apply raws_list|exact Al|exact Lr| |eapply qloop_mono; [|exact L]; auto].
    intros i Hi. apply Lk. rewrite <- (firstn_skipn k (kids_of h p)). apply in_or_app. left. apply in_rev. exact Hi.
Qed.
Print Assumptions C135_siblings.
(** [for y in r.xml_xpath('descendant::n'): y.xml_parent.xml_remove(y)] takes out all of them. *)
Lemma picked_named h n r m : (chosen (named n) h r = true -> forall i, In i m -> htext h i <> Some []) ->
  picked h (TName n) (HNode r) m = map HNode (filter (chosen (named n) h) m).
Proof.
  intros H. induction m as [|i m IH]; [reflexivity|]. unfold picked in *. cbn [flat_map filter]. rewrite IH by (intros Hr j Hj; apply H; [exact Hr|right; exact Hj]).
  unfold hcopy, htext. destruct (hp h i) as [[n1 a k q|[|x s] q]|] eqn:E; cbn [htest].
  - unfold chosen at 2. rewrite E. unfold named at 2. destruct (str_eqb n1 n); reflexivity.
  - unfold chosen at 2. rewrite E. destruct (hp h r) as [[n2 a2 k2 p2|]|] eqn:Er; try reflexivity. destruct (str_eqb n2 n) eqn:En; [|reflexivity]. exfalso.
    apply (H ltac:(unfold chosen, named; rewrite Er; exact En) i (or_introl eq_refl)). unfold htext. rewrite E. reflexivity.
  - unfold chosen at 2. rewrite E. reflexivity.
  - unfold chosen at 2. rewrite E. reflexivity.
Qed.
Theorem C135_cut c h p r t ids n : well_linked h -> holds h p r t ids -> (chosen (named n) h r = true -> forall i, In i (tl ids) -> htext h i <> Some []) ->
  (exists out h' st', qloop c cut_out h (query (HNode r) [(XDescendant, TName n)]) out h' st' /\ qpulls c h' st' QEnds) /\
  forall out h' st', qloop c cut_out h (query (HNode r) [(XDescendant, TName n)]) out h' st' ->
    (forall i, In (HNode i) out -> parent_is h' i None) /\
    (forall y st1, qpulls c h' st' (QGives y st1) -> exists h2, cut_out h' y h2) /\
    exists rest, map HNode (filter (chosen (named n) h) (tl ids)) = out ++ rest /\ comes c h' st' rest Done.
Proof.
  intros W H Hn. assert (N : NoDup ids).
  { destruct (proj1 (holds_live h) _ _ _ _ H r) as (o & Ho); [inversion H; left; reflexivity|]. destruct W as (_ & Hl & Ht & _). eapply (proj1 (holds_nodup h Hl Ht)); eauto. }
  assert (Al : allocated h) by (intros j o; apply (proj1 W)).
  destruct (tree_order h p r t ids H) as (m & -> & R). cbn [tl] in *.
  assert (I0 : cut_inv n r m h m).
  { split; [exact W|]. assert (Lv : forall i, In i (r :: m) -> live h i) by (intros i Hi; destruct (proj1 (holds_live h) _ _ _ _ H i Hi) as (o & Ho); unfold live; rewrite Ho; discriminate).
    split; [apply Lv; left; reflexivity|]. split; [intros i Hi; apply Lv; right; exact Hi|]. split; [|exact Hn].
    intros i Hi. destruct (proj2 (proj1 (parent_before h) _ _ _ _ H) i (or_intror Hi)) as [->|Hq]; [|exact Hq]. inversion N; contradiction. }
  split.
  - destruct (cut_run c n r m N _ h (HNode r) [] m (CWork (kids_of h r)) (le_n _) eq_refl I0 I (R _)) as (out & h' & st' & L & E).
    inversion L as [|? ? y st1 h1 out1 h2 st2 P B L']; subst.
    + exists [], h', (query (HNode r) [(XDescendant, TName n)]). split; [apply ql_start|]. apply eval_pull. exact E.
    + eexists _, h', st'. split; [eapply ql_turn; [apply eval_pull; exact P|exact B|exact L']|exact E].
  - intros out h' st' L. assert (Q : qloop c (behind (r :: m)) h (query (HNode r) [(XDescendant, TName n)]) out h' st' /\ (forall i, In (HNode i) out -> parent_is h' i None) /\
      forall y st1, qpulls c h' st' (QGives y st1) -> exists h2, cut_out h' y h2).
    { apply query_loop in L as [(-> & -> & ->)|[Hout L]].
      - split; [apply ql_start|]. split; [intros i []|]. intros y st1 P. apply eval_pull in P.
        destruct (cut_turn c n r m N h (HNode r) (CWork (kids_of h r)) [] m y st1 eq_refl I0 I (R _) P) as (i & h1 & _ & B & _). eauto.
      - destruct (cut_loop c n r m N _ _ _ _ _ L [] m (HNode r) _ eq_refl eq_refl I0 I (R _)) as (Q1 & Q2 & _ & Q3). split; [|auto]. apply query_loop_back; auto. }
    destruct Q as (Q1 & Q2 & Q3). split; [exact Q2|]. split; [exact Q3|]. rewrite <- (picked_named h n r m Hn). apply (C135_behind c h p r t (r :: m) (TName n) out h' st' Al H Q1).
Qed.
Print Assumptions C135_cut.
(** [for y in r.xml_xpath('descendant::t'): y.xml_append(element(n))] goes through the nodes that
    were there at the start, and ends. *)
Theorem C135_grow c h p r t ids tst n out h' st' : well_linked h -> holds h p r t ids ->
  qloop c (grow_at n) h (query (HNode r) [(XDescendant, tst)]) out h' st' ->
  exists rest, picked h tst (HNode r) (tl ids) = out ++ rest /\ comes c h' st' rest Done.
Proof.
  intros W H L. pose proof W as (Al & Hl & Ht & _). eapply (C135_behind c h p r t ids tst); [intros j o; apply Al|exact H|]. eapply qloop_mono; [|exact L].
  intros h0 y h1 (i & -> & G). exists i. split; [reflexivity|]. unfold grow, xml_append in G. eapply ei_new. eapply (ei_cons _ i); [|left; eexists _, _; exact G|apply ei_nil].
  apply self_not_after. eapply (proj1 (holds_nodup h Hl Ht)); eauto.
Qed.
Print Assumptions C135_grow.
(** The child axis with a name test is the iterator of select_elements or select_name, whatever the loop edits. *)
Theorem C135_child c r t f (body : heap -> ref -> heap -> Prop) h : name_sel t = Some f ->
  (forall out h' st', qloop c (on_node body) h (query (HNode r) [(XChild, t)]) out h' st' ->
     exists out0 st0, out = map HNode out0 /\ loop (flat (chosen f)) body h [(r, 0, tt)] out0 h' st0 /\ goes_on c f h' st' st0) /\
  (forall out0 h' st0, loop (flat (chosen f)) body h [(r, 0, tt)] out0 h' st0 ->
     exists st', qloop c (on_node body) h (query (HNode r) [(XChild, t)]) (map HNode out0) h' st' /\ goes_on c f h' st' st0).
Proof. intros Hf. exact (child_query c r t f Hf body h). Qed.
Print Assumptions C135_child.
(** [for y in r.xml_xpath('n'): r.xml_remove(y)]: the neighbour of each is passed over. *)
Theorem C135_drop c h r t f out h' st' : well_linked h -> name_sel t = Some f ->
  qloop c (on_node (drop_from r)) h (query (HNode r) [(XChild, t)]) out h' st' -> qpulls c h' st' QEnds ->
  out = map HNode (taken (chosen f h) (kids_of h r)) /\ kids_of h' r = spared (chosen f h) (kids_of h r).
Proof.
  intros W Hf L E. destruct (proj1 (C135_child c r t f (drop_from r) h Hf) _ _ _ L) as (out0 & st0 & -> & L0 & G & _).
  destruct (proj2 (Prop_LiveIter.C134_drop f h r W) _ _ _ L0 (proj1 G E)) as [-> K]. auto.
Qed.
Print Assumptions C135_drop.

(** [for y in r.xml_xpath('//*'): y.xml_append(element(n))] never ends. *)
Theorem C135_abs_grow c h r q qs f n : well_linked h -> hroot h (c (HNode r)) (HNode r) = (HRoot q :: qs, f) -> elem_of h (docelem q) = true ->
  (forall k, exists out h' st', length out = k /\ qloop c (grow_at n) h (query_abs true (HNode r) [(XChild, TStar)]) out h' st') /\
  forall out h' st', qloop c (grow_at n) h (query_abs true (HNode r) [(XChild, TStar)]) out h' st' -> ~ qpulls c h' st' QEnds.
Proof. exact (abs_never c n h r q qs f). Qed.
Print Assumptions C135_abs_grow.

(** [<a><b></b><b></b></a>] made by edits. *)
Definition e135 : heap :=
  let new n h := fst (alloc h (OElem (lit n) [] [] None)) in
  let into i x h := match xml_insert h i x (-1) with EOk h' => h' | EExn h' _ => h' end in
  into 0 (ARef 2) (into 0 (ARef 1) (new "b" (new "b" (new "a" empty_heap))))%string.
Lemma e135_edits : edits empty_heap e135.
Proof.
  eapply eds_cons; [apply (ed_new_elem empty_heap (lit "a") [])|]. eapply eds_cons; [apply (ed_new_elem _ (lit "b") [])|]. eapply eds_cons; [apply (ed_new_elem _ (lit "b") [])|].
  assert (L : forall h i j, below h i j -> i <> j -> exists o, hp h i = Some o /\ okids o <> []).
  { intros h i j B. induction B as [|i k j B IH (o & Ho & Hin)]; [congruence|]. intros _. destruct (Nat.eq_dec i k) as [->|Hn]; [|auto].
    exists o. split; [auto|]. intros E. rewrite E in Hin. destruct Hin. }
  eapply eds_cons; [eapply (ed_insert_elem _ 0 1 (-1)); [do 4 eexists; reflexivity|eexists; split; reflexivity| |reflexivity]|].
  { intros B. apply L in B as (o & Ho & Hk); [|discriminate]. vm_compute in Ho. inversion Ho; subst. apply Hk. reflexivity. }
  eapply eds_cons; [eapply (ed_insert_elem _ 0 2 (-1)); [do 4 eexists; reflexivity|eexists; split; reflexivity| |reflexivity]|].
  { intros B. apply L in B as (o & Ho & Hk); [|discriminate]. vm_compute in Ho. inversion Ho; subst. apply Hk. reflexivity. }
  apply eds_nil.
Qed.
Lemma e135_holds : holds e135 None 0 (XE (lit "a") [] [XE (lit "b") [] []; XE (lit "b") [] []]) [0; 1; 2].
Proof. eapply hd_elem; [vm_compute; reflexivity|]. apply (ha_cons _ _ 1 [2] _ _ [1] [2]); [eapply hd_elem; [vm_compute; reflexivity|apply ha_nil]|].
  apply (ha_cons _ _ 2 [] _ _ [2] []); [eapply hd_elem; [vm_compute; reflexivity|apply ha_nil]|apply ha_nil]. Qed.
Definition c135 : hitem -> rcache := fun _ => empty_cache.
(** [//b] ends in a child step: of two neighbours only one is taken out. *)
Theorem C135_abs_refuted : exists c h r n out h' st' i, well_linked h /\ qloop c cut_out h (query_abs true (HNode r) [(XChild, TName n)]) out h' st' /\ qpulls c h' st' QEnds /\
  below h r i /\ i <> r /\ chosen (named n) h i = true /\ ~ In (HNode i) out /\ parent_is h' i (Some r).
Proof.
  pose proof (editing_well_linked _ e135_edits) as W.
  assert (H : exists st1 h1, qpull c135 20 e135 (query_abs true (HNode 0) [(XChild, TName (lit "b"))]) = Some (QGives (HNode 1) st1) /\
    xml_remove e135 0 (ARef 1) = EOk h1 /\ qpull c135 20 h1 st1 = Some QEnds /\ option_map oparent (hp h1 2) = Some (Some 0)).
  { eexists _, _. split; [vm_compute; reflexivity|]. split; [vm_compute; reflexivity|]. split; vm_compute; reflexivity. }
  destruct H as (st1 & h1 & P & D & E & Q). exists c135, e135, 0, (lit "b"), [HNode 1], h1, st1, 2. split; [exact W|].
  split; [eapply ql_turn; [exists 20; exact P|exists 1, 0; split; [reflexivity|]; split; [vm_compute; reflexivity|exact D]|apply ql_start]|]. split; [exists 20; exact E|].
  split; [eapply be_kid; [constructor|eexists; split; [vm_compute; reflexivity|right; left; reflexivity]]|]. split; [discriminate|]. split; [vm_compute; reflexivity|].
  split; [intros [X|[]]; discriminate|]. destruct (hp h1 2) as [o|] eqn:Ho; [|discriminate]. injection Q as Q. exists o. auto.
Qed.
Print Assumptions C135_abs_refuted.
Example C135_case : well_linked e135 /\ (exists t, holds e135 None 0 t [0; 1; 2]) /\ live e135 1 /\
  hparent e135 (HNode 1) = Some 0 /\ hindex e135 0 (HNode 1) = Some 0 /\
  (exists t, holds_all e135 0 (skipn 1 (kids_of e135 0)) [t] [2]) /\
  filter (chosen (named (lit "b")) e135) [1; 2] = [1; 2] /\ chosen (named (lit "b")) e135 0 = false /\
  picked e135 TStar (HNode 0) [1; 2] = [HNode 1; HNode 2] /\ picked e135 TStar (HNode 1) [2] = [HNode 2] /\
  taken (chosen any_elem e135) (kids_of e135 0) = [1] /\ spared (chosen any_elem e135) (kids_of e135 0) = [2] /\
  hpath e135 c135 9 (path_of (XDescendant, TName (lit "b")) [(XFollowingSibling, TStar)]) (HNode 0) = ([HNode 2], Done) /\
  hpath e135 c135 9 (LAbs true (path_of (XChild, TStar) [])) (HNode 0) = ([HNode 0; HNode 1; HNode 2], Done) /\
  (exists q, hroot e135 (c135 (HNode 2)) (HNode 2) = ([HRoot q], Done) /\ elem_of e135 (docelem q) = true) /\
  (exists h1, behind [0; 1; 2] e135 (HNode 1) h1 /\ kids_of h1 0 = [2]) /\ (exists h1, anyhow e135 (HNode 1) h1 /\ kids_of h1 2 = [3]) /\
  (exists h1, grow_at (lit "c") e135 (HNode 1) h1 /\ kids_of h1 1 = [3]).
Proof.
  pose proof (editing_well_linked _ e135_edits) as W. split; [exact W|]. split; [eexists; exact e135_holds|]. split; [vm_compute; discriminate|].
  split; [vm_compute; reflexivity|]. split; [vm_compute; reflexivity|].
  split; [eexists; apply (ha_cons _ _ 2 [] _ _ [2] []); [eapply hd_elem; [vm_compute; reflexivity|apply ha_nil]|apply ha_nil]|].
  do 8 (split; [vm_compute; reflexivity|]).
  split; [eexists; split; vm_compute; reflexivity|].
  split; [|split].
  - eexists. split; [exists 1; split; [reflexivity|]; eapply (ei_cons _ 0); [|right; exists 1; reflexivity|apply ei_nil]|vm_compute; reflexivity].
    intros (a & b & E & Hb). destruct a as [|? [|? [|? a]]]; cbn [app] in E; try discriminate; [injection E as _ <-|injection E as _ _ E; destruct a; discriminate]. destruct Hb as [Hb|[]]; discriminate.
  - eexists. split; [exists 1; split; [reflexivity|]; eapply (ei_cons _ 2); [exact I|left; exists (AStr (lit "x")), (-1)%Z; reflexivity|apply ei_nil]|vm_compute; reflexivity].
  - eexists. split; [exists 1; split; [reflexivity|]; unfold grow; reflexivity|vm_compute; reflexivity].
Qed.
