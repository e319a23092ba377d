(** Loops over suspended location paths: removal of what is delivered, additions to it, and
    the child axis. *)
From Verif Require Import PyStr Parser XTree Heap Builder HeapSpec HeapFacts BuilderMore RootCache XPath HeapNav.
From Verif Require Import LiveIter LiveIterSpec LiveIterFacts LiveIterMore LiveIterLoops LiveIterText LivePath LivePathSpec LivePathFacts LivePathLoops LivePathEdits.

Lemma qloop_mono c (body body' : heap -> hitem -> heap -> Prop) h st out h' st' : (forall h y h1, body h y h1 -> body' h y h1) -> qloop c body h st out h' st' -> qloop c body' h st out h' st'.
Proof. intros M. induction 1; econstructor; eauto. Qed.
Lemma edits_in_mono (P Q : ref -> Prop) h h' : (forall j, P j -> Q j) -> edits_in P h h' -> edits_in Q h h'.
Proof. intros M. induction 1; [apply ei_nil|eapply ei_new; eauto|eapply ei_cons; eauto]. Qed.
Lemma tree_order h p r t ids : holds h p r t ids -> exists m, ids = r :: m /\ forall x, raws h x (CWork (kids_of h r)) (map Some m) Done.
Proof.
  intros H. inversion H as [? ? n a is ks ids0 Hr Ha|? ? s Hr]; subst; unfold kids_of; rewrite Hr; cbn [okids].
  - exists ids0. split; [reflexivity|]. intros x. assert (R0 : raws h x (CWork []) [] Done) by (apply ra_end; reflexivity). pose proof (proj2 (work_order h x) _ _ _ _ Ha [] [] Done R0) as R. rewrite !app_nil_r in R. exact R.
  - exists []. split; [reflexivity|]. intros x. apply ra_end. reflexivity.
Qed.

(** ** A parent comes before its children *)
Definition before (l : list ref) (a b : ref) : Prop := exists x y z, l = x ++ a :: y ++ b :: z.
Lemma before_l l m a b : before l a b -> before (l ++ m) a b.
Proof. intros (x & y & z & ->). exists x, y, (z ++ m). rewrite <- app_assoc. cbn [app]. rewrite <- app_assoc. reflexivity. Qed.
Lemma before_r l m a b : before m a b -> before (l ++ m) a b.
Proof. intros (x & y & z & ->). exists (l ++ x), y, z. rewrite <- app_assoc. reflexivity. Qed.
Lemma parent_before h : (forall p i t ids, holds h p i t ids -> parent_is h i p /\ forall j, In j ids -> j = i \/ exists q, parent_is h j (Some q) /\ before ids q j) /\
  (forall q is ts ids, holds_all h q is ts ids -> forall j, In j ids -> parent_is h j (Some q) \/ exists q', parent_is h j (Some q') /\ before ids q' j).
Proof.
  apply holds_both.
  - intros p i n a is ks ids Hi _ IH. split; [eexists; split; [exact Hi|reflexivity]|]. intros j [<-|Hj]; [left; reflexivity|]. right. destruct (IH j Hj) as [Hp|(q & Hq & B)].
    + exists i. split; [exact Hp|]. apply in_split in Hj as (y & z & ->). exists [], y, z. reflexivity.
    + exists q. split; [exact Hq|]. apply (before_r [i]). exact B.
  - intros p i s Hi. split; [eexists; split; [exact Hi|reflexivity]|]. intros j [<-|[]]. left. reflexivity.
  - intros q j [].
  - intros q i is t ts ids ids' _ [Hp IH1] _ IH2 j Hj. apply in_app_or in Hj as [Hj|Hj].
    + destruct (IH1 j Hj) as [->|(q' & Hq & B)]; [left; exact Hp|right; exists q'; split; [exact Hq|apply before_l; exact B]].
    + destruct (IH2 j Hj) as [H|(q' & Hq & B)]; [left; exact H|right; exists q'; split; [exact Hq|apply before_r; exact B]].
Qed.
Lemma before_not_after l a b : NoDup l -> before l a b -> ~ after l b a.
Proof.
  intros N (x & y & z & E) (u & v & E' & Hv). subst l. rewrite E' in N.
  assert (Q : forall u x y z v : list ref, x ++ a :: y ++ b :: z = u ++ b :: v -> NoDup (u ++ b :: v) -> In a v -> False).
  { clear. induction u as [|w u IH]; intros x y z v E N Hv.
    - cbn [app] in *. inversion N; subst. destruct x as [|w x]; cbn [app] in E; injection E as <- <-; [auto|]. apply H1. apply in_or_app. right. right. apply in_or_app. right. left. reflexivity.
    - cbn [app] in *. inversion N; subst. destruct x as [|w' x]; cbn [app] in E; injection E as <- E.
      + apply H1. apply in_or_app. right. right. exact Hv.
      + eapply IH; eauto. }
  eapply Q; eauto.
Qed.
Lemma self_not_after l a : NoDup l -> ~ after l a a.
Proof.
  intros N (u & v & -> & Hv). apply NoDup_remove_2 in N. apply N. apply in_or_app. right. exact Hv.
Qed.

(** ** Removal *)
Lemma parent_parent h i q : well_linked h -> parent_is h i (Some q) -> xml_parent h i = Some q.
Proof.
  intros (_ & Hl & _ & _) Hp. destruct (proj2 (Hl q i) Hp) as (oq & Hq & _). destruct Hp as (o & Ho & E). unfold xml_parent. rewrite Ho, E, Hq. reflexivity.
Qed.
Lemma xml_parent_is h i q : xml_parent h i = Some q -> parent_is h i (Some q).
Proof. unfold xml_parent. destruct (hp h i) as [o|] eqn:E; [|discriminate]. destruct (oparent o) as [p|] eqn:Ep; [|discriminate]. destruct (hp h p); [|discriminate]. intros H. injection H as <-. exists o. auto. Qed.
Lemma cut_step h i q : well_linked h -> is_elem h i -> parent_is h i (Some q) ->
  exists h1, xml_remove h q (ARef i) = EOk h1 /\ well_linked h1 /\ parent_is h1 i None /\ (forall j p, parent_is h j p -> j <> i -> parent_is h1 j p).
Proof.
  intros W Hi Hp. pose proof W as (_ & Hl & Hn & Ht). pose proof (proj2 (Hl q i) Hp) as Hc. pose proof Hc as (oq & Hq & Hin).
  destruct oq as [n a ks pq|s pq]; [|destruct Hin]. cbn [okids] in Hin. destruct (in_split _ _ Hin) as (k1 & k2 & ->).
  assert (Hiq : i <> q).
  { intros ->. destruct (Ht q _ Hq) as (t & ids & Hh & _). apply (no_cycle _ _ _ _ _ _ Hh Hc). constructor. }
  assert (H1 : ~ In i k1).
  { specialize (Hn q _ Hq). cbn [okids] in Hn. apply NoDup_remove_2 in Hn. intros H. apply Hn, in_or_app; auto. }
  destruct (remove_elem_at h q n a k1 i k2 pq Hq Hi Hiq H1) as (h1 & E & A1 & A2 & A3). exists h1. split; [exact E|]. split; [eapply remove_elem_well_linked; eauto|]. split.
  - destruct Hp as (o & Ho & _). eexists. split; [apply (A2 _ Ho)|]. destruct o; reflexivity.
  - intros j p (o & Ho & Ep) Hj. destruct (Nat.eq_dec j q) as [->|Hjq]; [|exists o; rewrite A3 by auto; auto]. rewrite Hq in Ho. injection Ho as <-. eexists. split; [exact A1|exact Ep].
Qed.

Section Cut.
  Variable c : hitem -> rcache.
  Notation qpulls := (qpulls c). Notation comes := (comes c). Notation qloop := (qloop c).
  Variables (n : str) (r : ref) (M : list ref).
  Hypothesis HM : NoDup (r :: M).
  (** Every node still to come has its parent, and that before it. *)
  Definition cut_inv (h : heap) (m : list ref) : Prop :=
    well_linked h /\ live h r /\ (forall i, In i m -> live h i) /\ (forall i, In i m -> exists q, parent_is h i (Some q) /\ before (r :: M) q i) /\
    (chosen (named n) h r = true -> forall i, In i m -> htext h i <> Some []).
  Lemma pull_named h b cur m y st1 : copied cur -> raws h (HNode r) cur (map Some m) Done -> qpulls h [FStep b (HNode r) (XDescendant, TName n) cur []] (QGives y st1) ->
    exists a i m' cur', m = a ++ i :: m' /\ st1 = [FStep b (HNode r) (XDescendant, TName n) cur' []] /\ raws h (HNode r) cur' (map Some m') Done /\ copied cur' /\
      ((y = HNode i /\ is_elem h i /\ chosen (named n) h i = true) \/ (chosen (named n) h r = true /\ htext h i = Some [])).
  Proof.
    intros C R P. destruct (pull_raws c _ _ _ _ _ _ _ R _ _ P) as (a & z & ys' & cur' & Ey & -> & R' & T & N & C' & _).
    assert (Em : exists a0 i m', m = a0 ++ i :: m' /\ a = map Some a0 /\ z = Some i /\ ys' = map Some m').
    { clear - Ey. revert m Ey. induction a as [|w a IH]; intros [|i m] Ey; try discriminate.
      - injection Ey as <- <-. exists [], i, m. auto.
      - injection Ey as <- Ey. destruct (IH _ Ey) as (a0 & i' & m' & -> & -> & -> & ->). exists (i :: a0), i', m'. auto. }
    destruct Em as (a0 & i & m' & -> & -> & -> & ->). exists a0, i, m', cur'. split; [reflexivity|]. split; [reflexivity|]. split; [exact R'|]. split; [auto|].
    rewrite tested_plain in T by discriminate. cbn [htest] in T. unfold hcopy in T. destruct (htext h i) as [[|k s]|] eqn:Et.
    - right. destruct (hp h r) as [[m0 a1 k1 p1|]|] eqn:Er; try discriminate. destruct (str_eqb m0 n) eqn:Em; [|discriminate]. split; [|reflexivity]. unfold chosen, named. rewrite Er. exact Em.
    - destruct (hp h i) as [[m0 a1 k1 p1|]|] eqn:Ei; try discriminate. unfold htext in Et. rewrite Ei in Et. discriminate.
    - left. destruct (hp h i) as [[m0 a1 k1 p1|]|] eqn:Ei; try discriminate. destruct (str_eqb m0 n) eqn:Em; [|discriminate]. injection T as <-.
      split; [reflexivity|]. split; [do 4 eexists; exact Ei|]. unfold chosen, named. rewrite Ei. exact Em.
  Qed.
  Lemma cut_turn h b cur pre m y st1 : M = pre ++ m -> cut_inv h m -> copied cur -> raws h (HNode r) cur (map Some m) Done -> qpulls h [FStep b (HNode r) (XDescendant, TName n) cur []] (QGives y st1) ->
    exists i h1, y = HNode i /\ cut_out h y h1 /\ forall h1, cut_out h y h1 -> behind (r :: M) h y h1 /\ parent_is h1 i None /\ (forall j, parent_is h j None -> parent_is h1 j None) /\
      exists a m' cur', m = a ++ i :: m' /\ st1 = [FStep b (HNode r) (XDescendant, TName n) cur' []] /\ raws h1 (HNode r) cur' (map Some m') Done /\ copied cur' /\ cut_inv h1 m'.
  Proof.
    intros EM (W & L0 & Lm & Pm & He) C R P. destruct (pull_named _ _ _ _ _ _ C R P) as (a & i & m' & cur' & -> & -> & R' & C' & [(-> & Hi & Hn)|(Hr & Ht)]).
    2: { exfalso. apply (He Hr i); [apply in_or_app; right; left; reflexivity|exact Ht]. }
    destruct (Pm i) as (q & Hq & Bq); [apply in_or_app; right; left; reflexivity|]. destruct (cut_step h i q W Hi Hq) as (h1 & E & W1 & P1 & O1). exists i, h1. split; [reflexivity|].
    pose proof (parent_parent h i q W Hq) as Xq. split; [exists i, q; auto|]. intros h2 (i' & q' & Ei & Xq' & E2). injection Ei as <-. rewrite Xq in Xq'. injection Xq' as <-. rewrite E in E2. injection E2 as <-.
    assert (Bh : edits_in (fun j => ~ after (r :: M) i j) h h1).
    { eapply (ei_cons _ q); [apply before_not_after; auto|right; exists i; exact E|apply ei_nil]. }
    split; [exists i; auto|]. split; [exact P1|]. split; [intros j Hj; destruct (Nat.eq_dec j i) as [->|]; [exact P1|apply O1; auto]|].
    assert (Al : allocated h) by (intros x o; apply (proj1 W)). destruct (edits_in_keep _ _ _ Bh Al) as (_ & Lk & K).
    assert (Ni : forall j, In j m' -> j <> i).
    { intros j Hj ->. rewrite EM in HM. inversion HM as [|? ? _ N]; subst. rewrite app_assoc in N. apply NoDup_remove_2 in N. apply N, in_or_app. right. exact Hj. }
    assert (Sub : forall j, In j m' -> In j (a ++ i :: m')) by (intros j Hj; apply in_or_app; right; right; exact Hj).
    exists a, m', cur'. split; [reflexivity|]. split; [reflexivity|]. split; [|split; [exact C'|]].
    - eapply raws_kept; [exact R'|exact C'|right]. intros j Hj. apply in_map_iff in Hj as (j' & Ej & Hj). injection Ej as ->. apply K. intros Hn'. apply Hn'. exists (r :: pre ++ a), m'.
      split; [|exact Hj]. cbn [app]. rewrite EM, <- app_assoc. reflexivity.
    - split; [exact W1|]. split; [eapply live_kept; eauto|]. split; [intros j Hj; eapply live_kept; [exact Lk|]; auto|]. split.
      + intros j Hj. destruct (Pm j (Sub j Hj)) as (qj & Hqj & Bj). exists qj. split; [apply O1; auto|exact Bj].
      + intros Hr j Hj. rewrite (htext_kept h h1 j Lk) by auto. apply He; [|auto]. unfold chosen in *. unfold live in L0. destruct (hp h r) as [o|] eqn:Eo; [|congruence].
        destruct (Lk _ _ Eo) as (o' & E' & S). rewrite E' in Hr. destruct o, o'; cbn in S; try contradiction; try discriminate. destruct S as [-> ->]. exact Hr.
  Qed.
  Lemma cut_loop h st out h' st' : qloop cut_out h st out h' st' -> forall pre m b cur, st = [FStep b (HNode r) (XDescendant, TName n) cur []] -> M = pre ++ m -> cut_inv h m -> copied cur ->
    raws h (HNode r) cur (map Some m) Done ->
    qloop (behind (r :: M)) h st out h' st' /\ (forall i, In (HNode i) out -> parent_is h' i None) /\ (forall j, parent_is h j None -> parent_is h' j None) /\
    forall y st1, qpulls h' st' (QGives y st1) -> exists h2, cut_out h' y h2.
  Proof.
    induction 1 as [h st|h st y st1 h1 out h2 st2 P B L IH]; intros pre m b cur -> EM I C R.
    - split; [apply ql_start|]. split; [intros i []|]. split; [auto|]. intros y st1 P. destruct (cut_turn _ _ _ _ _ _ _ EM I C R P) as (i & h1 & _ & H & _). eauto.
    - destruct (cut_turn _ _ _ _ _ _ _ EM I C R P) as (i & _ & -> & _ & U). destruct (U _ B) as (Bh & P1 & N1 & a & m' & cur' & -> & -> & R' & C' & I').
      destruct (IH (pre ++ a ++ [i]) m' b cur' eq_refl) as (Q & O & N2 & G); auto; [rewrite EM, <- !app_assoc; reflexivity|].
      split; [eapply ql_turn; eauto|]. split; [|split; [auto|exact G]]. intros j [Ej|Hj]; [injection Ej as <-; apply N2; exact P1|auto].
  Qed.
  Lemma cut_run k : forall h b pre m cur, length m <= k -> M = pre ++ m -> cut_inv h m -> copied cur -> raws h (HNode r) cur (map Some m) Done ->
    exists out h' st', qloop cut_out h [FStep b (HNode r) (XDescendant, TName n) cur []] out h' st' /\ qpulls h' st' QEnds.
  Proof.
    induction k as [|k IH]; intros h b pre m cur Hk EM I C R.
    - destruct m; [|cbn in Hk; lia]. exists [], h, [FStep b (HNode r) (XDescendant, TName n) cur []]. split; [apply ql_start|].
      pose proof (step_comes c h b (HNode r) (XDescendant, TName n) cur _ Done R ltac:(discriminate)) as Q. inversion Q; auto.
    - pose proof (step_comes c h b (HNode r) (XDescendant, TName n) cur _ Done R ltac:(discriminate)) as Q. inversion Q as [? P|? ? P|? y st1 l f P Q' E1 E2 E3].
      + exists [], h, [FStep b (HNode r) (XDescendant, TName n) cur []]. split; [apply ql_start|exact P].
      + destruct (cut_turn _ _ _ _ _ _ _ EM I C R P) as (i & h1 & -> & B & U). destruct (U _ B) as (Bh & P1 & N1 & a & m' & cur' & -> & -> & R' & C' & I').
        destruct (IH h1 b (pre ++ a ++ [i]) m' cur') as (out & h2 & st2 & L & En); auto.
        * rewrite app_length in Hk. cbn [length] in Hk. lia.
        * rewrite EM, <- !app_assoc. reflexivity.
        * exists (HNode i :: out), h2, st2. split; [eapply ql_turn; eauto|exact En].
  Qed.
End Cut.

(** ** The child axis with a name test: the same iteration as in treeutil.py *)
Section Child.
  Variable c : hitem -> rcache.
  Variables (r : ref) (t : ntest) (f : str -> dict str -> bool).
  Hypothesis Hf : name_sel t = Some f.
  Definition conv (st : list (frame unit)) : list pframe := map (fun x => FStep (HNode r) (HNode r) (XChild, t) (CKids (fst (fst x)) (snd (fst x))) []) st.
  Definition conv_res (x : @pres unit) : qres := match x with Ends => QEnds | Fails => QEnds | Gives i st => QGives (HNode i) (conv st) end.
  Lemma tested_child h i : tested h (HNode r) (XChild, t) (Some i) = if chosen f h i then [HNode i] else [].
  Proof.
    unfold tested, passes, chosen. cbn [fst snd]. unfold elem_of, hcopy, htext, htest. destruct t as [|m| |]; try discriminate; injection Hf as <-; cbn [is_name_test andb];
      destruct (hp h i) as [[n a ks p|s p]|] eqn:E; cbn [negb]; try reflexivity. rewrite E. unfold named. reflexivity.
  Qed.
  Lemma child_pull h k : forall st, qpull c k h (conv st) = option_map conv_res (pull (flat (chosen f)) k h st).
  Proof.
    induction k as [|k IH]; intros st; [reflexivity|]. destruct st as [|[[r1 i] []] st]; [reflexivity|]. cbn [conv map fst snd qpull pull tick turn cnext]. fold (conv st).
    destruct (nth_error (kids_of h r1) i) as [j|]; [|apply IH]. rewrite tested_child. unfold flat. destruct (chosen f h j).
    - reflexivity.
    - apply (IH ((r1, 1 + i, tt) :: st)).
  Qed.
  Lemma flat_sound h k : forall st, pull (flat (chosen f)) k h st <> Some Fails.
  Proof.
    induction k as [|k IH]; intros st; [discriminate|]. destruct st as [|[[r1 i] []] st]; cbn [pull tick]; [discriminate|]. destruct (nth_error _ i) as [j|]; [|apply IH].
    unfold flat. destruct (chosen f h j); [discriminate|apply IH].
  Qed.
  Lemma child_pulls h st x : qpulls c h (conv st) x <-> exists y, pulls (flat (chosen f)) h st y /\ x = conv_res y.
  Proof.
    split.
    - intros [k H]. rewrite child_pull in H. destruct (pull _ k h st) as [y|] eqn:E; [|discriminate]. injection H as <-. exists y. split; [exists k; exact E|reflexivity].
    - intros (y & [k H] & ->). exists k. rewrite child_pull, H. reflexivity.
  Qed.
  Lemma conv_goes_on h st0 st : (forall x, qpulls c h st x <-> qpulls c h (conv st0) x) -> goes_on c f h st st0.
  Proof.
    intros Q. split.
    - rewrite Q, child_pulls. split; [intros ([| |i st1] & Hy & E); try discriminate; [exact Hy|destruct Hy as [k Hy]; apply flat_sound in Hy; contradiction]|intros H; exists Ends; auto].
    - intros y. split.
      + intros (st1 & H). apply Q, child_pulls in H as ([| |i st2] & Hy & E); try discriminate. injection E as -> _. eauto.
      + intros (i & st1 & -> & H). exists (conv st1). apply Q, child_pulls. exists (Gives i st1). auto.
  Qed.
  Lemma child_loop (body : heap -> ref -> heap -> Prop) h st out h' st' : qloop c (on_node body) h st out h' st' -> forall st0, st = conv st0 ->
    exists out0 st1, out = map HNode out0 /\ st' = conv st1 /\ loop (flat (chosen f)) body h st0 out0 h' st1.
  Proof.
    induction 1 as [h st|h st y st1 h1 out h2 st2 P B L IH]; intros st0 ->; [exists [], st0; split; [reflexivity|]; split; [reflexivity|apply lo_start]|].
    apply child_pulls in P as ([| |i st3] & Hy & E); try discriminate. injection E as -> ->. destruct B as (i' & Ei & B). injection Ei as <-.
    destruct (IH st3 eq_refl) as (out0 & st4 & -> & -> & L0). exists (i :: out0), st4. split; [reflexivity|]. split; [reflexivity|]. eapply lo_turn; eauto.
  Qed.
  Lemma child_loop_back (body : heap -> ref -> heap -> Prop) h st0 out0 h' st1 : loop (flat (chosen f)) body h st0 out0 h' st1 -> qloop c (on_node body) h (conv st0) (map HNode out0) h' (conv st1).
  Proof.
    induction 1 as [h st|h st i st1 h1 out h2 st2 P B L IH]; [apply ql_start|]. cbn [map]. eapply ql_turn; [apply child_pulls; exists (Gives i st1); split; [exact P|reflexivity]|exists i; split; [reflexivity|exact B]|exact IH].
  Qed.
  Lemma child_query (body : heap -> ref -> heap -> Prop) h :
    (forall out h' st', qloop c (on_node body) h (query (HNode r) [(XChild, t)]) out h' st' ->
       exists out0 st0, out = map HNode out0 /\ loop (flat (chosen f)) body h [(r, 0, tt)] out0 h' st0 /\ goes_on c f h' st' st0) /\
    (forall out0 h' st0, loop (flat (chosen f)) body h [(r, 0, tt)] out0 h' st0 ->
       exists st', qloop c (on_node body) h (query (HNode r) [(XChild, t)]) (map HNode out0) h' st' /\ goes_on c f h' st' st0).
  Proof.
    split.
    - intros out h' st' L. apply query_loop in L as [(-> & -> & ->)|[_ L]].
      + exists [], [(r, 0, tt)]. split; [reflexivity|]. split; [apply lo_start|]. apply conv_goes_on. intros x. apply (eval_pull c h (HNode r) (HNode r) (XChild, t)).
      + destruct (child_loop _ _ _ _ _ _ L [(r, 0, tt)] eq_refl) as (out0 & st1 & -> & -> & L0). exists out0, st1. split; [reflexivity|]. split; [exact L0|]. apply conv_goes_on. reflexivity.
    - intros out0 h' st0 L. inversion L as [|? ? i st1 h1 out h2 st2 P B L']; subst.
      + exists (query (HNode r) [(XChild, t)]). split; [apply ql_start|]. apply conv_goes_on. intros x. apply (eval_pull c h' (HNode r) (HNode r) (XChild, t)).
      + exists (conv st0). split; [|apply conv_goes_on; reflexivity]. cbn [map]. eapply ql_turn; [apply eval_pull; apply (child_pulls h [(r, 0, tt)]); exists (Gives i st1); split; [exact P|reflexivity]|exists i; split; [reflexivity|exact B]|].
        apply child_loop_back. exact L'.
  Qed.
End Child.
