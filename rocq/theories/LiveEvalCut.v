(** Removal loops over descendants with predicates. *)
From Verif Require Import PyStr Parser XTree Heap Builder HeapSpec HeapFacts BuilderMore RootCache DocOrder XPath XQuery HeapNav HeapEval HeapEvalFuel HeapQuery.
From Verif Require Import ParserInv LiveIter LivePath LivePathSpec LivePathFacts LivePathLoops LivePathEdits LivePathCut LiveEval LiveEvalSpec LiveEvalFacts LiveEvalPath LiveEvalSift.

Lemma label_at_kept h h' : labels_kept h h' -> forall j, label_at h j <> None -> label_at h' j = label_at h j.
Proof.
  intros L j H. unfold label_at in *. destruct (hp h j) as [o|] eqn:E; [|congruence]. destruct (L _ _ E) as (o' & -> & S). destruct o, o'; cbn in S; try contradiction; [destruct S as [-> ->]; reflexivity|subst; reflexivity].
Qed.
Lemma chosen_kept f h h' i : labels_kept h h' -> live h i -> chosen f h' i = chosen f h i.
Proof.
  intros L H. unfold live, chosen in *. destruct (hp h i) as [o|] eqn:E; [|congruence]. destruct (L _ _ E) as (o' & -> & S). destruct o, o'; cbn in S; try contradiction; [destruct S as [-> ->]; reflexivity|reflexivity].
Qed.
Lemma filter_none {A} (f : A -> bool) l : (forall x, In x l -> f x = false) -> filter f l = [].
Proof. intros H. induction l as [|x l IH]; [reflexivity|]. cbn [filter]. rewrite (H x (or_introl eq_refl)). apply IH. intros y Hy. apply H. right. exact Hy. Qed.

Section Cut.
  Variable w : env.
  Variable hv : dict hval.
  Variable c : hitem -> rcache.
  Variables (n : str) (r : ref) (M : list ref) (ps : list expr) (S : ref -> bool) (h0 : heap) (x : hval).
  Hypothesis HM : NoDup (r :: M).
  Hypothesis HS : by_label w hv h0 ps S.
  Hypothesis Hlive : forall i, In i M -> live h0 i.
  Notation pick := (fun i => chosen (named n) h0 i && S i).
  (** [lm]: the nodes still to come. *)
  Definition going (m : moment) (src : gen) (lm : list ref) : Prop :=
    exists b cur pre, M = pre ++ lm /\ alike src [FStep b (HNode r) (XDescendant, TName n) cur []] /\ copied cur /\ raws (mh m) (HNode r) cur (map Some lm) Done /\
      cut_inv n r M (mh m) lm /\ labels_kept h0 (mh m).
  Lemma none_tested h b l : flat_map (tested h (HNode r) (XDescendant, TName n)) (map Some l) = [] -> labels_kept h0 h -> (forall i, In i l -> In i M) -> cut_inv n r M h b -> (forall i, In i l -> In i b) ->
    forall i, In i l -> chosen (named n) h0 i = false.
  Proof.
    intros T L Hl I Hb i Hi. rewrite <- (chosen_kept (named n) h0 h i L) by auto. assert (Ti : tested h (HNode r) (XDescendant, TName n) (Some i) = []).
    { clear - T Hi. induction l as [|j l IH]; [destruct Hi|]. cbn [map flat_map] in T. apply app_eq_nil in T as [T1 T2]. destruct Hi as [->|Hi]; auto. }
    rewrite tested_plain in Ti by discriminate. unfold chosen, named. cbn [htest] in Ti. unfold hcopy, htext in Ti. destruct (hp h i) as [[n1 a k q|s q]|] eqn:E; [|reflexivity|reflexivity].
    rewrite E in Ti. destruct (str_eqb n1 n); [discriminate|reflexivity].
  Qed.
  Lemma going_turn m src lm : going m src lm ->
    (gpulls w hv m src Ended /\ forall i, In i lm -> chosen (named n) h0 i = false) \/
    exists a i lm' src1 o, lm = a ++ i :: lm' /\ (forall j, In j a -> chosen (named n) h0 j = false) /\ chosen (named n) h0 i = true /\ elem_of h0 i = true /\
      gpulls w hv m src (Given (Obj (HNode i) o) src1) /\ vcopy (mh m) x (Obj (HNode i) o) = Obj (HNode i) o /\ going m src1 lm' /\ (exists m1, takes_out m (Obj (HNode i) o) m1) /\
      forall m1, takes_out m (Obj (HNode i) o) m1 -> going m1 src1 lm' /\ parent_is (mh m1) i None /\ forall j q, parent_is (mh m) j q -> j <> i -> parent_is (mh m1) j q.
  Proof.
    intros (b & cur & pre & EM & A & C & R & I & L). pose proof (alike_meets w hv c m _ _ A) as Me.
    pose proof (step_comes c (mh m) b (HNode r) (XDescendant, TName n) cur _ Done R ltac:(discriminate)) as Q.
    assert (Sub : forall i, In i lm -> In i M) by (intros i Hi; rewrite EM; apply in_or_app; right; exact Hi).
    inversion Q as [? P Ef E0|? ? P|? y st1 l f P Q' E1 E2 E3].
    - left. destruct (proj2 Me _ P) as ([|e|z g1] & G & Ag); try contradiction. split; [exact G|]. intros i Hi. eapply none_tested; [symmetry; exact E0|exact L|exact Sub|exact I|auto|exact Hi].
    - right. destruct (proj2 Me _ P) as ([|e|z g1] & G & Ag); try contradiction. destruct Ag as [(o & ->) Ag].
      destruct (pull_raws c _ _ _ _ _ _ _ R _ _ P) as (a' & z & ys' & cur' & Ey & -> & R' & T & Na & C' & _).
      assert (Em : exists a0 i m', lm = a0 ++ i :: m' /\ a' = map Some a0 /\ z = Some i /\ ys' = map Some m').
      { clear - Ey. revert lm Ey. induction a' as [|u a IH]; intros [|i lm] Ey; try discriminate.
        - injection Ey as <- <-. exists [], i, lm. auto.
        - injection Ey as <- Ey. destruct (IH _ Ey) as (a0 & i' & m' & -> & -> & -> & ->). exists (i :: a0), i', m'. auto. }
      destruct Em as (a & i & lm' & -> & -> & -> & ->). destruct (cut_turn c n r M HM (mh m) b cur pre _ y _ EM I C R P) as (i1 & h1 & -> & B & U).
      destruct (U _ B) as (_ & _ & _ & a1 & m1 & cur1 & Em1 & Es1 & R1 & C1 & I1).
      assert (Hi : In i (a ++ i :: lm')) by (apply in_or_app; right; left; reflexivity). pose proof (Hlive i (Sub i Hi)) as Li.
      destruct I as (W & L0 & Lm & Pm & He).
      assert (Ti : i1 = i /\ is_elem (mh m) i /\ chosen (named n) (mh m) i = true).
      { rewrite tested_plain in T by discriminate. cbn [htest] in T. unfold hcopy in T. destruct (htext (mh m) i) as [[|k s]|] eqn:Et.
        - exfalso. destruct (hp (mh m) r) as [[m0 a2 k1 p1|]|] eqn:Er; try discriminate. destruct (str_eqb m0 n) eqn:Em; [|discriminate]. apply (He ltac:(unfold chosen, named; rewrite Er; exact Em) i Hi Et).
        - destruct (hp (mh m) i) as [[m0 a2 k1 p1|]|] eqn:Ei; try discriminate. unfold htext in Et. rewrite Ei in Et. discriminate.
        - destruct (hp (mh m) i) as [[m0 a2 k1 p1|]|] eqn:Ei; try discriminate. destruct (str_eqb m0 n) eqn:Em; [|discriminate]. injection T as <-.
          split; [reflexivity|]. split; [do 4 eexists; exact Ei|]. unfold chosen, named. rewrite Ei. exact Em. }
      destruct Ti as (-> & Ei & Ch). pose proof Ch as Ch0. rewrite (chosen_kept _ h0 (mh m) i L Li) in Ch0.
      assert (Nd : NoDup (a ++ i :: lm')). { rewrite EM in HM. inversion HM as [|? ? _ N]; subst. clear - N. induction pre as [|u pre IH]; [exact N|]. inversion N; auto. }
      assert (X : a1 = a /\ m1 = lm').
      { clear - Em1 Nd. revert a1 Em1. induction a as [|u a IH]; intros [|u1 a1] E; cbn [app] in E.
        - injection E as E. auto.
        - injection E as <- E. exfalso. cbn [app] in Nd. inversion Nd as [|? ? H _]; subst. apply H. apply in_or_app. right. left. reflexivity.
        - injection E as -> E. exfalso. cbn [app] in Nd. inversion Nd as [|? ? H _]; subst. apply H. apply in_or_app. right. left. reflexivity.
        - injection E as <- E. cbn [app] in Nd. inversion Nd; subst. destruct (IH H2 a1 E) as [-> ->]. auto. }
      destruct X as [-> ->]. injection Es1 as <-.
      assert (Sub' : forall j, In j lm' -> In j (a ++ i :: lm')) by (intros j Hj; apply in_or_app; right; right; exact Hj).
      exists a, i, lm', g1, o. split; [reflexivity|]. split.
      { intros j Hj. eapply (none_tested (mh m) (a ++ i :: lm') a); [exact Na|exact L| |split; [exact W|]; split; [exact L0|]; split; [exact Lm|]; split; [exact Pm|exact He]| |exact Hj].
        - intros k Hk. apply Sub, in_or_app. left. exact Hk.
        - intros k Hk. apply in_or_app. left. exact Hk. }
      split; [exact Ch0|]. split; [unfold chosen in Ch0; unfold elem_of; destruct (hp h0 i) as [[| ]|]; try discriminate; reflexivity|]. split; [exact G|].
      split; [destruct Ei as (n1 & a2 & k1 & p1 & Ei); unfold vcopy, vtrue; cbn [vstring]; unfold htext; rewrite Ei; reflexivity|].
      split.
      { exists b, cur', (pre ++ a ++ [i]). split; [rewrite EM, <- !app_assoc; reflexivity|]. split; [exact Ag|]. split; [auto|]. split; [exact R'|]. split; [|exact L].
        split; [exact W|]. split; [exact L0|]. split; [intros j Hj; apply Lm; auto|]. split; [intros j Hj; apply Pm; auto|]. intros Hr j Hj. apply (He Hr); auto. }
      split.
      { destruct B as (i' & q & Ei' & Xq & E). injection Ei' as <-. exists (At h1 (mc m) (mv m)), i, o, q. auto. }
      intros m2 (i' & o' & q & Ei' & Xq & E). injection Ei' as <- <-. assert (B2 : cut_out (mh m) (HNode i) (mh m2)) by (exists i, q; auto).
      destruct (U _ B2) as (Bh & P1 & _ & a3 & m3 & cur3 & Em3 & Es3 & R3 & C3 & I3).
      assert (X : a3 = a /\ m3 = lm').
      { clear - Em3 Nd. revert a3 Em3. induction a as [|u a IH]; intros [|u1 a1] E; cbn [app] in E.
        - injection E as E. auto.
        - injection E as <- E. exfalso. cbn [app] in Nd. inversion Nd as [|? ? H _]; subst. apply H. apply in_or_app. right. left. reflexivity.
        - injection E as -> E. exfalso. cbn [app] in Nd. inversion Nd as [|? ? H _]; subst. apply H. apply in_or_app. right. left. reflexivity.
        - injection E as <- E. cbn [app] in Nd. inversion Nd; subst. destruct (IH H2 a1 E) as [-> ->]. auto. }
      destruct X as [-> ->]. injection Es3 as <-. destruct Bh as (i' & Ei' & Bh). injection Ei' as <-. assert (Al : allocated (mh m)) by (intros u o'; apply (proj1 W)).
      destruct (edits_in_keep _ _ _ Bh Al) as (_ & Lk & _).
      split; [|split; [exact P1|]].
      + exists b, cur', (pre ++ a ++ [i]). split; [rewrite EM, <- !app_assoc; reflexivity|]. split; [exact Ag|]. split; [auto|]. split; [exact R3|]. split; [exact I3|]. eapply labels_trans; eauto.
      + intros j p Hj Hne. destruct (cut_step (mh m) i q W Ei (xml_parent_is _ _ _ Xq)) as (h2 & Eh & _ & _ & O2). rewrite E in Eh. injection Eh as <-. auto.
  Qed.
  Lemma going_labels m src lm : going m src lm -> forall j, label_at h0 j <> None -> label_at (mh m) j = label_at h0 j.
  Proof. intros (b & cur & pre & _ & _ & _ & _ & _ & L). apply label_at_kept, L. Qed.
  Lemma pick_skip a i lm : (forall j, In j a -> chosen (named n) h0 j = false) -> filter pick (a ++ i :: lm) = (if pick i then [i] else []) ++ filter pick lm.
  Proof. intros Ha. rewrite filter_app, filter_none by (intros j Hj; rewrite (Ha j Hj); reflexivity). cbn [app filter]. destruct (pick i); reflexivity. Qed.
  Lemma sift_cut pos m src out pos' m' src' : sifted w hv takes_out x ps pos m src out pos' m' src' -> forall lm, going m src lm ->
    exists outs lm', Forall2 is_ref out outs /\ filter pick lm = outs ++ filter pick lm' /\ going m' src' lm' /\
      (forall i, In i outs -> parent_is (mh m') i None) /\ (forall j, parent_is (mh m) j None -> parent_is (mh m') j None) /\ (forall j q, parent_is (mh m) j q -> ~ In j outs -> parent_is (mh m') j q).
  Proof.
    intros Sf. induction Sf as [pos m g|pos m g y g1 m1 out pos2 m2 g2 P K B Sf IH|pos m g y g1 z out pos2 m2 g2 P D Sf IH]; intros lm G.
    - exists [], lm. split; [constructor|]. split; [reflexivity|]. split; [exact G|]. split; [intros i []|auto].
    - destruct (going_turn m g lm G) as [[E _]|(a & i & lm' & src1 & o & -> & Ha & Ch & El & P' & V & G1 & _ & U)]; [pose proof (gpulls_det _ _ _ _ _ _ P E); discriminate|].
      pose proof (gpulls_det _ _ _ _ _ _ P P') as E. injection E as -> ->. rewrite V in K. destruct (U _ B) as (G2 & P1 & O1). destruct (IH lm' G2) as (outs & lm2 & F & Ef & G3 & Q1 & Q2 & Q3).
      assert (Si : S i = true) by (apply (HS m pos i o (going_labels _ _ _ G) El), K).
      exists (i :: outs), lm2. split; [constructor; [exists o; reflexivity|exact F]|]. split; [rewrite pick_skip, Ch, Si by exact Ha; cbn [andb app]; rewrite Ef; reflexivity|]. split; [exact G3|].
      assert (N1 : forall j, parent_is (mh m) j None -> parent_is (mh m1) j None) by (intros j Hj; destruct (Nat.eq_dec j i) as [->|Hne]; auto).
      split; [intros j [<-|Hj]; auto|]. split; [auto|]. intros j q Hj Hn. apply Q3; [apply O1; [exact Hj|intros ->; apply Hn; left; reflexivity]|intros Hj'; apply Hn; right; exact Hj'].
    - destruct (going_turn m g lm G) as [[E _]|(a & i & lm' & src1 & o & -> & Ha & Ch & El & P' & V & G1 & _ & U)]; [pose proof (gpulls_det _ _ _ _ _ _ P E); discriminate|].
      pose proof (gpulls_det _ _ _ _ _ _ P P') as E. injection E as -> ->. rewrite V in D. destruct (IH lm' G1) as (outs & lm2 & F & Ef & R).
      assert (Si : S i = false) by (apply (HS m pos i o (going_labels _ _ _ G) El), D).
      exists outs, lm2. split; [exact F|]. split; [rewrite pick_skip, Ch, Si by exact Ha; cbn [andb app]; exact Ef|exact R].
  Qed.
  Lemma no_more_cut m pos src : no_more w hv x ps m pos src -> forall lm, going m src lm -> filter pick lm = [].
  Proof.
    intros N. induction N as [pos g P|pos g y g1 P D N IH]; intros lm G; destruct (going_turn m g lm G) as [[E H]|(a & i & lm' & src1 & o & -> & Ha & Ch & El & P' & V & G1 & _ & U)].
    - apply filter_none. intros i Hi. rewrite (H i Hi). reflexivity.
    - pose proof (gpulls_det _ _ _ _ _ _ P P'). discriminate.
    - pose proof (gpulls_det _ _ _ _ _ _ P E). discriminate.
    - pose proof (gpulls_det _ _ _ _ _ _ P P') as E. injection E as -> ->. rewrite V in D. assert (Si : S i = false) by (apply (HS m pos i o (going_labels _ _ _ G) El), D).
      rewrite pick_skip, Ch, Si by exact Ha. cbn [andb app]. apply IH, G1.
  Qed.
  Lemma sift_run k : forall pos m src lm, length lm <= k -> going m src lm -> exists out pos' m' src', sifted w hv takes_out x ps pos m src out pos' m' src' /\ no_more w hv x ps m' pos' src'.
  Proof.
    induction k as [|k IH]; intros pos m src lm Hk G; (destruct (going_turn m src lm G) as [[E H]|(a & i & lm' & src1 & o & -> & Ha & Ch & El & P' & V & G1 & (m1 & B) & U)];
      [exists [], pos, m, src; split; [apply si_start|apply nm_end, E]|]); rewrite app_length in Hk; cbn [length] in Hk; [lia|].
    destruct (HS m pos i o (going_labels _ _ _ G) El) as [K D]. destruct (S i) eqn:Si.
    - destruct (U _ B) as (G2 & _). destruct (IH (Datatypes.S pos) m1 src1 lm' ltac:(lia) G2) as (out & pos' & m' & src' & Sf & N). exists (Obj (HNode i) o :: out), pos', m', src'. split; [|exact N].
      eapply si_keep; [exact P'|rewrite V; apply K; reflexivity|exact B|exact Sf].
    - assert (Dl : left_out w hv m ps pos (vcopy (mh m) x (Obj (HNode i) o))) by (rewrite V; apply D; reflexivity).
      destruct (IH (Datatypes.S pos) m src1 lm' ltac:(lia) G1) as (out & pos' & m' & src' & Sf & N). destruct out as [|z out].
      + inversion Sf; subst. exists [], pos, m', src. split; [apply si_start|]. eapply nm_drop; eauto.
      + exists (z :: out), pos', m', src'. split; [|exact N]. eapply si_drop; eauto.
  Qed.
End Cut.

(** ** The start *)
Section Start.
  Variable w : env.
  Variable hv : dict hval.
  Lemma sifted_same body x ps pos m g g0 z out pos' m' g' : (forall r, gpulls w hv m g r -> gpulls w hv m g0 r) ->
    sifted w hv body x ps pos m g (z :: out) pos' m' g' -> sifted w hv body x ps pos m g0 (z :: out) pos' m' g'.
  Proof. intros H S. inversion S; subst; [eapply si_keep; eauto|eapply si_drop; eauto]. Qed.
  Lemma no_more_same x ps pos m g g0 : (forall r, gpulls w hv m g r -> gpulls w hv m g0 r) -> no_more w hv x ps m pos g -> no_more w hv x ps m pos g0.
  Proof. intros H S. inversion S; subst; [apply nm_end; auto|eapply nm_drop; eauto]. Qed.
  Variables (n : str) (r : ref) (o : birth) (ps : list expr) (S : ref -> bool) (m : moment) (p : option ref) (t : xtree) (ids : list ref).
  Hypothesis W : well_linked (mh m).
  Hypothesis H : holds (mh m) p r t ids.
  Hypothesis Hn : chosen (named n) (mh m) r = true -> forall i, In i (tl ids) -> htext (mh m) i <> Some [].
  Hypothesis HS : by_label w hv (mh m) ps S.
  Notation src0 := (GStart (EStep AxDescendant (TName n)) (Obj (HNode r) o)).
  Notation src1 := (GStep (Try AxDescendant (TName n)) (HNode r) o (enter (mh m) AxDescendant (HNode r))).
  Lemma src_same r0 : gpulls w hv m src0 r0 <-> gpulls w hv m src1 r0.
  Proof. split; [intros ([|k] & P); [discriminate|]; exists k; exact P|intros P; apply (pull_start w hv 0 m (EStep AxDescendant (TName n))), P]. Qed.
  Lemma ids_nodup : NoDup ids.
  Proof. destruct (proj1 (holds_live (mh m)) _ _ _ _ H r) as (o1 & Ho); [inversion H; left; reflexivity|]. pose proof W as (_ & Hl & Ht & _). eapply (proj1 (holds_nodup (mh m) Hl Ht)); eauto. Qed.
  Lemma ids_head : ids = r :: tl ids.
  Proof. inversion H; reflexivity. Qed.
  Lemma ids_live i : In i ids -> live (mh m) i.
  Proof. intros Hi. destruct (proj1 (holds_live (mh m)) _ _ _ _ H i Hi) as (o1 & Ho). unfold live. rewrite Ho. discriminate. Qed.
  Lemma going_start : going n r (tl ids) (mh m) m src1 (tl ids).
  Proof.
    exists (HNode r), (cstart (mh m) XDescendant (HNode r)), []. split; [reflexivity|]. split.
    { eapply al_path, fr_one. change src1 with (GStep (Try (axis_of (fst (XDescendant, TName n))) (snd (XDescendant, TName n))) (HNode r) o (enter (mh m) (axis_of XDescendant) (HNode r))). rewrite enter_cstart. apply fo_step. }
    pose proof ids_nodup as N. destruct (tree_order (mh m) p r t ids H) as (M & E & R). assert (Et : tl ids = M) by (rewrite E; reflexivity). rewrite Et in *.
    assert (Hk : cstart (mh m) XDescendant (HNode r) = CWork (kids_of (mh m) r)) by reflexivity. rewrite Hk.
    split; [exact I|]. split; [apply R|]. split; [|intros i o1 Ho; exists o1; split; [exact Ho|apply label_refl]].
    split; [exact W|]. split; [apply ids_live; rewrite E; left; reflexivity|]. split; [intros i Hi; apply ids_live; rewrite E; right; exact Hi|]. split; [|exact Hn].
    intros i Hi. subst ids. destruct (proj2 (proj1 (parent_before (mh m)) _ _ _ _ H) i (or_intror Hi)) as [->|Hq]; [|exact Hq]. inversion N; contradiction.
  Qed.
  Notation picks := (filter S (filter (chosen (named n) (mh m)) (tl ids))).
  Lemma filter_both l : filter (fun i => chosen (named n) (mh m) i && S i) l = filter S (filter (chosen (named n) (mh m)) l).
  Proof. induction l as [|i l IH]; [reflexivity|]. cbn [filter]. destruct (chosen (named n) (mh m) i); cbn [andb filter]; rewrite IH; reflexivity. Qed.
  Lemma cut_where : let g := GStart (EPred (EStep AxDescendant (TName n)) ps) (Obj (HNode r) o) in
    (exists out m' g', gloop w hv takes_out m g out m' g' /\ gpulls w hv m' g' Ended) /\
    forall out m' g', gloop w hv takes_out m g out m' g' -> gpulls w hv m' g' Ended ->
      Forall2 is_ref out picks /\ (forall i, In i picks -> parent_is (mh m') i None) /\ (forall j q, parent_is (mh m) j q -> ~ In j picks -> parent_is (mh m') j q).
  Proof.
    intros g. pose proof ids_nodup as N. rewrite ids_head in N. pose proof going_start as G.
    assert (Lv : forall i, In i (tl ids) -> live (mh m) i) by (intros i Hi; apply ids_live; rewrite ids_head; right; exact Hi).
    assert (Me : gpulls w hv m (GStart (EPred (EStep AxDescendant (TName n)) ps) (Obj (HNode r) o)) Ended <-> no_more w hv (Obj (HNode r) o) ps m 1 src0) by (rewrite <- pred_ends; apply start_pred).
    split.
    - destruct (sift_run w hv (fun _ => empty_cache) n r (tl ids) ps S (mh m) (Obj (HNode r) o) N HS Lv _ 1 m src1 (tl ids) (le_n _) G) as (out & pos' & m' & src' & Sf & Nm). destruct out as [|z out].
      + assert (X : m' = m /\ src' = src1 /\ pos' = 1) by (inversion Sf; auto). destruct X as (-> & -> & ->). exists [], m, g. split; [apply gl_start|]. apply Me. eapply no_more_same; [|exact Nm]. intros r0. apply src_same.
      + exists (z :: out), m', (GPred (Obj (HNode r) o) pos' ps src'). split; [|apply pred_ends; exact Nm]. apply filter_loop. exists pos', src'. split; [reflexivity|]. eapply sifted_same; [|exact Sf]. intros r0. apply src_same.
    - intros out m' g' L E. destruct out as [|z out].
      + assert (X : m' = m /\ g' = g) by (inversion L; auto). destruct X as (-> & ->). apply Me in E. eapply no_more_same in E; [|intros r0; apply src_same]. pose proof (no_more_cut w hv (fun _ => empty_cache) n r (tl ids) ps S (mh m) (Obj (HNode r) o) N HS Lv m 1 src1 E (tl ids) G) as F.
        rewrite filter_both in F. rewrite F. split; [constructor|]. split; [intros i []|auto].
      + apply filter_loop in L as (pos & src & -> & Sf). apply pred_ends in E. eapply sifted_same in Sf; [|intros r0; apply src_same].
        destruct (sift_cut w hv (fun _ => empty_cache) n r (tl ids) ps S (mh m) (Obj (HNode r) o) N HS Lv _ _ _ _ _ _ _ Sf (tl ids) G) as (outs & lm' & F & Ef & G' & Q1 & _ & Q3).
        rewrite (no_more_cut w hv (fun _ => empty_cache) n r (tl ids) ps S (mh m) (Obj (HNode r) o) N HS Lv m' pos src E lm' G'), app_nil_r, filter_both in Ef. subst outs. auto.
  Qed.
End Start.

(** ** [@k] *)
Lemma attr_value w hv m k i o z : k <> lit "*" -> pred_value w hv m (EStep AxAttribute (TName k)) (Obj (HNode i) o) z <->
  match label_at (mh m) i with
  | Some (inl (_, a)) => match filter (fun kv => str_eqb k (fst kv)) a with kv :: _ => z = Obj (HAttr i (fst kv) (snd kv)) Made | [] => z = VBool false end
  | _ => z = VBool false
  end.
Proof.
  intros Hk. assert (Hs : str_eqb k (lit "*") = false) by (destruct (str_eqb k (lit "*")) eqn:E; [apply str_eqb_eq in E; contradiction|reflexivity]).
  assert (Ev : forall q, heval (mh m) w hv (mc m) (mv m) q (EStep AxAttribute (TName k)) (Obj (HNode i) o) =
    (map (fun kv => Obj (HAttr i (fst kv) (snd kv)) Made) match label_at (mh m) i with Some (inl (_, a)) => filter (fun kv => str_eqb k (fst kv)) a | _ => [] end, Done)).
  { intros q. rewrite hev_step. unfold vstep, hstep, label_at. destruct (hp (mh m) i) as [[n1 a ks q1|s q1]|]; try reflexivity. cbn [test_name]. rewrite map_map. do 2 f_equal.
    apply filter_ext. intros kv. rewrite Hs. reflexivity. }
  unfold pred_value. split.
  - intros (q & V). rewrite Ev in V. destruct (label_at (mh m) i) as [[[n1 a]|s]|]; [destruct (filter _ a) as [|kv l]|..]; cbn [map] in V;
      (destruct V as [(l1 & f & V)|[V ->]]; [try discriminate; injection V as <- _ _; reflexivity|try discriminate; reflexivity]).
  - intros V. exists 0. rewrite Ev. destruct (label_at (mh m) i) as [[[n1 a]|s]|]; [destruct (filter _ a) as [|kv l]; [right|left; subst z; cbn [map]; eauto]|right|right]; auto.
Qed.
Lemma attr_by_label w hv h k : k <> lit "*" -> by_label w hv h [EStep AxAttribute (TName k)] (chosen (fun _ a => match dict_get a k with Some _ => true | None => false end) h).
Proof.
  intros Hk m pos i o L El. assert (Li : label_at h i <> None /\ exists n a, label_at h i = Some (inl (n, a)) /\ chosen (fun _ a => match dict_get a k with Some _ => true | None => false end) h i = match dict_get a k with Some _ => true | None => false end).
  { unfold label_at, chosen, elem_of in *. destruct (hp h i) as [[n a ks q|]|]; try discriminate. split; [discriminate|eauto]. }
  destruct Li as (Li & n & a & Ea & ->). pose proof (L i Li) as Lm. rewrite Ea in Lm.
  pose proof (fun z => attr_value w hv m k i o z Hk) as V. rewrite Lm in V.
  assert (Ef : match dict_get a k with Some _ => true | None => false end = match filter (fun kv => str_eqb k (fst kv)) a with [] => false | _ => true end).
  { clear. induction a as [|[k1 v1] a IH]; [reflexivity|]. cbn [dict_get filter fst]. assert (Es : str_eqb k1 k = str_eqb k k1) by (destruct (str_eqb k1 k) eqn:E1, (str_eqb k k1) eqn:E2; try reflexivity; [apply str_eqb_eq in E1; subst; rewrite str_eqb_refl in E2; discriminate|apply str_eqb_eq in E2; subst; rewrite str_eqb_refl in E1; discriminate]). rewrite Es. destruct (str_eqb k k1); [reflexivity|exact IH]. }
  rewrite Ef. destruct (filter (fun kv => str_eqb k (fst kv)) a) as [|kv l]; split; split; intros X; try reflexivity; try discriminate.
  - inversion X as [|? ? (z & Vz & T) _]; subst. apply V in Vz. subst z. discriminate T.
  - exists [], (EStep AxAttribute (TName k)), [], (VBool false). split; [reflexivity|]. split; [constructor|]. split; [apply V; reflexivity|reflexivity].
  - constructor; [|constructor]. eexists. split; [apply V; reflexivity|reflexivity].
  - destruct X as (ps1 & p & ps2 & z & E & _ & Vz & F). destruct ps1 as [|? [|]]; try discriminate. injection E as <- <-. apply V in Vz. subst z. discriminate F.
Qed.
