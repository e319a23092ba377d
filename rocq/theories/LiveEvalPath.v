(** LiveEval's generators for location paths and LivePath's stacks go together. *)
From Verif Require Import PyStr Parser XTree Heap Builder HeapSpec RootCache DocOrder XPath XQuery HeapNav HeapEval HeapQuery.
From Verif Require Import LiveIter LivePath LivePathSpec LivePathFacts LiveEval LiveEvalSpec LiveEvalFacts LiveEvalStart.

Definition place_of (cur : cursor) : place :=
  match cur with
  | CKids r i => PKids r i | CList l => PList l | CWork l => PWork l | CSelf => PSelf | CSelfWork => PSelfWork | CLate => PWorkLate | CBad e => PBad e
  end.
Lemma move_cnext m t x o cur : move m t x o (place_of cur) =
  match cnext (mh m) x cur with KEnd => NoMore | KBad e => Bad (Exn e) | KItem y cur' => Node y (place_of cur') end.
Proof.
  destruct cur as [r i|l|l| | | |e]; cbn [move place_of cnext]; try reflexivity.
  - change (kids_of (mh m) r) with (hkids1 (mh m) r). destruct (nth_error _ i); reflexivity.
  - destruct l; reflexivity.
  - destruct l; reflexivity.
  - destruct (hkids (mh m) x) as [[|]|]; reflexivity.
Qed.
Lemma beside_place h x k k' : (forall n l, k n l = place_of (k' n l)) -> beside h x k = place_of (beside_of h x k').
Proof. intros H. unfold beside, beside_of. destruct (hparent h x) as [p|]; [|reflexivity]. destruct (hindex h p x); [apply H|reflexivity]. Qed.
Lemma enter_cstart h ax x : enter h (axis_of ax) x = place_of (cstart h ax x).
Proof.
  destruct ax; cbn [axis_of enter cstart]; try reflexivity; try (apply beside_place; reflexivity).
  - destruct x; reflexivity.
  - destruct (hkids h x); reflexivity.
Qed.
Lemma seen_tested h ax t x y : seen h (Try (axis_of ax) t) x y = tested h x (ax, t) y.
Proof. unfold tested, passes. destruct ax, y; cbn [axis_of seen fst snd]; try reflexivity; change (elem_of h r) with (helem h r); destruct (is_name_test t && negb (helem h r)); reflexivity. Qed.
Lemma copy_same h b ob z o : exists o', vcopy h (Obj b ob) (Obj z o) = Obj (hcopy_item h b z) o'.
Proof.
  unfold vcopy, vtrue. destruct z as [q|i|i k v]; cbn [vstring hcopy_item].
  - eexists. reflexivity.
  - unfold hcopy. destruct (htext h i) as [[|c s]|]; eexists; reflexivity.
  - eexists. reflexivity.
Qed.

Lemma epath_snoc s p r : epath s (p ++ [r]) = EBin (epath s p) OpPath (estep r).
Proof. unfold epath. rewrite fold_left_app. reflexivity. Qed.

(** The frames of a generator for a path in the context [b], with the steps [p] after it. *)
Inductive frame_of (b : hitem) (p : list stage) : gen -> pframe -> Prop :=
| fo_start s x o : frame_of b p (GStart (estep s) (Obj x o)) (FEval b x (s :: p))
| fo_step s x o cur : frame_of b p (GStep (Try (axis_of (fst s)) (snd s)) x o (place_of cur)) (FStep b x s cur p).
Inductive frames_of (b : hitem) : list stage -> gen -> list pframe -> Prop :=
| fr_one p g f : frame_of b p g f -> frames_of b p g [f]
| fr_path p s l o : frames_of b p (GStart (epath s l) (Obj b o)) [FEval b b (s :: l ++ p)]
| fr_none p s o src st : frames_of b (s :: p) src st -> frames_of b p (GFor (Obj b o) (estep s) None src) st
| fr_some p s o g1 f src st : frame_of b p g1 f -> frames_of b (s :: p) src st -> frames_of b p (GFor (Obj b o) (estep s) (Some g1) src) (f :: st).

Section Path.
  Variable w : env.
  Variable hv : dict hval.
  Variable c : hitem -> rcache.
  Notation next := (gnext w hv).

  Lemma qpulls_turn h f st fs r : turn c h f = Turns None fs -> qpulls c h (fs ++ st) r -> qpulls c h (f :: st) r.
  Proof. intros T (k & P). exists (S k). cbn [qpull]. rewrite T. exact P. Qed.
  Lemma qpulls_over h f st r : turn c h f = Over -> qpulls c h st r -> qpulls c h (f :: st) r.
  Proof. intros T (k & P). exists (S k). cbn [qpull]. rewrite T. exact P. Qed.
  Lemma qpulls_raise h f st e : turn c h f = Raised e -> qpulls c h (f :: st) (QFails e).
  Proof. intros T. exists 1. cbn [qpull]. rewrite T. reflexivity. Qed.
  Lemma qpulls_give h f st y fs : turn c h f = Turns (Some y) fs -> qpulls c h (f :: st) (QGives y (fs ++ st)).
  Proof. intros T. exists 1. cbn [qpull]. rewrite T. reflexivity. Qed.

  (** What the stack does when the generator does [r]. *)
  Definition follows (h : heap) (b : hitem) (p : list stage) (st : list pframe) (r : given) (F : gen -> list pframe -> Prop) : Prop :=
    forall R, match r with
    | Ended => forall q, qpulls c h R q -> qpulls c h (st ++ R) q
    | Failed e => qpulls c h (st ++ R) (QFails e)
    | Given y g' => exists z o st', y = Obj z o /\ F g' st' /\
        match p with
        | [] => qpulls c h (st ++ R) (QGives z (st' ++ R))
        | _ => forall q, qpulls c h (FEval b (hcopy_item h b z) p :: st' ++ R) q -> qpulls c h (st ++ R) q
        end
    end.
  Lemma step_follows k : forall m b p s x o cur r, next k m (GStep (Try (axis_of (fst s)) (snd s)) x o (place_of cur)) = Some r ->
    follows (mh m) b p [FStep b x s cur p] r (fun g st => exists f, frame_of b p g f /\ st = [f]).
  Proof.
    induction k as [|k IH]; intros m b p s x o cur r P R; [discriminate|]. cbn [gnext] in P. rewrite move_cnext in P. destruct s as [ax t]. cbn [fst snd] in *.
    destruct (cnext (mh m) x cur) as [|e|y cur'] eqn:C.
    - injection P as <-. intros q Q. eapply qpulls_over; [cbn [turn]; rewrite C; reflexivity|exact Q].
    - injection P as <-. apply qpulls_raise. cbn [turn]. rewrite C. reflexivity.
    - rewrite seen_tested in P. destruct (tested (mh m) x (ax, t) y) as [|z zs] eqn:T.
      + pose proof (IH m b p (ax, t) x o cur' r P R) as K.
        assert (G : forall q, qpulls c (mh m) ([FStep b x (ax, t) cur' p] ++ R) q -> qpulls c (mh m) ([FStep b x (ax, t) cur p] ++ R) q).
        { intros q Q. eapply qpulls_turn; [cbn [turn]; rewrite C, T; reflexivity|exact Q]. }
        destruct r as [|e|y' g']; [intros q Q; apply G, K, Q|apply G, K|]. destruct K as (z & o' & st' & E & F & K). exists z, o', st'. split; [exact E|]. split; [exact F|].
        destruct p; [apply G, K|intros q Q; apply G, K, Q].
      + injection P as <-. exists z, o, [FStep b x (ax, t) cur' p]. split; [reflexivity|]. split; [eexists; split; [apply (fo_step b p (ax, t))|reflexivity]|]. destruct p as [|s2 p].
        * eapply (qpulls_give _ _ R z [FStep b x (ax, t) cur' []]). cbn [turn]. rewrite C, T. reflexivity.
        * intros q Q. eapply (qpulls_turn _ _ R [FEval b (hcopy_item (mh m) b z) (s2 :: p); FStep b x (ax, t) cur' (s2 :: p)]); [cbn [turn]; rewrite C, T; reflexivity|exact Q].
  Qed.
  Lemma frame_follows k m b p g f r : frame_of b p g f -> next k m g = Some r -> follows (mh m) b p [f] r (fun g st => exists f, frame_of b p g f /\ st = [f]).
  Proof.
    intros F P. destruct F as [s x o|s x o cur]; [|eapply step_follows; exact P]. destruct k as [|k]; [discriminate|]. cbn [gnext estep begin] in P. rewrite enter_cstart in P.
    intros R. pose proof (step_follows k m b p s x o _ r P R) as K.
    assert (G : forall q, qpulls c (mh m) ([FStep b x s (cstart (mh m) (fst s) x) p] ++ R) q -> qpulls c (mh m) ([FEval b x (s :: p)] ++ R) q) by (intros q Q; eapply qpulls_turn; [reflexivity|exact Q]).
    destruct r as [|e|y' g']; [intros q Q; apply G, K, Q|apply G, K|]. destruct K as (z & o' & st' & E & F & K). exists z, o', st'. split; [exact E|]. split; [exact F|].
    destruct p; [apply G, K|intros q Q; apply G, K, Q].
  Qed.
  Lemma path_follows k : forall m b p g st r, frames_of b p g st -> next k m g = Some r -> follows (mh m) b p st r (frames_of b p).
  Proof.
    induction k as [|k IH]; intros m b p g st r F P; [discriminate|]. destruct F as [p g f F|p s l o|p s o src st F|p s o g1 f src st F1 F].
    - intros R. pose proof (frame_follows _ _ _ _ _ _ _ F P R) as K. destruct r as [|e|y g']; [exact K|exact K|]. destruct K as (z & o' & st' & E & (f' & F' & ->) & K). exists z, o', [f']. split; [exact E|]. split; [apply fr_one, F'|exact K].
    - destruct l as [|s2 l] using rev_ind.
      + change (epath s []) with (estep s) in *. intros R. pose proof (frame_follows _ _ _ _ _ _ _ (fo_start b p s b o) P R) as K. destruct r as [|e|y g']; [exact K|exact K|]. destruct K as (z & o' & st' & E & (f' & F' & ->) & K). exists z, o', [f']. split; [exact E|]. split; [apply fr_one, F'|exact K].
      + clear IHl. rewrite epath_snoc in P. cbn [gnext begin] in P. rewrite <- app_assoc. cbn [app]. apply (IH _ _ _ _ _ _ (fr_none b p s2 o _ _ (fr_path b (s2 :: p) s l o)) P).
    - cbn [gnext] in P. destruct (next k m src) as [r1|] eqn:E1; [|discriminate]. pose proof (IH _ _ _ _ _ _ F E1) as K. intros R. specialize (K R). destruct r1 as [|e|y src'].
      + injection P as <-. exact K.
      + injection P as <-. exact K.
      + destruct K as (z & o' & st' & -> & F' & K). destruct (copy_same (mh m) b o z o') as (o2 & Ec). rewrite Ec in P.
        pose proof (IH _ _ _ _ _ _ (fr_some b p s o _ _ src' st' (fo_start b p s (hcopy_item (mh m) b z) o2) F') P R) as K2. cbn [app] in K2.
        destruct r as [|e|y g']; [intros q Q; apply K, K2, Q|apply K, K2|]. destruct K2 as (z2 & o3 & st2 & E & F2 & K2). exists z2, o3, st2. split; [exact E|]. split; [exact F2|].
        destruct p; [apply K, K2|intros q Q; apply K, K2, Q].
    - cbn [gnext] in P. destruct (next k m g1) as [r1|] eqn:E1; [|discriminate]. intros R. pose proof (frame_follows _ _ _ _ _ _ _ F1 E1 (st ++ R)) as K. destruct r1 as [|e|y g1'].
      + pose proof (IH _ _ _ _ _ _ (fr_none b p s o _ _ F) P R) as K2. destruct r as [|e|y g']; [intros q Q; apply K, K2, Q|apply K, K2|]. destruct K2 as (z2 & o3 & st2 & E & F2 & K2). exists z2, o3, st2. split; [exact E|]. split; [exact F2|].
        destruct p; [apply K, K2|intros q Q; apply K, K2, Q].
      + injection P as <-. exact K.
      + injection P as <-. destruct K as (z & o' & st' & -> & (f' & F' & ->) & K). exists z, o', (f' :: st). split; [reflexivity|]. split; [apply fr_some; assumption|]. destruct p; exact K.
  Qed.

  (** And the other way round; [k]: turns of the stack. *)
  Definition led (m : moment) (b : hitem) (p : list stage) (g : gen) (R : list pframe) (k : nat) (q : qres) (F : gen -> list pframe -> Prop) : Prop :=
    exists r, gpulls w hv m g r /\
    match r with
    | Ended => exists k', k' < k /\ qpull c k' (mh m) R = Some q
    | Failed e => q = QFails e
    | Given y g' => exists z o st', y = Obj z o /\ F g' st' /\
        match p with
        | [] => q = QGives z (st' ++ R)
        | _ => exists k', k' < k /\ qpull c k' (mh m) (FEval b (hcopy_item (mh m) b z) p :: st' ++ R) = Some q
        end
    end.
  Lemma led_more m b p g R k k2 q F : k <= k2 -> led m b p g R k q F -> led m b p g R k2 q F.
  Proof.
    intros Hk (r & P & Q). exists r. split; [exact P|]. destruct r as [|e|y g']; [destruct Q as (k' & L & Q); exists k'; split; [lia|exact Q]|exact Q|].
    destruct Q as (z & o & st' & E & HF & Q). exists z, o, st'. split; [exact E|]. split; [exact HF|]. destruct p; [exact Q|]. destruct Q as (k' & L & Q). exists k'. split; [lia|exact Q].
  Qed.
  Lemma led_from m b p g g0 R k q F : (forall r, gpulls w hv m g r -> gpulls w hv m g0 r) -> led m b p g R k q F -> led m b p g0 R k q F.
  Proof. intros H (r & P & Q). exists r. split; [apply H, P|exact Q]. Qed.
  Notation one b p := (fun g st => exists f, frame_of b p g f /\ st = [f]).
  Lemma step_led k : forall m b p s x o cur R q, qpull c k (mh m) (FStep b x s cur p :: R) = Some q ->
    led m b p (GStep (Try (axis_of (fst s)) (snd s)) x o (place_of cur)) R k q (one b p).
  Proof.
    induction k as [|k IH]; intros m b p s x o cur R q P; [discriminate|]. cbn [qpull turn] in P. destruct s as [ax t]. cbn [fst snd] in *.
    assert (Sn : forall n, next (S n) m (GStep (Try (axis_of ax) t) x o (place_of cur)) = match cnext (mh m) x cur with KEnd => Some Ended | KBad e => Some (Failed e) | KItem y cur' =>
      match tested (mh m) x (ax, t) y with z :: _ => Some (Given (Obj z o) (GStep (Try (axis_of ax) t) x o (place_of cur'))) | [] => next n m (GStep (Try (axis_of ax) t) x o (place_of cur')) end end).
    { intros n. cbn [gnext]. rewrite move_cnext. destruct (cnext (mh m) x cur); try reflexivity. rewrite seen_tested. reflexivity. }
    destruct (cnext (mh m) x cur) as [|e|y cur'] eqn:C.
    - exists Ended. split; [exists 1; apply Sn|]. exists k. split; [lia|exact P].
    - injection P as <-. exists (Failed e). split; [exists 1; apply Sn|reflexivity].
    - destruct (tested (mh m) x (ax, t) y) as [|z zs] eqn:T.
      + eapply led_more; [|eapply led_from; [|exact (IH m b p (ax, t) x o cur' R q P)]]; [lia|]. intros r (n & Q). exists (S n). rewrite Sn. exact Q.
      + exists (Given (Obj z o) (GStep (Try (axis_of ax) t) x o (place_of cur'))). split; [exists 1; apply Sn|]. exists z, o, [FStep b x (ax, t) cur' p]. split; [reflexivity|].
        split; [eexists; split; [apply (fo_step b p (ax, t))|reflexivity]|]. destruct p as [|s2 p]; [injection P as <-; reflexivity|]. exists k. split; [lia|exact P].
  Qed.
  Lemma frame_led k m b p g f R q : frame_of b p g f -> qpull c k (mh m) (f :: R) = Some q -> led m b p g R k q (one b p).
  Proof.
    intros F P. destruct F as [s x o|s x o cur]; [|eapply step_led; exact P]. destruct k as [|k]; [discriminate|]. cbn [qpull turn app] in P.
    eapply led_more; [|eapply led_from; [|exact (step_led k m b p s x o _ R q P)]]; [lia|]. intros r Q. apply (pull_start w hv 0). cbn [estep begin]. rewrite enter_cstart. exact Q.
  Qed.
  Lemma led_one m b p g R k q : led m b p g R k q (one b p) -> led m b p g R k q (frames_of b p).
  Proof.
    intros (r & P & Q). exists r. split; [exact P|]. destruct r as [|e|y g']; [exact Q|exact Q|]. destruct Q as (z & o & st' & E & (f & HF & ->) & Q). exists z, o, [f]. split; [exact E|]. split; [apply fr_one, HF|exact Q].
  Qed.
  Lemma for_none m b e src r : gpulls w hv m src r -> match r with Given _ _ => True | _ => gpulls w hv m (GFor b e None src) r end.
  Proof. intros (n & P). destruct r; try exact I; exists (S n); cbn [gnext]; rewrite P; reflexivity. Qed.
  Lemma for_next m b e src y src' r : gpulls w hv m src (Given y src') -> gpulls w hv m (GFor b e (Some (GStart e (vcopy (mh m) b y))) src') r -> gpulls w hv m (GFor b e None src) r.
  Proof.
    intros (n & P) (n2 & P2). exists (S (n + n2)). cbn [gnext]. rewrite (next_mono w hv n (n + n2) m src _ P) by lia. apply (next_mono w hv n2); [exact P2|lia].
  Qed.
  Lemma for_over m b e g1 src r : gpulls w hv m g1 Ended -> gpulls w hv m (GFor b e None src) r -> gpulls w hv m (GFor b e (Some g1) src) r.
  Proof. intros (n & P) (n2 & P2). exists (S (n + n2)). cbn [gnext]. rewrite (next_mono w hv n (n + n2) m g1 _ P) by lia. apply (next_mono w hv n2); [exact P2|lia]. Qed.
  Lemma path_led k : forall m b p g st R q, frames_of b p g st -> qpull c k (mh m) (st ++ R) = Some q -> led m b p g R k q (frames_of b p).
  Proof.
    induction k as [k IH] using lt_wf_ind.
    assert (N : forall m b p s o src st R q, (qpull c k (mh m) (st ++ R) = Some q -> led m b (s :: p) src R k q (frames_of b (s :: p))) ->
      qpull c k (mh m) (st ++ R) = Some q -> led m b p (GFor (Obj b o) (estep s) None src) R k q (frames_of b p)).
    { intros m b p s o src st R q H P. destruct (H P) as (r & G & Q). destruct r as [|e|y src'].
      - exists Ended. split; [apply (for_none m _ _ _ _ G)|exact Q].
      - exists (Failed e). split; [apply (for_none m _ _ _ _ G)|exact Q].
      - destruct Q as (z & o' & st' & -> & F & k' & L & Q). destruct (copy_same (mh m) b o z o') as (o2 & Ec).
        eapply (led_more _ _ _ _ _ k'); [lia|]. eapply led_from; [intros r; apply (for_next m _ _ _ _ _ _ G)|]. rewrite Ec.
        apply (IH k' L m b p _ (FEval b (hcopy_item (mh m) b z) (s :: p) :: st')); [|exact Q]. apply fr_some; [apply fo_start|exact F]. }
    intros m b p g st R q F. revert R q. induction F as [p g f F|p s l o|p s o src st F IHF|p s o g1 f src st F1 F IHF]; intros R q P.
    - apply led_one. eapply frame_led; [exact F|exact P].
    - revert p P. induction l as [|s2 l IHl] using rev_ind; intros p P.
      + apply led_one. change (epath s []) with (estep s). eapply frame_led; [apply fo_start|exact P].
      + eapply led_from; [intros r Q; apply (pull_start w hv 0); rewrite epath_snoc; cbn [begin]; exact Q|]. rewrite <- app_assoc in P. cbn [app] in P.
        eapply (N m b p s2 o _ [FEval b b (s :: l ++ s2 :: p)]); [|exact P]. intros _. apply IHl. exact P.
    - eapply N; [apply IHF|exact P].
    - cbn [app] in P. destruct (frame_led k m b p g1 f (st ++ R) q F1 P) as (r & G & Q). destruct r as [|e|y g1'].
      + destruct Q as (k' & L & Q). eapply (led_more _ _ _ _ _ k'); [lia|]. eapply led_from; [intros r; apply (for_over m _ _ _ _ _ G)|]. apply (IH k' L m b p _ st); [apply fr_none, F|exact Q].
      + exists (Failed e). split; [destruct G as (n & G); exists (S n); cbn [gnext]; rewrite G; reflexivity|exact Q].
      + exists (Given y (GFor (Obj b o) (estep s) (Some g1') src)). split; [destruct G as (n & G); exists (S n); cbn [gnext]; rewrite G; reflexivity|].
        destruct Q as (z & o' & st' & E & (f' & F' & ->) & Q). exists z, o', (f' :: st). split; [exact E|]. split; [apply fr_some; assumption|exact Q].
  Qed.

  (** With [/] and [//] in front. *)
  Inductive alike : gen -> list pframe -> Prop :=
  | al_path b g st : frames_of b [] g st -> alike g st
  | al_none b o q s l cur : alike (GFor (Obj b o) (epath s l) None (GStep Take (HRoot q) Made (place_of cur))) [FAll b (HRoot q) cur (s :: l)]
  | al_some b o q s l cur b1 g1 st : frames_of b1 [] g1 st ->
      alike (GFor (Obj b o) (epath s l) (Some g1) (GStep Take (HRoot q) Made (place_of cur))) (st ++ [FAll b (HRoot q) cur (s :: l)])
  | al_cat q o g st : alike g st -> alike (GCat (GList [Obj q o] Done) g) (FOnce q :: st)
  | al_left g st : alike g st -> alike (GCat (GList [] Done) g) st.
  Definition agree (r : given) (q : qres) : Prop :=
    match r, q with
    | Ended, QEnds => True
    | Failed e, QFails e' => e = e'
    | Given y g, QGives z st => (exists o, y = Obj z o) /\ alike g st
    | _, _ => False
    end.
  Lemma follows_agree m b g st r : frames_of b [] g st -> follows (mh m) b [] st r (frames_of b []) -> exists q, qpulls c (mh m) st q /\ agree r q.
  Proof.
    intros F H. specialize (H []). rewrite app_nil_r in H. destruct r as [|e|y g'].
    - exists QEnds. split; [apply H; exists 1; reflexivity|exact I].
    - exists (QFails e). split; [exact H|reflexivity].
    - destruct H as (z & o & st' & -> & F' & H). rewrite app_nil_r in H. exists (QGives z st'). split; [exact H|]. split; [eauto|eapply al_path; exact F'].
  Qed.
  Lemma all_next n m q cur : next (S n) m (GStep Take (HRoot q) Made (place_of cur)) =
    match cnext (mh m) (HRoot q) cur with KEnd => Some Ended | KBad e => Some (Failed e)
    | KItem y cur' => Some (Given (Obj (match y with None => HRoot q | Some i => HNode i end) Made) (GStep Take (HRoot q) Made (place_of cur'))) end.
  Proof. cbn [gnext]. rewrite move_cnext. destruct (cnext (mh m) (HRoot q) cur) as [|e|[i|] cur']; reflexivity. Qed.
  Lemma copy_all h b o q y : exists o', vcopy h (Obj b o) (Obj (match y with None => HRoot q | Some i => HNode i end) Made) = Obj (match y with None => HRoot q | Some i => hcopy h b i end) o'.
  Proof. destruct y as [i|]; [exact (copy_same h b o (HNode i) Made)|exact (copy_same h b o (HRoot q) Made)]. Qed.
  Lemma path_whole b s l o : frames_of b [] (GStart (epath s l) (Obj b o)) [FEval b b (s :: l)].
  Proof. pose proof (fr_path b [] s l o) as F. rewrite app_nil_r in F. exact F. Qed.
  Lemma alike_follows k : forall m g st r, alike g st -> next k m g = Some r -> exists q, qpulls c (mh m) st q /\ agree r q.
  Proof.
    induction k as [|k IH]; intros m g st r A P; [discriminate|]. destruct A as [b g st F|b o q s l cur|b o q s l cur b1 g1 st F|q o g st A|g st A].
    - eapply follows_agree; [exact F|]. eapply path_follows; [exact F|exact P].
    - cbn [gnext] in P. destruct k as [|k]; [discriminate|]. rewrite all_next in P. destruct (cnext (mh m) (HRoot q) cur) as [|e|y cur'] eqn:C.
      + injection P as <-. exists QEnds. split; [|exact I]. eapply qpulls_over; [cbn [turn]; rewrite C; reflexivity|exists 1; reflexivity].
      + injection P as <-. exists (QFails e). split; [|reflexivity]. apply qpulls_raise. cbn [turn]. rewrite C. reflexivity.
      + destruct (copy_all (mh m) b o q y) as (o' & Ec). rewrite Ec in P. destruct (IH m _ _ r (al_some b o q s l cur' _ _ _ (path_whole _ s l o')) P) as (a & Q & G). exists a. split; [|exact G].
        eapply qpulls_turn; [cbn [turn]; rewrite C; reflexivity|exact Q].
    - cbn [gnext] in P. destruct (next k m g1) as [r1|] eqn:E1; [|discriminate]. pose proof (path_follows k m b1 [] g1 st r1 F E1 [FAll b (HRoot q) cur (s :: l)]) as K. destruct r1 as [|e|y g1'].
      + destruct (IH m _ _ r (al_none b o q s l cur) P) as (a & Q & G). exists a. split; [apply K, Q|exact G].
      + injection P as <-. exists (QFails e). split; [exact K|reflexivity].
      + injection P as <-. destruct K as (z & o' & st' & -> & F' & K). exists (QGives z (st' ++ [FAll b (HRoot q) cur (s :: l)])). split; [exact K|]. split; [eauto|]. eapply al_some; exact F'.
    - cbn [gnext] in P. destruct k as [|k]; [discriminate|]. cbn [gnext] in P. injection P as <-. exists (QGives q st). split; [|split; [eauto|apply al_left, A]].
      apply (qpulls_give _ (FOnce q) st q []). reflexivity.
    - cbn [gnext] in P. destruct k as [|k]; [discriminate|]. cbn [gnext] in P. exact (IH m g st r A P).
  Qed.
  Lemma alike_led k : forall m g st q, alike g st -> qpull c k (mh m) st = Some q -> exists r, gpulls w hv m g r /\ agree r q.
  Proof.
    induction k as [k IH] using lt_wf_ind.
    assert (L : forall m b g R q, led m b [] g R k q (frames_of b []) -> (exists r, gpulls w hv m g r /\ match r with
      | Ended => exists k', k' < k /\ qpull c k' (mh m) R = Some q | Failed e => q = QFails e
      | Given y g' => exists z o st', y = Obj z o /\ frames_of b [] g' st' /\ q = QGives z (st' ++ R) end)) by (intros m b g R q (r & X); exists r; exact X).
    intros m g st q A P. induction A as [b g st F|b o t s l cur|b o t s l cur b1 g1 st F|z o g st A IHA|g st A IHA].
    - pose proof P as P'. rewrite <- (app_nil_r st) in P'. destruct (L _ _ _ _ _ (path_led k m b [] g st [] q F P')) as (r & G & Q). exists r. split; [exact G|]. destruct r as [|e|y g'].
      + destruct Q as ([|k'] & _ & Q); [discriminate|]. injection Q as <-. exact I.
      + subst q. reflexivity.
      + destruct Q as (z & o & st' & -> & F' & ->). rewrite app_nil_r. split; [eauto|eapply al_path; exact F'].
    - destruct k as [|k]; [discriminate|]. cbn [qpull turn] in P. pose proof (fun n => all_next n m t cur) as An. destruct (cnext (mh m) (HRoot t) cur) as [|e|y cur'] eqn:C.
      + destruct k as [|k]; [discriminate|]. injection P as <-. exists Ended. split; [exact (for_none m (Obj b o) _ _ Ended (ex_intro _ 1 (An 0)))|exact I].
      + injection P as <-. exists (Failed e). split; [exact (for_none m (Obj b o) _ _ (Failed e) (ex_intro _ 1 (An 0)))|reflexivity].
      + destruct (copy_all (mh m) b o t y) as (o' & Ec). destruct (IH k (Nat.lt_succ_diag_r k) m _ _ q (al_some b o t s l cur' _ _ _ (path_whole _ s l o')) P) as (r & G & Q).
        exists r. split; [|exact Q]. eapply for_next; [exists 1; apply An|]. rewrite Ec. exact G.
    - destruct (L _ _ _ _ _ (path_led k m b1 [] g1 st _ q F P)) as (r & G & Q). destruct r as [|e|y g'].
      + destruct Q as (k' & Lk & Q). destruct (IH k' Lk m _ _ q (al_none b o t s l cur) Q) as (r & G2 & Q2). exists r. split; [apply for_over; assumption|exact Q2].
      + subst q. exists (Failed e). split; [destruct G as (n & G); exists (S n); cbn [gnext]; rewrite G; reflexivity|reflexivity].
      + destruct Q as (z & o' & st' & -> & F' & ->). eexists. split; [destruct G as (n & G); exists (S n); cbn [gnext]; rewrite G; reflexivity|]. split; [eauto|]. eapply al_some; exact F'.
    - destruct k as [|k]; [discriminate|]. cbn [qpull turn app] in P. injection P as <-. eexists. split; [exists 2; reflexivity|]. split; [eauto|apply al_left, A].
    - destruct (IHA P) as (r & (n & G) & Q). exists r. split; [|exact Q]. exists (S (S n)). exact (next_mono w hv n (S n) m g r G ltac:(lia)).
  Qed.
  (** The start of them. *)
  Lemma just_epath s p : just_node (epath s p) = just_step_node (s :: p).
  Proof.
    destruct p as [|r p]; [destruct s as [ax []]; reflexivity|]. assert (E : just_node (epath s (r :: p)) = false) by (destruct (@exists_last _ (r :: p)) as (a & z & E); [discriminate|rewrite E, epath_snoc; reflexivity]).
    rewrite E. destruct s as [? []]; reflexivity.
  Qed.
  Lemma begin_alike n m d x o s p : c x = mc m (Obj x o) -> snd (hroot (mh m) (c x) x) <> Cut ->
    match turn c (mh m) (FAbs d x (s :: p)) with
    | Turns None fs => alike (begin w hv n m (EAbs d (Some (epath s p))) (Obj x o)) fs
    | Raised e => begin w hv n m (EAbs d (Some (epath s p))) (Obj x o) = GList [] (Exn e)
    | _ => False
    end.
  Proof.
    intros Hc Hn. cbn [turn begin]. rewrite <- Hc. destruct (hroot_cases (mh m) (c x) x) as [(q & E)|(f & E & Hf)]; rewrite E in *.
    - rewrite just_epath. assert (A : alike (if d then GFor (Obj x o) (epath s p) None (GStep Take (HRoot q) Made PSelfWork) else GStart (epath s p) (Obj (HRoot q) Made))
        (if d then [FAll x (HRoot q) CSelfWork (s :: p)] else [FEval (HRoot q) (HRoot q) (s :: p)])).
      { destruct d; [exact (al_none x o q s p CSelfWork)|eapply al_path, path_whole]. }
      destruct (just_step_node (s :: p)); [apply al_cat, A|exact A].
    - destruct f as [|e|]; [congruence|reflexivity|cbn [snd] in Hn; congruence].
  Qed.

  Definition meets (m : moment) (g : gen) (st : list pframe) : Prop :=
    (forall r, gpulls w hv m g r -> exists q, qpulls c (mh m) st q /\ agree r q) /\
    (forall q, qpulls c (mh m) st q -> exists r, gpulls w hv m g r /\ agree r q).
  Lemma alike_meets m g st : alike g st -> meets m g st.
  Proof. intros A. split; [intros r (k & P); eapply alike_follows; eauto|intros q (k & P); eapply alike_led; eauto]. Qed.
  Lemma path_meets m x o s p : meets m (GStart (epath s p) (Obj x o)) (query x (s :: p)).
  Proof. apply alike_meets. eapply al_path, path_whole. Qed.
  Lemma abs_meets m d x o s p : c x = mc m (Obj x o) -> snd (hroot (mh m) (c x) x) <> Cut -> meets m (GStart (EAbs d (Some (epath s p))) (Obj x o)) (query_abs d x (s :: p)).
  Proof.
    intros Hc Hn. pose proof (fun n => begin_alike n m d x o s p Hc Hn) as B. unfold query_abs. split.
    - intros r (k & P). destruct k as [|k]; [discriminate|]. cbn [gnext] in P. specialize (B k). destruct (turn c (mh m) (FAbs d x (s :: p))) as [|e|[y|] fs] eqn:T; try contradiction.
      + rewrite B in P. destruct k as [|k]; [discriminate|]. injection P as <-. exists (QFails e). split; [apply qpulls_raise, T|reflexivity].
      + destruct (alike_follows k m _ fs r B P) as (q & Q & A). exists q. split; [|exact A]. eapply qpulls_turn; [exact T|]. rewrite app_nil_r. exact Q.
    - intros q (k & P). destruct k as [|k]; [discriminate|]. specialize (B 0). cbn [qpull] in P. destruct (turn c (mh m) (FAbs d x (s :: p))) as [|e|[y|] fs] eqn:T; try contradiction.
      + injection P as <-. exists (Failed e). split; [|reflexivity]. apply (pull_start w hv 0). rewrite B. exists 1. reflexivity.
      + rewrite app_nil_r in P. destruct (alike_led k m _ fs q B P) as (r & G & A). exists r. split; [apply (pull_start w hv 0), G|exact A].
  Qed.
  (** Loops *)
  Lemma loop_follows body m g out m' g' : gloop w hv (on_heap body) m g out m' g' -> forall st, meets m g st ->
    exists out0 st', Forall2 is_item out out0 /\ qloop c body (mh m) st out0 (mh m') st' /\ meets m' g' st'.
  Proof.
    intros L. induction L as [m g|m g y g1 m1 out m2 g2 P B L IH]; intros st M.
    - exists [], st. split; [constructor|]. split; [apply ql_start|exact M].
    - destruct (proj1 M _ P) as ([|e|z st1] & Q & A); try contradiction. destruct A as [(o & ->) A]. destruct B as (z' & (o' & E) & B). injection E as <- _.
      destruct (IH st1 (alike_meets _ _ _ A)) as (out0 & st2 & F & L0 & M2). exists (z :: out0), st2. split; [constructor; [eexists; reflexivity|exact F]|]. split; [eapply ql_turn; eauto|exact M2].
  Qed.
  Lemma loop_led body h st out0 h' st' : qloop c body h st out0 h' st' -> forall m g, mh m = h -> meets m g st ->
    exists out m' g', Forall2 is_item out out0 /\ mh m' = h' /\ gloop w hv (on_heap body) m g out m' g' /\ meets m' g' st'.
  Proof.
    intros L. induction L as [h st|h st y st1 h1 out h2 st2 P B L IH]; intros m g E M.
    - exists [], m, g. split; [constructor|]. split; [exact E|]. split; [apply gl_start|exact M].
    - subst h. destruct (proj2 M _ P) as ([|e|v g1] & Q & A); try contradiction. destruct A as [(o & ->) A].
      destruct (IH (At h1 (mc m) (mv m)) g1 eq_refl (alike_meets _ _ _ A)) as (out1 & m2 & g2 & F & E2 & L2 & M2).
      exists (Obj y o :: out1), m2, g2. split; [constructor; [eexists; reflexivity|exact F]|]. split; [exact E2|]. split; [|exact M2]. eapply gl_turn; [exact Q| |exact L2]. exists y. split; [eexists; reflexivity|exact B].
  Qed.
  Lemma comes_follows m g l f : gcomes w hv m g l f -> forall st, meets m g st -> exists l0, Forall2 is_item l l0 /\ comes c (mh m) st l0 f.
  Proof.
    intros G. induction G as [g P|g e P|g y g' l f P G IH]; intros st M.
    - destruct (proj1 M _ P) as ([|e|z st1] & Q & A); try contradiction. exists []. split; [constructor|apply co_end, Q].
    - destruct (proj1 M _ P) as ([|e'|z st1] & Q & A); try contradiction. cbn [agree] in A. subst e'. exists []. split; [constructor|apply co_fail, Q].
    - destruct (proj1 M _ P) as ([|e|z st1] & Q & A); try contradiction. destruct A as [(o & ->) A]. destruct (IH st1 (alike_meets _ _ _ A)) as (l0 & F & C).
      exists (z :: l0). split; [constructor; [eexists; reflexivity|exact F]|eapply co_more; eauto].
  Qed.
  Lemma comes_led m st l0 f : comes c (mh m) st l0 f -> forall g, meets m g st -> exists l, Forall2 is_item l l0 /\ gcomes w hv m g l f.
  Proof.
    intros C. induction C as [st P|st e P|st y st' l0 f P C IH]; intros g M.
    - destruct (proj2 M _ P) as ([|e|z g1] & Q & A); try contradiction. exists []. split; [constructor|apply gc_end, Q].
    - destruct (proj2 M _ P) as ([|e'|z g1] & Q & A); try contradiction. cbn [agree] in A. subst e'. exists []. split; [constructor|apply gc_fail, Q].
    - destruct (proj2 M _ P) as ([|e|z g1] & Q & A); try contradiction. destruct A as [(o & ->) A]. destruct (IH g1 (alike_meets _ _ _ A)) as (l1 & F & G).
      exists (Obj y o :: l1). split; [constructor; [eexists; reflexivity|exact F]|eapply gc_more; eauto].
  Qed.
  Lemma meets_rest m g st : meets m g st -> same_rest w hv c m g st.
  Proof. intros M. split; [intros l f G; exact (comes_follows m g l f G st M)|intros l0 f C; exact (comes_led m st l0 f C g M)]. Qed.
  Lemma meets_loops m g st : meets m g st -> same_loops w hv c m g st.
  Proof.
    intros M body. split.
    - intros out m' g' L. destruct (loop_follows body m g out m' g' L st M) as (out0 & st' & F & L0 & M'). exists out0, st'. split; [exact F|]. split; [exact L0|apply meets_rest, M'].
    - intros out0 h' st' L. destruct (loop_led body (mh m) st out0 h' st' L m g eq_refl M) as (out & m' & g' & F & E & L0 & M'). exists out, m', g'. split; [exact F|]. split; [exact E|]. split; [exact L0|apply meets_rest, M'].
  Qed.
End Path.
