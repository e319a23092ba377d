(** Suspended location paths: what is to come, turn by turn. *)
From Verif Require Import PyStr Parser XTree Heap Builder HeapSpec HeapFacts RootCache XPath HeapNav LiveIter LiveIterSpec LiveIterFacts LivePath LivePathSpec.

Lemma hkids_of h i : hkids1 h i = kids_of h i. Proof. reflexivity. Qed.
Lemma helem_of h i : helem h i = elem_of h i. Proof. reflexivity. Qed.

Section Facts.
  Variable c : hitem -> rcache.
  Notation qpulls := (qpulls c). Notation comes := (comes c). Notation qpull := (qpull c). Notation turn := (turn c).

  Lemma qpull_more n h st r k : qpull n h st = Some r -> qpull (k + n) h st = Some r.
  Proof.
    revert st. induction n as [|n IH]; intros st H; [discriminate|]. replace (k + S n) with (S (k + n)) by lia. cbn [LivePath.qpull] in *.
    destruct st as [|f st]; [exact H|]. destruct (turn h f) as [|e|[y|] fs]; auto.
  Qed.
  Lemma qpulls_det h st r r' : qpulls h st r -> qpulls h st r' -> r = r'.
  Proof. intros [n H] [m H']. apply (qpull_more _ _ _ _ m) in H. apply (qpull_more _ _ _ _ n) in H'. rewrite Nat.add_comm in H'. congruence. Qed.
  Lemma qpulls_over h f st r : turn h f = Over -> qpulls h st r -> qpulls h (f :: st) r.
  Proof. intros E [n H]. exists (S n). cbn [LivePath.qpull]. rewrite E. exact H. Qed.
  Lemma qpulls_quiet h f fs st r : turn h f = Turns None fs -> qpulls h (fs ++ st) r -> qpulls h (f :: st) r.
  Proof. intros E [n H]. exists (S n). cbn [LivePath.qpull]. rewrite E. exact H. Qed.
  Lemma qpulls_out h f fs st y : turn h f = Turns (Some y) fs -> qpulls h (f :: st) (QGives y (fs ++ st)).
  Proof. intros E. exists 1. cbn [LivePath.qpull]. rewrite E. reflexivity. Qed.
  Lemma qpulls_fail h f st e : turn h f = Raised e -> qpulls h (f :: st) (QFails e).
  Proof. intros E. exists 1. cbn [LivePath.qpull]. rewrite E. reflexivity. Qed.
  Lemma qpulls_nil h : qpulls h [] QEnds. Proof. exists 1. reflexivity. Qed.
  Lemma comes_det h st l f : comes h st l f -> forall l' f', comes h st l' f' -> l' = l /\ f' = f.
  Proof.
    induction 1 as [st P|st e P|st y st' l f P C IH]; intros l' f' H; inversion H as [? P'|? ? P'|? ? ? ? ? P' C']; subst; pose proof (qpulls_det _ _ _ _ P P') as E; try discriminate; auto.
    - injection E as <-. auto.
    - injection E as <- <-. destruct (IH _ _ C') as [-> ->]. auto.
  Qed.

  (** Turn by turn. *)
  Inductive flows (h : heap) : list pframe -> list hitem -> fin -> Prop :=
  | fl_nil : flows h [] [] Done
  | fl_over f st l e : turn h f = Over -> flows h st l e -> flows h (f :: st) l e
  | fl_raise f st e : turn h f = Raised e -> flows h (f :: st) [] (Exn e)
  | fl_quiet f fs st l e : turn h f = Turns None fs -> flows h (fs ++ st) l e -> flows h (f :: st) l e
  | fl_out f fs st y l e : turn h f = Turns (Some y) fs -> flows h (fs ++ st) l e -> flows h (f :: st) (y :: l) e.
  Lemma comes_shift h st st' : (forall r, qpulls h st r -> qpulls h st' r) -> forall l f, comes h st l f -> comes h st' l f.
  Proof. intros H l f C. inversion C; subst; [apply co_end|apply co_fail|eapply co_more]; eauto. Qed.
  Lemma flows_comes h st l f : flows h st l f -> comes h st l f.
  Proof.
    induction 1 as [|f st l e E F IH|f st e E|f fs st l e E F IH|f fs st y l e E F IH].
    - apply co_end, qpulls_nil.
    - eapply comes_shift; [|exact IH]. intros r. apply qpulls_over; auto.
    - apply co_fail. eapply qpulls_fail; eauto.
    - eapply comes_shift; [|exact IH]. intros r. apply qpulls_quiet; auto.
    - eapply co_more; [apply qpulls_out; eauto|exact IH].
  Qed.
  Lemma flows_app h st1 l1 f1 : flows h st1 l1 f1 -> f1 = Done -> forall st2 l2 f2, flows h st2 l2 f2 -> flows h (st1 ++ st2) (l1 ++ l2) f2.
  Proof.
    induction 1 as [|f st l e E F IH|f st e E|f fs st l e E F IH|f fs st y l e E F IH]; intros D st2 l2 f2 H2; try discriminate; cbn [app].
    - exact H2.
    - apply fl_over; auto.
    - eapply fl_quiet; [exact E|]. rewrite app_assoc. auto.
    - eapply fl_out; [exact E|]. rewrite app_assoc. auto.
  Qed.
  Lemma flows_app_fail h st1 l1 f1 : flows h st1 l1 f1 -> forall e, f1 = Exn e -> forall st2, flows h (st1 ++ st2) l1 f1.
  Proof.
    induction 1 as [|f st l e E F IH|f st e E|f fs st l e E F IH|f fs st y l e E F IH]; intros e' D st2; try discriminate; cbn [app].
    - apply fl_over; eauto.
    - apply fl_raise; auto.
    - eapply fl_quiet; [exact E|]. rewrite app_assoc. eauto.
    - eapply fl_out; [exact E|]. rewrite app_assoc. eauto.
  Qed.
  Lemma flows_not_cut h st l f : flows h st l f -> f <> Cut.
  Proof. induction 1; auto; discriminate. Qed.

  (** The nodes a loop goes through. *)
  Inductive raws (h : heap) (x : hitem) : cursor -> list (option ref) -> fin -> Prop :=
  | ra_end cur : cnext h x cur = KEnd -> raws h x cur [] Done
  | ra_bad cur e : cnext h x cur = KBad e -> raws h x cur [] (Exn e)
  | ra_item cur y cur' ys f : cnext h x cur = KItem y cur' -> raws h x cur' ys f -> raws h x cur (y :: ys) f.
  Lemma raws_not_cut h x cur ys f : raws h x cur ys f -> f <> Cut.
  Proof. induction 1; auto; discriminate. Qed.

  Lemma hbind_app a b f k : hbind (a ++ b) f k = hthen (hbind a Done k) (hbind b f k).
  Proof.
    induction a as [|y a IH]; cbn [app hbind hthen].
    - destruct (hbind b f k); reflexivity.
    - destruct (k y) as [l1 [| |]]; [|reflexivity|reflexivity]. rewrite IH. destruct (hbind a Done k) as [l2 [| |]]; cbn [hthen]; [|reflexivity|reflexivity].
      rewrite app_assoc. reflexivity.
  Qed.
  Lemma tested_le h x s y : tested h x s y = [] \/ exists z, tested h x s y = [z].
  Proof.
    unfold tested. destruct (passes _ _ _ _); [auto|]. generalize (match y with Some c0 => hcopy h x c0 | None => x end). intros z. unfold htest.
    destruct (snd s); eauto; destruct z as [|i|]; eauto; [destruct (hp h i) as [[]|]; eauto; destruct (str_eqb _ _); eauto|destruct (htext h i); eauto].
  Qed.
  (** What is done with the nodes that a step delivers when other steps follow. *)
  Definition onward (h : heap) (b : hitem) (p : list stage) (z : hitem) : list pframe :=
    match p with [] => [FOnce z] | _ => [FEval b (hcopy_item h b z) p] end.
  Lemma flows_cons h f st l e : flows h (f :: st) l e -> e <> Cut -> forall st2, (e = Done -> exists l2 e2, flows h st2 l2 e2) ->
    exists l2 e2, flows h ((f :: st) ++ st2) (l ++ l2) e2.
  Proof.
    intros F Hc st2 H2. destruct e as [|e|]; [|exists [], (Exn e); rewrite app_nil_r; eapply flows_app_fail; eauto|congruence].
    destruct (H2 eq_refl) as (l2 & e2 & F2). exists l2, e2. eapply flows_app; eauto.
  Qed.
  Lemma step_flows h b x s p k : (forall z l f, k z = (l, f) -> f <> Cut -> flows h (onward h b p z) l f) ->
    forall cur ys f0, raws h x cur ys f0 -> forall l f, hbind (flat_map (tested h x s) ys) f0 k = (l, f) -> f <> Cut -> flows h [FStep b x s cur p] l f.
  Proof.
    intros Hk cur ys f0 R. induction R as [cur E|cur e E|cur y cur' ys f0 E R IH]; intros l f H Hc; cbn [flat_map hbind] in H.
    - injection H as <- <-. apply fl_over; [cbn [LivePath.turn]; rewrite E; reflexivity|constructor].
    - injection H as <- <-. apply fl_raise. cbn [LivePath.turn]. rewrite E. reflexivity.
    - destruct (tested_le h x s y) as [T|(z & T)]; rewrite T in H; cbn [app hbind] in H.
      + eapply fl_quiet; [cbn [LivePath.turn]; rewrite E, T; reflexivity|]. cbn [app]. auto.
      + destruct (k z) as [l1 f1] eqn:Ek. 
        assert (A : forall l2 f2, (f1 = Done -> flows h [FStep b x s cur' p] l2 f2) -> (f1 = Done -> f = f2 /\ l = l1 ++ l2) -> (f1 <> Done -> f = f1 /\ l = l1) -> flows h [FStep b x s cur p] l f).
        { intros l2 f2 F2 D1 D2. destruct p as [|s1 p1].
          - assert (F1 : f1 <> Cut -> flows h [FOnce z] l1 f1) by (intros Q; apply (Hk z l1 f1 Ek Q)).
            assert (Z : f1 = Done -> l1 = [z]).
            { intros ->. specialize (F1 ltac:(discriminate)). inversion F1 as [|? ? ? ? T1|? ? ? T1|? ? ? ? ? T1|? ? ? ? ? ? T1 T2]; subst; try discriminate. injection T1 as <- <-. inversion T2; subst. reflexivity. }
            destruct f1 as [|e1|].
            + destruct (D1 eq_refl) as [-> ->]. rewrite (Z eq_refl). eapply fl_out; [cbn [LivePath.turn]; rewrite E, T; reflexivity|]. cbn [app]. auto.
            + exfalso. specialize (F1 ltac:(discriminate)). inversion F1 as [|? ? ? ? T1|? ? ? T1|? ? ? ? ? T1|? ? ? ? ? ? T1 T2]; subst; try discriminate. injection T1 as <- <-. inversion T2.
            + destruct (D2 ltac:(discriminate)) as [-> ->]. congruence.
          - eapply fl_quiet; [cbn [LivePath.turn]; rewrite E, T; reflexivity|]. change (flows h ([FEval b (hcopy_item h b z) (s1 :: p1)] ++ [FStep b x s cur' (s1 :: p1)]) l f). destruct f1 as [|e1|].
            + destruct (D1 eq_refl) as [-> ->]. eapply flows_app; [apply (Hk z l1 Done Ek); discriminate|reflexivity|]. apply F2. reflexivity.
            + destruct (D2 ltac:(discriminate)) as [-> ->]. eapply flows_app_fail; [apply (Hk z l1 _ Ek); discriminate|reflexivity].
            + destruct (D2 ltac:(discriminate)) as [-> ->]. congruence. }
        destruct f1 as [|e1|].
        * destruct (hbind (flat_map (tested h x s) ys) f0 k) as [l2 f2] eqn:E2. injection H as <- <-. apply (A l2 f2); auto. congruence.
        * injection H as <- <-. apply (A [] Done); auto; congruence.
        * injection H as <- <-. congruence.
  Qed.

  (** ** Cursors and steps *)
  Lemma raws_list h x l : raws h x (CList l) (map Some l) Done.
  Proof. induction l as [|i l IH]; [apply ra_end; reflexivity|eapply ra_item; [reflexivity|exact IH]]. Qed.
  Lemma raws_kids h x r l : forall i, to_come h r i = l -> raws h x (CKids r i) (map Some l) Done.
  Proof.
    induction l as [|y l IH]; intros i H.
    - apply ra_end. cbn [cnext]. rewrite (to_come_nil _ _ _ H). reflexivity.
    - destruct (to_come_cons _ _ _ _ _ H) as [E Ht]. cbn [map]. eapply ra_item; [cbn [cnext]; rewrite E; reflexivity|]. apply (IH (1 + i) Ht).
  Qed.
  Lemma raws_work h x n : forall l m, hwork h n l = (m, true) -> raws h x (CWork l) (map Some m) Done.
  Proof.
    induction n as [|n IH]; intros [|i l] m H; cbn [hwork] in H; try discriminate; try (injection H as <-; apply ra_end; reflexivity).
    destruct (hwork h n (hkids1 h i ++ l)) as [l' b] eqn:E. injection H as <- ->. cbn [map]. eapply ra_item; [reflexivity|]. apply IH. exact E.
  Qed.
  Lemma raws_late h x l ys f : hkids h x = Some l -> raws h x (CWork l) ys f -> raws h x CLate ys f.
  Proof.
    intros E R. inversion R as [cur N|cur e N|cur y cur' ys' f' N R']; subst; [apply ra_end|apply ra_bad|eapply ra_item; [|exact R']]; cbn [cnext] in *; rewrite E; exact N.
  Qed.
  Lemma flat_map_some h x s l : (forall i, passes h (fst s) (snd s) (Some i) = false) -> flat_map (tested h x s) (map Some l) = htest_all h (snd s) x l.
  Proof. intros H. induction l as [|i l IH]; [reflexivity|]. cbn [map flat_map htest_all]. rewrite IH. unfold tested. rewrite H. reflexivity. Qed.
  Lemma flat_map_kids h x t l : flat_map (tested h x (XChild, t)) (map Some l) = htest_all h t x (if is_name_test t then filter (elem_of h) l else l).
  Proof.
    destruct (is_name_test t) eqn:N.
    - induction l as [|i l IH]; [reflexivity|]. cbn [map flat_map filter]. rewrite IH. unfold tested. cbn [fst snd passes]. rewrite N. destruct (elem_of h i); reflexivity.
    - apply flat_map_some. intros i. cbn [fst snd passes]. rewrite N. reflexivity.
  Qed.
  Lemma step_raws h cc fuel ax t x a f : hstep h cc fuel (axis_of ax) t x = (a, f) -> f <> Cut ->
    exists ys, raws h x (cstart h ax x) ys f /\ a = flat_map (tested h x (ax, t)) ys.
  Proof.
    assert (W : forall l a f, hloop h t x (hwork h fuel l) hnothing = (a, f) -> f <> Cut -> exists m, raws h x (CWork l) (map Some m) f /\ a = htest_all h t x m).
    { intros l a0 f0 H Hc. unfold hloop in H. destruct (hwork h fuel l) as [m b] eqn:E. cbn [fst snd hnothing] in H. destruct b; injection H as <- <-; [|congruence].
      exists m. split; [eapply raws_work; eauto|rewrite app_nil_r; reflexivity]. }
    assert (B : forall k1 k2, (forall n l, k1 n l = (a, f) -> exists ys, raws h x (k2 n l) ys f /\ a = flat_map (tested h x (ax, t)) ys) ->
      hsiblings h x k1 = (a, f) -> exists ys, raws h x (beside_of h x k2) ys f /\ a = flat_map (tested h x (ax, t)) ys).
    { intros k1 k2 K H. unfold hsiblings in H. unfold beside_of. destruct (hparent h x) as [p|]; [|injection H as <- <-; exists []; split; [apply (raws_list h x [])|reflexivity]].
      destruct (hindex h p x) as [n|]; [|injection H as <- <-; exists []; split; [apply ra_bad; reflexivity|reflexivity]]. apply K in H. exact H. }
    intros H Hc. destruct ax; cbn [axis_of hstep cstart] in *.
    - injection H as <- <-. exists [None]. split; [eapply ra_item; [reflexivity|apply (raws_list h x [])]|]. cbn [flat_map]. rewrite app_nil_r. reflexivity.
    - destruct x as [q|i|]; cbn [hkids hraise] in H; injection H as <- <-.
      + exists (map Some [docelem q]). split; [apply raws_list|symmetry; apply (flat_map_kids h (HRoot q) t [docelem q])].
      + exists (map Some (kids_of h i)). split; [apply raws_kids; reflexivity|symmetry; apply flat_map_kids].
      + exists []. split; [apply ra_bad; reflexivity|reflexivity].
    - destruct (hkids h x) as [l|]; [|injection H as <- <-; exists []; split; [apply ra_bad; reflexivity|reflexivity]].
      destruct (W _ _ _ H Hc) as (m & R & ->). exists (map Some m). split; [exact R|]. symmetry. apply (flat_map_some h x (XDescendant, t)). reflexivity.
    - destruct (hkids h x) as [l|] eqn:K.
      + destruct (hloop h t x (hwork h fuel l) hnothing) as [m f1] eqn:E. injection H as <- <-. destruct (W _ _ _ E Hc) as (ms & R & ->). exists (None :: map Some ms).
        split; [eapply ra_item; [reflexivity|eapply raws_late; eauto]|]. cbn [flat_map]. rewrite (flat_map_some h x (XDescendantOrSelf, t)) by reflexivity. reflexivity.
      + injection H as <- <-. exists [None]. split; [eapply ra_item; [reflexivity|apply ra_bad; cbn [cnext]; rewrite K; reflexivity]|]. cbn [flat_map]. rewrite app_nil_r. reflexivity.
    - eapply B; [|exact H]. intros n l E. destruct (W _ _ _ E Hc) as (m & R & ->). exists (map Some m). split; [exact R|]. symmetry. apply (flat_map_some h x (XFollowing, t)). reflexivity.
    - eapply B; [|exact H]. intros n l E. injection E as <- <-. eexists. split; [apply raws_list|]. symmetry. apply (flat_map_some h x (XFollowingSibling, t)). reflexivity.
    - eapply B; [|exact H]. intros n l E. injection E as <- <-. eexists. split; [apply raws_list|]. symmetry. apply (flat_map_some h x (XPrecedingSibling, t)). reflexivity.
  Qed.

  (** ** Paths *)
  Section Path.
    Variable h : heap.
    Variable fuel : nat.
    (** The steps after an item, deepest first *)
    Fixpoint onto (b : hitem) (p : list stage) (z : hitem) : list hitem * fin :=
      match p with
      | [] => ([z], Done)
      | s :: p' => let w := hcopy_item h b z in let '(a, f) := hstep h (c w) fuel (axis_of (fst s)) (snd s) w in hbind a f (onto b p')
      end.
    Lemma hbind_assoc k1 k2 l : forall f, (let '(a, g) := hbind l f k1 in hbind a g k2) = hbind l f (fun y => let '(a, g) := k1 y in hbind a g k2).
    Proof.
      induction l as [|y l IH]; intros f; cbn [hbind]; [reflexivity|]. destruct (k1 y) as [l1 [|e|]] eqn:E1.
      - specialize (IH f). destruct (hbind l f k1) as [l2 f2]. rewrite hbind_app. rewrite <- IH. destruct (hbind l1 Done k2) as [l3 [| |]]; cbn [hthen]; auto. destruct (hbind l2 f2 k2); reflexivity.
      - assert (N : forall l', snd (hbind l' (Exn e) k2) <> Done).
        { induction l' as [|z l' IHl]; cbn [hbind]; [discriminate|]. destruct (k2 z) as [? [| |]]; try discriminate. destruct (hbind l' (Exn e) k2); exact IHl. }
        specialize (N l1). destruct (hbind l1 (Exn e) k2) as [l3 [| |]]; [cbn in N; congruence|reflexivity|reflexivity].
      - assert (N : forall l', snd (hbind l' Cut k2) <> Done).
        { induction l' as [|z l' IHl]; cbn [hbind]; [discriminate|]. destruct (k2 z) as [? [| |]]; try discriminate. destruct (hbind l' Cut k2); exact IHl. }
        specialize (N l1). destruct (hbind l1 Cut k2) as [l3 [| |]]; [cbn in N; congruence|reflexivity|reflexivity].
    Qed.
    Lemma hbind_ext l f k1 k2 : (forall y, k1 y = k2 y) -> hbind l f k1 = hbind l f k2.
    Proof. intros H. induction l as [|y l IH]; cbn [hbind]; [reflexivity|]. rewrite H, IH. reflexivity. Qed.
    Lemma hbind_single l f : f <> Cut -> hbind l f (fun z => ([z], Done)) = (l, f).
    Proof. intros _. induction l as [|y l IH]; cbn [hbind]; [reflexivity|]. rewrite IH. reflexivity. Qed.
    Lemma path_onto x p : forall l0, hpath h c fuel (fold_left (fun l r => LSlash l (step_of r)) p l0) x = (let '(a, f) := hpath h c fuel l0 x in hbind a f (onto x p)).
    Proof.
      induction p as [|s p IH]; intros l0; cbn [fold_left].
      - destruct (hpath h c fuel l0 x) as [a f]. assert (Q : forall l, hbind l f (onto x []) = (l, f)); [|symmetry; apply Q].
        induction l as [|y l IH]; cbn [hbind onto]; [reflexivity|]. cbn [onto] in IH. rewrite IH. reflexivity.
      - rewrite IH. cbn [hpath]. destruct (hpath h c fuel l0 x) as [a f]. rewrite hbind_assoc. apply hbind_ext. intros y. reflexivity.
    Qed.
    Lemma hbind_done k l : forall f r, hbind l f k = (r, Done) -> f = Done.
    Proof.
      induction l as [|y l IH]; intros f r H; cbn [hbind] in H; [congruence|]. destruct (k y) as [l1 [| |]]; try discriminate.
      destruct (hbind l f k) as [l2 f2] eqn:E. injection H as _ ->. eauto.
    Qed.
    Lemma hbind_only k k' l : forall f r, hbind l f k = (r, Done) -> (forall z m, In z l -> k z = (m, Done) -> k' z = (m, Done)) -> hbind l f k' = (r, Done).
    Proof.
      induction l as [|y l IH]; intros f r H K; cbn [hbind] in *; [exact H|]. destruct (k y) as [l1 [| |]] eqn:E; try discriminate. rewrite (K y l1 (or_introl eq_refl) E).
      destruct (hbind l f k) as [l2 f2] eqn:E2. injection H as <- ->. rewrite (IH _ _ E2 (fun z m Hz => K z m (or_intror Hz))). reflexivity.
    Qed.
    Definition settled (r : list hitem * fin) : list hitem * fin := match snd r with Done => r | _ => (fst r, Cut) end.
    Lemma onto_flows b p : forall z l, onto b p z = (l, Done) -> flows h (onward h b p z) l Done.
    Proof.
      induction p as [|s p IH]; intros z l H.
      - injection H as <-. eapply fl_out; [reflexivity|constructor].
      - cbn [onward]. cbn [onto] in H. eapply fl_quiet; [reflexivity|]. cbn [app]. destruct (hstep _ _ _ _ _ _) as [a g] eqn:E.
        pose proof (hbind_done _ _ _ _ H) as ->. destruct s as [ax t]. cbn [fst snd] in *. destruct (step_raws _ _ _ _ _ _ _ _ E ltac:(discriminate)) as (ys & R & ->).
        apply (step_flows h b (hcopy_item h b z) (ax, t) p (fun y => settled (onto b p y))) with (ys := ys) (f0 := Done); auto; try discriminate.
        + intros y m f Hm Hf. unfold settled in Hm. destruct (onto b p y) as [m1 [| |]] eqn:Ey; cbn [snd fst] in Hm; [|congruence|congruence]. injection Hm as <- <-. apply IH. exact Ey.
        + eapply hbind_only; [exact H|]. intros y m _ Hm. unfold settled. rewrite Hm. reflexivity.
    Qed.
    Lemma path_flows s p b x l : b = x -> hpath h c fuel (path_of s p) x = (l, Done) -> flows h [FEval b x (s :: p)] l Done.
    Proof.
      intros -> H. unfold path_of in H. rewrite path_onto in H. cbn [hpath step_of] in H. destruct (hstep _ _ _ _ _ _) as [a g] eqn:E. pose proof (hbind_done _ _ _ _ H) as ->.
      destruct s as [ax t]. cbn [fst snd] in *. destruct (step_raws _ _ _ _ _ _ _ _ E ltac:(discriminate)) as (ys & R & ->). eapply fl_quiet; [reflexivity|]. cbn [app fst].
      apply (step_flows h x x (ax, t) p (fun y => settled (onto x p y))) with (ys := ys) (f0 := Done); auto; try discriminate.
      + intros y m f Hm Hf. unfold settled in Hm. destruct (onto x p y) as [m1 [| |]] eqn:Ey; cbn [snd fst] in Hm; [|congruence|congruence]. injection Hm as <- <-. apply onto_flows. exact Ey.
      + eapply hbind_only; [exact H|]. intros y m _ Hm. unfold settled. rewrite Hm. reflexivity.
    Qed.
    Lemma all_flows b x s p k : (forall y l, k y = (l, Done) -> flows h [FEval (hcopy h b y) (hcopy h b y) (s :: p)] l Done) ->
      forall cur ys, raws h x cur (map Some ys) Done -> forall l, hbind (map HNode ys) Done (fun z => match z with HNode i => k i | _ => ([], Cut) end) = (l, Done) -> flows h [FAll b x cur (s :: p)] l Done.
    Proof.
      intros Hk cur ys R. remember (map Some ys) as zs eqn:Ez. remember Done as f eqn:Ef. revert ys Ez Ef. induction R as [cur E|cur e E|cur y cur' zs f E R IH]; intros ys Ez Ef l H.
      - destruct ys; [|discriminate]. injection H as <-. apply fl_over; [cbn [LivePath.turn]; rewrite E; reflexivity|subst; constructor].
      - discriminate.
      - destruct ys as [|i ys]; [discriminate|]. injection Ez as -> ->. cbn [map hbind] in H. destruct (k i) as [l1 [| |]] eqn:Ek; try (subst; discriminate).
        destruct (hbind (map HNode ys) f _) as [l2 f2] eqn:E2. injection H as <- ->. subst f. eapply fl_quiet; [cbn [LivePath.turn]; rewrite E; reflexivity|].
        apply (flows_app h [FEval (hcopy h b i) (hcopy h b i) (s :: p)] l1 Done (Hk i l1 Ek) eq_refl [FAll b x cur' (s :: p)] l2 Done). apply (IH Hk ys); auto.
    Qed.
    Lemma just_path s p : lpath_is_node (path_of s p) = just_step_node (s :: p).
    Proof.
      unfold path_of. destruct s as [ax t]. destruct p as [|s1 p]; [destruct t; reflexivity|]. cbn [fold_left just_step_node].
      assert (Q : forall q l r, lpath_is_node (fold_left (fun l r => LSlash l (step_of r)) q (LSlash l r)) = false) by (induction q as [|s2 q IH]; intros; [reflexivity|apply IH]).
      rewrite Q. destruct t; reflexivity.
    Qed.
    Lemma abs_flows double s p x l : hpath h c fuel (LAbs double (path_of s p)) x = (l, Done) -> flows h (query_abs double x (s :: p)) l Done.
    Proof.
      intros H. cbn [hpath] in H. rewrite just_path in H. destruct (hroot h (c x) x) as [[|q rs] fr] eqn:E.
      { exfalso. injection H as _ ->. unfold hroot in E. destruct x as [r|i|]; [discriminate| |discriminate]. destruct (get h (c (HNode i)) (RNode i)) as [[]|]; discriminate. }
      eapply fl_quiet; [cbn [LivePath.turn]; rewrite E; reflexivity|]. rewrite app_nil_r.
      assert (O : forall st m, flows h st m Done -> flows h ((if just_step_node (s :: p) then [FOnce q] else []) ++ st) ((if just_step_node (s :: p) then [q] else []) ++ m) Done).
      { intros st m F. destruct (just_step_node (s :: p)); [|exact F]. eapply fl_out; [reflexivity|exact F]. }
      cbn [hthen] in H. destruct (hpath h c fuel (path_of s p) q) as [m1 [| |]] eqn:E1; cbn [hthen fst snd] in H; try discriminate. pose proof (path_flows s p q q m1 eq_refl E1) as F1.
      destruct double.
      - destruct (hkids h q) as [kl|] eqn:K; [|discriminate]. destruct (hwork h fuel kl) as [m b] eqn:W. destruct (hbind (map HNode m) _ _) as [m2 f2] eqn:E2. cbn [fst snd] in H. injection H as <- ->.
        pose proof (hbind_done _ _ _ _ E2) as Eb. destruct b; [|discriminate]. apply O. eapply fl_quiet; [reflexivity|]. cbn [app].
        apply (flows_app h [FEval q q (s :: p)] m1 Done F1 eq_refl [FAll x q CLate (s :: p)] m2 Done).
        apply (all_flows x q s p (fun i => hpath h c fuel (path_of s p) (hcopy h x i))) with (ys := m).
        + intros y l Hl. apply path_flows; auto.
        + eapply raws_late; [exact K|]. eapply raws_work; eauto.
        + eapply hbind_only; [exact (E2)|]. intros z mz Hz. apply in_map_iff in Hz as (i & <- & _). cbn [hcopy_item]. auto.
      - cbn [hnothing fst snd] in H. injection H as <-. apply O. rewrite app_nil_r. exact F1.
    Qed.
  End Path.
End Facts.
