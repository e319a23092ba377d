(** Loops over [ancestor::] and over attributes while the trees are edited. *)
From Verif Require Import PyStr Parser ParserInv XTree Heap Builder HeapSpec RootCache DocOrder XPath XQuery HeapNav HeapEval HeapQuery.
From Verif Require Import LivePathCut LiveEval LiveEvalSpec LiveEvalFacts.

Section Up.
  Variable w : env.
  Variable hv : dict hval.
  Notation next := (gnext w hv).
  Notation gpulls := (gpulls w hv). Notation gcomes := (gcomes w hv). Notation gloop := (gloop w hv).

  (** ** Ancestors *)
  Lemma above_keep h h' p l : above h p l -> (forall i, In i l -> xml_parent h' i = xml_parent h i) -> above h' p l.
  Proof. induction 1 as [|i l A IH]; intros H; [constructor|]. constructor. rewrite (H i (or_introl eq_refl)). apply IH. intros j Hj. apply H. right. exact Hj. Qed.
  Lemma seen_up h t x i : ename h i <> None -> seen h (Try AxAncestor t) x (Some i) = if by_name t h i then [HNode i] else [].
  Proof.
    unfold ename, by_name, ename. cbn [seen]. unfold hcopy, htext. destruct (hp h i) as [[n a ks p|s p]|] eqn:E; [|congruence|congruence]. intros _. unfold htest, htext. rewrite E. destruct t; try reflexivity.
  Qed.
  Definition ups (m : moment) (t : ntest) (o : birth) (l : list ref) : list hval := map (fun i => Obj (HNode i) o) (filter (by_name t (mh m)) l).
  Lemma step_skip m t x o a a' : (forall k, next (S k) m (GStep (Try AxAncestor t) x o a) = next k m (GStep (Try AxAncestor t) x o a')) ->
    forall r, gpulls m (GStep (Try AxAncestor t) x o a) r <-> gpulls m (GStep (Try AxAncestor t) x o a') r.
  Proof. intros H r. split; intros (k & P); [destruct k as [|k]; [discriminate|]; exists k; rewrite <- H; exact P|exists (S k); rewrite H; exact P]. Qed.
  Lemma up_from m t x o i r : gpulls m (GStep (Try AxAncestor t) x o (PUpFrom i)) r <-> gpulls m (GStep (Try AxAncestor t) x o (PUp (xml_parent (mh m) i))) r.
  Proof. split; intros (k & P); (destruct k as [|k]; [discriminate|]); exists (S k); exact P. Qed.
  Lemma up_pull m t x o p l : above (mh m) p l -> (forall i, In i l -> ename (mh m) i <> None) ->
    match filter (by_name t (mh m)) l with
    | [] => forall r, gpulls m (GStep (Try AxAncestor t) x o (PUp p)) r <-> gpulls m (GStep (Try AxAncestor t) x o PRoot) r
    | i :: fl => gpulls m (GStep (Try AxAncestor t) x o (PUp p)) (Given (Obj (HNode i) o) (GStep (Try AxAncestor t) x o (PUpFrom i))) /\
                 exists l2, above (mh m) (xml_parent (mh m) i) l2 /\ incl (i :: l2) l /\ filter (by_name t (mh m)) l2 = fl
    end.
  Proof.
    induction 1 as [|i l A IH]; intros N.
    - cbn [filter]. apply step_skip. reflexivity.
    - cbn [filter]. pose proof (seen_up (mh m) t x i (N i (or_introl eq_refl))) as S. destruct (by_name t (mh m) i) eqn:B.
      + split; [exists 1; cbn [gnext move climb]; rewrite S; reflexivity|]. exists l. repeat split; [exact A|]. intros z Hz. exact Hz.
      + assert (K : forall r, gpulls m (GStep (Try AxAncestor t) x o (PUp (Some i))) r <-> gpulls m (GStep (Try AxAncestor t) x o (PUp (xml_parent (mh m) i))) r).
        { intros r. rewrite <- up_from. apply step_skip. intros k. cbn [gnext move climb]. rewrite S. reflexivity. }
        specialize (IH (fun j Hj => N j (or_intror Hj))). destruct (filter (by_name t (mh m)) l) as [|j fl].
        * intros r. rewrite K. apply IH.
        * destruct IH as [P (l2 & A2 & I2 & F2)]. split; [apply K; exact P|]. exists l2. repeat split; [exact A2| |exact F2]. intros z Hz. right. apply I2, Hz.
  Qed.
  Lemma by_name_keep t h h' i : ename h' i = ename h i -> by_name t h' i = by_name t h i.
  Proof. unfold by_name. intros ->. reflexivity. Qed.
  Lemma root_pull m t x o y g : gpulls m (GStep (Try AxAncestor t) x o PRoot) (Given y g) ->
    exists z l f, hroot (mh m) (mc m (Obj x o)) x = (z :: l, f) /\ y = Obj z o /\ g = GStep (Try AxAncestor t) x o (PList []).
  Proof.
    intros (k & P). destruct k as [|k]; [discriminate|]. cbn [gnext move] in P. destruct (hroot _ _ _) as [[|z l] f] eqn:E; [destruct f; discriminate|]. injection P as <- <-. exists z, l, f. auto.
  Qed.
  Lemma done_pull m t x o r : gpulls m (GStep (Try AxAncestor t) x o (PList [])) r -> r = Ended.
  Proof. intros (k & P). destruct k as [|k]; [discriminate|]. cbn [gnext move] in P. congruence. Qed.
  Lemma hroot_is h c x z l f : hroot h c x = (z :: l, f) -> exists q, z = HRoot q.
  Proof. destruct x as [q|i|i k v]; cbn [hroot]; [|destruct (get h c (RNode i)) as [[? r|]|]|]; unfold hraise; intros E; try discriminate; injection E as <- _ _; eauto. Qed.
  Lemma up_loop t x o L m g out m' g' : gloop (keeps_up L) m g out m' g' -> forall p l,
    (forall r, gpulls m g r <-> gpulls m (GStep (Try AxAncestor t) x o (PUp p)) r) -> above (mh m) p l -> incl l L -> (forall i, In i L -> ename (mh m) i <> None) ->
    (exists rest, ups m t o l = out ++ rest /\
       match rest with
       | y :: _ => exists g1, gpulls m' g' (Given y g1)
       | [] => forall r, gpulls m' g' r <-> gpulls m' (GStep (Try AxAncestor t) x o PRoot) r
       end) \/
    (exists q, out = ups m t o l ++ [Obj (HRoot q) o] /\ gpulls m' g' Ended).
  Proof.
    induction 1 as [m g|m g y g1 m1 out m2 g2 P B Lp IH]; intros p l Q A I N; pose proof (up_pull m t x o p l A (fun i Hi => N i (I i Hi))) as U.
    - left. exists (ups m t o l). split; [reflexivity|]. unfold ups. destruct (filter (by_name t (mh m)) l) as [|i fl]; cbn [map].
      + intros r. rewrite Q. apply U.
      + eexists. apply Q. apply U.
    - unfold ups. destruct (filter (by_name t (mh m)) l) as [|i fl] eqn:F.
      + right. apply Q, U in P. destruct (root_pull _ _ _ _ _ _ P) as (z & l0 & f & Hr & -> & ->). destruct (hroot_is _ _ _ _ _ _ Hr) as (q & ->). exists q.
        inversion Lp as [|? ? ? ? ? ? ? ? P2]; subst; [|apply done_pull in P2; discriminate]. split; [reflexivity|]. exists 1. reflexivity.
      + destruct U as [U (l2 & A2 & I2 & F2)]. apply Q in P. pose proof (gpulls_det _ _ _ _ _ _ P U) as E. injection E as -> ->.
        assert (K : forall j, In j l2 -> ename (mh m1) j = ename (mh m) j) by (intros j Hj; apply B, I, I2; right; exact Hj).
        destruct (IH (xml_parent (mh m1) i) l2) as [(rest & E & R)|(q & E & R)].
        * intros r. apply up_from.
        * rewrite (proj1 (B i (I i (I2 i (or_introl eq_refl))))). eapply above_keep; [exact A2|]. intros j Hj. apply B, I, I2. right. exact Hj.
        * intros j Hj. apply I, I2. right. exact Hj.
        * intros j Hj. rewrite (proj2 (B j Hj)). apply N, Hj.
        * left. exists rest. split; [|exact R]. unfold ups in E. rewrite (filter_ext_in (by_name t (mh m1)) (by_name t (mh m))), F2 in E by (intros j Hj; apply by_name_keep, K, Hj). cbn [map app]. rewrite E. reflexivity.
        * right. exists q. split; [|exact R]. unfold ups in E. rewrite (filter_ext_in (by_name t (mh m1)) (by_name t (mh m))), F2 in E by (intros j Hj; apply by_name_keep, K, Hj). cbn [map app]. rewrite E. reflexivity.
  Qed.
  Lemma start_step m ax t x o r : gpulls m (GStart (EStep ax t) (Obj x o)) r <-> gpulls m (GStep (Try ax t) x o (enter (mh m) ax x)) r.
  Proof. split; intros (k & P); [destruct k as [|k]; [discriminate|]; exists k; exact P|exists (S k); exact P]. Qed.
  Lemma up_start t x o l m out m' g' : above (mh m) (hparent (mh m) x) l -> (forall i, In i l -> ename (mh m) i <> None) ->
    gloop (keeps_up l) m (GStart (EStep AxAncestor t) (Obj x o)) out m' g' ->
    (exists rest, ups m t o l = out ++ rest /\
       match rest with
       | y :: _ => exists g1, gpulls m' g' (Given y g1)
       | [] => forall q f, hroot (mh m') (mc m' (Obj x o)) x = ([HRoot q], f) -> exists g1, gpulls m' g' (Given (Obj (HRoot q) o) g1)
       end) \/
    (exists q, out = ups m t o l ++ [Obj (HRoot q) o] /\ gpulls m' g' Ended).
  Proof.
    intros A N L. destruct (up_loop t x o l _ _ _ _ _ L (hparent (mh m) x) l) as [(rest & E & R)|R]; auto.
    - intros r. apply start_step.
    - intros i Hi; exact Hi.
    - left. exists rest. split; [exact E|]. destruct rest; [|exact R]. intros q f Hq. exists (GStep (Try AxAncestor t) x o (PList [])). apply R. exists 1. cbn [gnext move]. rewrite Hq. reflexivity.
  Qed.
  (** The parent of a result is looked up when the next one is asked for. *)
  Definition up_state (t : ntest) (x : hitem) (o : birth) (g : gen) : Prop :=
    g = GStart (EStep AxAncestor t) (Obj x o) \/ exists a, g = GStep (Try AxAncestor t) x o a /\ match a with PUp _ | PUpFrom _ | PRoot | PList [] => True | _ => False end.
  Lemma parent_elem h i p : well_linked h -> xml_parent h i = Some p -> ename h p <> None.
  Proof.
    intros (_ & Hl & _ & _) H. apply xml_parent_is in H. destruct (proj2 (Hl p i) H) as (op & Hp & Hin). unfold ename. rewrite Hp. destruct op; [discriminate|destruct Hin].
  Qed.
  Lemma up_given t x o k : forall m a y g', next k m (GStep (Try AxAncestor t) x o a) = Some (Given y g') -> well_linked (mh m) ->
    match a with PUp (Some p) => ename (mh m) p <> None | PUp None | PUpFrom _ | PRoot | PList [] => True | _ => False end ->
    exists a', g' = GStep (Try AxAncestor t) x o a' /\ ((exists i, y = Obj (HNode i) o /\ a' = PUpFrom i) \/ (exists q, y = Obj (HRoot q) o /\ a' = PList [])).
  Proof.
    induction k as [|k IH]; intros m a y g' P W H; [discriminate|].
    assert (C : forall p, (forall i, p = Some i -> ename (mh m) i <> None) -> move m t x o a = climb p -> exists a', g' = GStep (Try AxAncestor t) x o a' /\ ((exists i, y = Obj (HNode i) o /\ a' = PUpFrom i) \/ (exists q, y = Obj (HRoot q) o /\ a' = PList []))).
    { intros p Hp M. cbn [gnext] in P. rewrite M in P. destruct p as [i|]; cbn [climb] in P.
      - rewrite (seen_up _ _ _ _ (Hp i eq_refl)) in P. destruct (by_name t (mh m) i).
        + injection P as <- <-. exists (PUpFrom i). split; [reflexivity|]. left. exists i. auto.
        + apply (IH _ _ _ _ P W I).
      - apply (IH _ _ _ _ P W I). }
    destruct a as [| l | | | | | | | |p|p| | |]; try destruct H.
    - destruct l; [|destruct H]. discriminate.
    - apply (C p); [|reflexivity]. intros i ->. exact H.
    - apply (C (xml_parent (mh m) p)); [|reflexivity]. intros i Hi. eapply parent_elem; eauto.
    - destruct (root_pull m t x o y g') as (z & l & f & Hr & -> & ->); [exists (S k); exact P|]. destruct (hroot_is _ _ _ _ _ _ Hr) as (q & ->). exists (PList []). split; [reflexivity|]. right. exists q. auto.
  Qed.
  Lemma up_state_given t r o m g y g' : well_linked (mh m) -> up_state t (HNode r) o g -> (forall p, g <> GStep (Try AxAncestor t) (HNode r) o (PUp p)) -> gpulls m g (Given y g') ->
    exists a', g' = GStep (Try AxAncestor t) (HNode r) o a' /\ ((exists i, y = Obj (HNode i) o /\ a' = PUpFrom i) \/ (exists q, y = Obj (HRoot q) o /\ a' = PList [])).
  Proof.
    intros W [->|(a & -> & Ha)] Hn P.
    - apply start_step in P. cbn [enter hparent] in P. destruct P as (k & P). eapply up_given; [exact P|exact W|]. cbn. destruct (xml_parent (mh m) r) eqn:E; [eapply parent_elem; eauto|exact I].
    - destruct P as (k & P). eapply up_given; [exact P|exact W|]. destruct a; auto. exfalso. eapply Hn. reflexivity.
  Qed.
  Lemma up_reach t r o m g out m' g' : gloop (fun _ _ m1 => well_linked (mh m1)) m g out m' g' -> well_linked (mh m) -> up_state t (HNode r) o g -> (forall p, g <> GStep (Try AxAncestor t) (HNode r) o (PUp p)) ->
    well_linked (mh m') /\ up_state t (HNode r) o g' /\ (forall p, g' <> GStep (Try AxAncestor t) (HNode r) o (PUp p)).
  Proof.
    induction 1 as [m g|m g y g1 m1 out m2 g2 P B Lp IH]; intros W U N; [auto|]. destruct (up_state_given _ _ _ _ _ _ _ W U N P) as (a & -> & D). apply IH; [exact B| |].
    - right. exists a. split; [reflexivity|]. destruct D as [(i & _ & ->)|(q & _ & ->)]; exact I.
    - intros p E. injection E as E. destruct D as [(i & _ & ->)|(q & _ & ->)]; discriminate.
  Qed.
  Lemma up_cut t r o m out m1 g1 i o' g2 m2 : well_linked (mh m) -> gloop (fun _ _ m1 => well_linked (mh m1)) m (GStart (EStep AxAncestor t) (Obj (HNode r) o)) out m1 g1 ->
    gpulls m1 g1 (Given (Obj (HNode i) o') g2) -> xml_parent (mh m2) i = None ->
    forall q f, hroot (mh m2) (mc m2 (Obj (HNode r) o)) (HNode r) = ([HRoot q], f) -> exists g3, gpulls m2 g2 (Given (Obj (HRoot q) o) g3) /\ forall m3, gpulls m3 g3 Ended.
  Proof.
    intros W L P X q f Hq. destruct (up_reach _ _ _ _ _ _ _ _ L W (or_introl eq_refl)) as (W1 & U & N); [discriminate|].
    destruct (up_state_given _ _ _ _ _ _ _ W1 U N P) as (a & -> & [(j & E & ->)|(j & E & _)]); [|discriminate]. injection E as <- _.
    exists (GStep (Try AxAncestor t) (HNode r) o (PList [])). split; [|intros m3; exists 1; reflexivity]. apply up_from. rewrite X. apply (step_skip m2 t (HNode r) o (PUp None) PRoot); [reflexivity|]. exists 1. cbn [gnext move]. rewrite Hq. reflexivity.
  Qed.

  (** ** Attributes *)
  Lemma attr_given t r o k : forall m n i y g', next k m (GStep (Try AxAttribute t) (HNode r) o (PAttrs r n i)) = Some (Given y g') ->
    length (attrs_of (mh m) r) = n /\ exists i', g' = GStep (Try AxAttribute t) (HNode r) o (PAttrs r n i').
  Proof.
    induction k as [|k IH]; intros m n i y g' P; [discriminate|]. cbn [gnext move] in P. destruct (Nat.eqb_spec (length (attrs_of (mh m) r)) n) as [E|]; [|discriminate]. split; [exact E|].
    destruct (nth_error (attrs_of (mh m) r) i) as [kv|]; [|discriminate]. destruct (_ || _).
    - injection P as <- <-. eauto.
    - apply (IH _ _ _ _ _ P).
  Qed.
  Lemma attr_loop t r o body m n i out m' g' : gloop body m (GStep (Try AxAttribute t) (HNode r) o (PAttrs r n i)) out m' g' -> exists i', g' = GStep (Try AxAttribute t) (HNode r) o (PAttrs r n i').
  Proof.
    remember (GStep _ _ _ _) as g eqn:E. intros L. revert i E. induction L as [m g|m g y g1 m1 out m2 g2 (k & P) B L IH]; intros i ->; [eauto|]. destruct (attr_given _ _ _ _ _ _ _ _ _ P) as (_ & i' & ->). eapply IH. reflexivity.
  Qed.
  Lemma attr_enter m t r o y g : gpulls m (GStart (EStep AxAttribute t) (Obj (HNode r) o)) (Given y g) ->
    gpulls m (GStep (Try AxAttribute t) (HNode r) o (PAttrs r (length (attrs_of (mh m) r)) 0)) (Given y g).
  Proof. intros P. apply start_step in P. cbn [enter] in P. destruct (helem (mh m) r); [exact P|]. destruct P as (k & P). destruct k; discriminate. Qed.
  Lemma attr_resized t r o body m y g1 m1 out m' g' : gpulls m (GStart (EStep AxAttribute t) (Obj (HNode r) o)) (Given y g1) -> gloop body m1 g1 out m' g' ->
    length (attrs_of (mh m') r) <> length (attrs_of (mh m) r) -> gpulls m' g' (Failed RuntimeErr).
  Proof.
    intros P L N. apply attr_enter in P. destruct P as (k & P). destruct (attr_given _ _ _ _ _ _ _ _ _ P) as (_ & i & ->). destruct (attr_loop _ _ _ _ _ _ _ _ _ _ L) as (i' & ->).
    exists 1. cbn [gnext move]. destruct (Nat.eqb_spec (length (attrs_of (mh m') r)) (length (attrs_of (mh m) r))); [contradiction|reflexivity].
  Qed.
  Lemma attr_scan t r o m n : forall a b, attrs_of (mh m) r = b ++ a -> length (attrs_of (mh m) r) = n ->
    match filter (wanted t) (map fst a) with
    | [] => gpulls m (GStep (Try AxAttribute t) (HNode r) o (PAttrs r n (length b))) Ended
    | k :: ks => exists v b' a', a = b' ++ (k, v) :: a' /\ filter (wanted t) (map fst a') = ks /\
        gpulls m (GStep (Try AxAttribute t) (HNode r) o (PAttrs r n (length b))) (Given (Obj (HAttr r k v) Made) (GStep (Try AxAttribute t) (HNode r) o (PAttrs r n (S (length b + length b')))))
    end.
  Proof.
    induction a as [|[k v] a IH]; intros b E Hn.
    - cbn [map filter]. exists 1. cbn [gnext move]. rewrite Hn, Nat.eqb_refl. rewrite E, app_nil_r, (proj2 (nth_error_None b (length b)) (le_n _)). reflexivity.
    - assert (X : nth_error (attrs_of (mh m) r) (length b) = Some (k, v)) by (rewrite E, nth_error_app2, Nat.sub_diag by lia; reflexivity).
      cbn [map fst filter]. destruct (wanted t k) eqn:Wk.
      + exists v, [], a. split; [reflexivity|]. split; [reflexivity|]. exists 1. cbn [gnext move]. rewrite Hn, Nat.eqb_refl, X. cbn [fst snd]. unfold wanted in Wk. rewrite Wk. cbn [length]. rewrite Nat.add_0_r. reflexivity.
      + assert (E2 : attrs_of (mh m) r = (b ++ [(k, v)]) ++ a) by (rewrite <- app_assoc; exact E).
        assert (K : forall z, gpulls m (GStep (Try AxAttribute t) (HNode r) o (PAttrs r n (length (b ++ [(k, v)])))) z -> gpulls m (GStep (Try AxAttribute t) (HNode r) o (PAttrs r n (length b))) z).
        { intros z (q & Q). exists (S q). cbn [gnext move]. rewrite Hn, Nat.eqb_refl, X. cbn [fst snd]. unfold wanted in Wk. rewrite Wk. rewrite app_length in Q. cbn [length] in Q. rewrite Nat.add_1_r in Q. exact Q. }
        specialize (IH _ E2 Hn). destruct (filter (wanted t) (map fst a)) as [|k2 ks].
        * apply K, IH.
        * destruct IH as (v2 & b' & a' & -> & F & P). exists v2, ((k, v) :: b'), a'. split; [reflexivity|]. split; [exact F|]. apply K in P. rewrite app_length in P. cbn [length] in *. replace (length b + S (length b')) with (length b + 1 + length b') by lia. exact P.
  Qed.
  Lemma attr_sets t r o n ks : forall m g out m' g', gloop (sets_values r) m g out m' g' -> forall i b a, attrs_of (mh m) r = b ++ a -> length b = i -> length (attrs_of (mh m) r) = n -> filter (wanted t) (map fst a) = ks ->
    (forall z, gpulls m g z <-> gpulls m (GStep (Try AxAttribute t) (HNode r) o (PAttrs r n i)) z) ->
    exists rest, map Some ks = map attr_name out ++ map Some rest /\
      match rest with [] => gpulls m' g' Ended | k :: _ => exists v g1, In (k, v) (attrs_of (mh m') r) /\ gpulls m' g' (Given (Obj (HAttr r k v) Made) g1) end.
  Proof.
    intros m g out m' g' L. revert ks. induction L as [m g|m g y g1 m1 out m2 g2 P B L IH]; intros ks i b a E Hb Hn F Q; pose proof (attr_scan t r o m n a b E Hn) as S; rewrite F, Hb in S.
    - exists ks. split; [reflexivity|]. destruct ks as [|k ks]; [apply Q, S|]. destruct S as (v & b' & a' & -> & _ & P). exists v. eexists. split; [|apply Q, P]. rewrite E. apply in_or_app. right. apply in_or_app. right. left. reflexivity.
    - apply Q in P. destruct ks as [|k ks]; [pose proof (gpulls_det _ _ _ _ _ _ P S); discriminate|]. destruct S as (v & b' & a' & -> & F' & P'). pose proof (gpulls_det _ _ _ _ _ _ P P') as D. injection D as -> ->.
      unfold sets_values in B. set (d := attrs_of (mh m1) r) in *. set (j := S (i + length b')).
      assert (Hd : length d = n) by (rewrite <- Hn, <- (map_length fst d), B, map_length; reflexivity).
      assert (Hs : map fst (skipn j d) = map fst a').
      { rewrite <- skipn_map, B, E, map_app, map_app. cbn [map fst]. rewrite app_assoc. change ((k : str) :: map fst a') with ([k] ++ map fst a'). rewrite app_assoc, skipn_app, skipn_all2; rewrite ?app_length, ?map_length; cbn [length]; [|unfold j; lia].
        replace (j - _) with 0 by (unfold j; lia). reflexivity. }
      destruct (IH ks j (firstn j d) (skipn j d)) as (rest & R & X).
      + symmetry. apply firstn_skipn.
      + apply firstn_length_le. rewrite Hd, <- Hn, E, !app_length. cbn [length]. unfold j. lia.
      + exact Hd.
      + rewrite Hs. exact F'.
      + intros z. reflexivity.
      + exists rest. split; [|exact X]. cbn [map app attr_name]. rewrite R. reflexivity.
  Qed.
  Lemma attr_values t r o m out m' g' : helem (mh m) r = true -> gloop (sets_values r) m (GStart (EStep AxAttribute t) (Obj (HNode r) o)) out m' g' ->
    exists rest, map Some (filter (wanted t) (map fst (attrs_of (mh m) r))) = map attr_name out ++ map Some rest /\
      match rest with [] => gpulls m' g' Ended | k :: _ => exists v g1, In (k, v) (attrs_of (mh m') r) /\ gpulls m' g' (Given (Obj (HAttr r k v) Made) g1) end.
  Proof.
    intros He L. eapply (attr_sets t r o _ _ _ _ _ _ _ L 0 [] (attrs_of (mh m) r)); [reflexivity|reflexivity|reflexivity|reflexivity|]. intros z. rewrite start_step. cbn [enter]. rewrite He. reflexivity.
  Qed.
End Up.
