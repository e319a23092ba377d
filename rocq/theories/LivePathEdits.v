(** Loops over suspended location paths: edits in nodes that do not come any more. *)
From Verif Require Import PyStr Parser XTree Heap Builder HeapSpec HeapFacts BuilderMore RootCache XPath HeapNav.
From Verif Require Import LiveIter LiveIterSpec LiveIterFacts LiveIterMore LiveIterLoops LiveIterText LivePath LivePathSpec LivePathFacts LivePathLoops.

(** What a node is, apart from its links. *)
Definition same_label (o o' : obj) : Prop :=
  match o, o' with
  | OElem n a _ _, OElem n' a' _ _ => n' = n /\ a' = a
  | OText s _, OText s' _ => s' = s
  | _, _ => False
  end.
Definition labels_kept (h h' : heap) : Prop := forall i o, hp h i = Some o -> exists o', hp h' i = Some o' /\ same_label o o'.
Lemma label_refl o : same_label o o. Proof. destruct o; cbn; auto. Qed.
Lemma labels_trans h h1 h2 : labels_kept h h1 -> labels_kept h1 h2 -> labels_kept h h2.
Proof.
  intros A B i o H. destruct (A _ _ H) as (o1 & H1 & L1). destruct (B _ _ H1) as (o2 & H2 & L2). exists o2. split; [exact H2|].
  destruct o, o1; cbn in L1; try contradiction; destruct o2; cbn in *; try contradiction; intuition congruence.
Qed.
Lemma upd_labels h i o o' : hp h i = Some o -> same_label o o' -> labels_kept h (upd h i o').
Proof.
  intros Hi L j oj Hj. rewrite hp_upd. destruct (Nat.eqb_spec j i) as [->|_]; [|exists oj; split; [exact Hj|apply label_refl]].
  rewrite Hi in Hj. injection Hj as <-. eauto.
Qed.
Lemma set_parent_label o q : same_label o (set_parent o q). Proof. destruct o; cbn; auto. Qed.
Lemma alloc_labels h o : allocated h -> labels_kept h (fst (alloc h o)).
Proof.
  intros Al j oj Hj. rewrite hp_alloc. destruct (Nat.eqb_spec j (nxt h)) as [->|_]; [apply Al in Hj; lia|]. exists oj. split; [exact Hj|apply label_refl].
Qed.
Lemma place_labels h j index i h' : place_kid h j index i = EOk h' -> labels_kept h h'.
Proof.
  intros H. unfold place_kid in H. destruct (hp h j) as [[n a ks p|]|] eqn:E; try discriminate. injection H as <-. eapply upd_labels; [exact E|]. cbn. auto.
Qed.
Lemma edit_labels j h h' : allocated h -> edit_in j h h' -> labels_kept h h'.
Proof.
  intros Al [(x & index & H)|(i & H)].
  - unfold xml_insert in H. destruct (hp h j) as [[n a ks p|]|] eqn:Ej; try discriminate.
    assert (T : forall s, place_kid (fst (alloc h (OText s (Some j)))) j index (nxt h) = EOk h' -> labels_kept h h').
    { intros s E. eapply labels_trans; [apply alloc_labels; exact Al|eapply place_labels; exact E]. }
    destruct x as [i|s]; [|apply (T s H)]. destruct (hp h i) as [[n1 a1 k1 p1|s p1]|] eqn:Ei; [|apply (T s H)|discriminate].
    eapply labels_trans; [eapply upd_labels; [exact Ei|apply set_parent_label]|eapply place_labels; exact H].
  - unfold xml_remove in H. destruct (hp h j) as [[n a ks p|]|] eqn:Ej; try discriminate. destruct (existsb _ ks); [|discriminate].
    destruct (hp h i) as [o|] eqn:Ei; [|discriminate].
    destruct (hp (upd h i (set_parent o None)) j) as [[n1 a1 k1 p1|]|] eqn:E1; try discriminate. injection H as <-.
    eapply labels_trans; [eapply upd_labels; [exact Ei|apply set_parent_label]|eapply upd_labels; [exact E1|]]. cbn. auto.
Qed.
Lemma edits_in_keep P h h' : edits_in P h h' -> allocated h -> allocated h' /\ labels_kept h h' /\ forall i, ~ P i -> kids_of h' i = kids_of h i.
Proof.
  induction 1 as [h|n a h h2 _ IH|j h h1 h2 Pj E _ IH]; intros Al.
  - split; [exact Al|]. split; [|reflexivity]. intros i o H. exists o. split; [exact H|apply label_refl].
  - assert (A1 : allocated (fst (alloc h (OElem n a [] None)))).
    { intros x o. rewrite hp_alloc. cbn [alloc fst nxt]. destruct (Nat.eqb_spec x (nxt h)) as [->|_]; [lia|]. intros H. apply Al in H. lia. }
    destruct (IH A1) as (A & L & K). split; [exact A|]. split; [eapply labels_trans; [apply alloc_labels; exact Al|exact L]|]. intros i Hi. rewrite (K i Hi).
    unfold kids_of. rewrite hp_alloc. destruct (Nat.eqb_spec i (nxt h)) as [->|_]; [|reflexivity]. destruct (hp h (nxt h)) eqn:E; [apply Al in E; lia|reflexivity].
  - destruct (edit_in_beside _ _ _ Al E) as (A1 & K1 & _). destruct (IH A1) as (A & L & K). split; [exact A|]. split; [eapply labels_trans; [eapply edit_labels; eauto|exact L]|].
    intros i Hi. rewrite (K i Hi). apply K1. intros ->. auto.
Qed.

(** ** Tests *)
Lemma live_kept h h' i : labels_kept h h' -> live h i -> live h' i.
Proof. intros L Hi. unfold live in *. destruct (hp h i) as [o|] eqn:E; [|congruence]. destruct (L _ _ E) as (o' & -> & _). discriminate. Qed.
Lemma htext_kept h h' i : labels_kept h h' -> live h i -> htext h' i = htext h i.
Proof.
  intros L Hi. unfold live, htext in *. destruct (hp h i) as [o|] eqn:E; [|congruence]. destruct (L _ _ E) as (o' & -> & S). destruct o, o'; cbn in S; try contradiction; congruence.
Qed.
Lemma htest_kept h h' t i : labels_kept h h' -> live h i -> htest h' t (HNode i) = htest h t (HNode i).
Proof.
  intros L Hi. unfold htest. destruct t; auto.
  - unfold live in Hi. destruct (hp h i) as [o|] eqn:E; [|congruence]. destruct (L _ _ E) as (o' & -> & S). destruct o, o'; cbn in S; try contradiction; [|reflexivity]. destruct S as [-> ->]. reflexivity.
  - rewrite (htext_kept h h' i L Hi). reflexivity.
Qed.
Lemma tested_kept h h' i0 ax t i : ax <> XChild -> labels_kept h h' -> live h i0 -> live h i -> tested h' (HNode i0) (ax, t) (Some i) = tested h (HNode i0) (ax, t) (Some i).
Proof.
  intros A L H0 Hi. unfold tested. assert (P : forall h0, passes h0 (fst (ax, t)) (snd (ax, t)) (Some i) = false) by (intros h0; destruct ax; try reflexivity; congruence). rewrite !P. cbn [snd].
  unfold hcopy. rewrite (htext_kept h h' i L Hi). destruct (htext h i) as [[|k s]|]; apply htest_kept; auto.
Qed.
Lemma tested_plain h x ax t i : ax <> XChild -> tested h x (ax, t) (Some i) = htest h t (hcopy h x i).
Proof. intros A. unfold tested. destruct ax; try reflexivity; congruence. Qed.
Lemma flat_map_ext_in {A B} (f g : A -> list B) l : (forall x, In x l -> f x = g x) -> flat_map f l = flat_map g l.
Proof. intros H. induction l as [|x l IH]; [reflexivity|]. cbn [flat_map]. rewrite H, IH; auto; [intros y Hy; apply H; right; exact Hy|left; reflexivity]. Qed.

(** ** Copied lists *)
(** A copied list of siblings, or [to_process]. *)
Definition copied (cur : cursor) : Prop := match cur with CList _ | CWork _ => True | _ => False end.
Lemma copied_next h x cur y cur' : copied cur -> cnext h x cur = KItem y cur' -> copied cur'.
Proof. destruct cur as [|l|l| | | |]; cbn; try contradiction; intros _; destruct l; intros H; inversion H; exact I. Qed.
Lemma listed_next h x cur y cur' : (exists l, cur = CList l) -> cnext h x cur = KItem y cur' -> exists l, cur' = CList l.
Proof. intros (l & ->). destruct l as [|i l]; cbn [cnext]; intros H; inversion H. eauto. Qed.
Lemma raws_kept h h' x x' cur ys f : raws h x cur ys f -> copied cur -> ((exists l, cur = CList l) \/ forall i, In (Some i) ys -> kids_of h' i = kids_of h i) -> raws h' x' cur ys f.
Proof.
  induction 1 as [cur E|cur e E|cur y cur' ys f E R IH]; intros C K.
  - apply ra_end. destruct cur as [|l|l| | | |]; try contradiction; destruct l; cbn [cnext work_next] in *; congruence.
  - destruct cur as [|l|l| | | |]; try contradiction; destruct l; discriminate.
  - pose proof (copied_next _ _ _ _ _ C E) as C'. destruct cur as [|l|l| | | |]; try contradiction; destruct l as [|i l]; cbn [cnext work_next] in E; try discriminate; injection E as <- <-.
    + eapply ra_item; [reflexivity|]. apply IH; [exact C'|]. left. eauto.
    + destruct K as [(l0 & K)|K]; [discriminate|]. eapply ra_item; [cbn [cnext work_next]; rewrite (K i (or_introl eq_refl)); reflexivity|]. apply IH; [exact C'|]. right. intros j Hj. apply K. right; exact Hj.
Qed.

Section Loops.
  Variable c : hitem -> rcache.
  Notation qpulls := (qpulls c). Notation comes := (comes c). Notation qloop := (qloop c). Notation flows := (flows c).

  Lemma step_comes h b x s cur ys f : raws h x cur ys f -> f <> Cut -> comes h [FStep b x s cur []] (flat_map (tested h x s) ys) f.
  Proof.
    intros R Hf. apply flows_comes. eapply (step_flows c h b x s [] (fun z => ([z], Done))); [|exact R|apply hbind_single; exact Hf|exact Hf].
    intros z l g H _. injection H as <- <-. eapply fl_out; [reflexivity|constructor].
  Qed.
  Lemma pull_raws h b x s cur ys f : raws h x cur ys f -> forall y st1, qpulls h [FStep b x s cur []] (QGives y st1) ->
    exists a z ys' cur', ys = a ++ z :: ys' /\ st1 = [FStep b x s cur' []] /\ raws h x cur' ys' f /\ tested h x s z = [y] /\ flat_map (tested h x s) a = [] /\ (copied cur -> copied cur') /\ ((exists l, cur = CList l) -> exists l, cur' = CList l).
  Proof.
    induction 1 as [cur E|cur e E|cur z cur' ys f E R IH]; intros y st1 P.
    - assert (Q : qpulls h [FStep b x s cur []] QEnds) by (eapply qpulls_over; [cbn [turn]; rewrite E; reflexivity|apply qpulls_nil]). pose proof (qpulls_det _ _ _ _ _ P Q). discriminate.
    - assert (Q : qpulls h [FStep b x s cur []] (QFails e)) by (eapply qpulls_fail; cbn [turn]; rewrite E; reflexivity). pose proof (qpulls_det _ _ _ _ _ P Q). discriminate.
    - destruct (tested_le h x s z) as [T|(w & T)].
      + assert (Q : forall r, qpulls h [FStep b x s cur' []] r -> qpulls h [FStep b x s cur []] r) by (intros r Hr; eapply qpulls_quiet; [cbn [turn]; rewrite E, T; reflexivity|exact Hr]).
        assert (P' : qpulls h [FStep b x s cur' []] (QGives y st1)).
        { destruct P as [n P]. destruct n as [|n]; [discriminate|]. exists n. cbn [qpull turn] in P. rewrite E, T in P. exact P. }
        destruct (IH _ _ P') as (a & z' & ys' & cur2 & -> & -> & R' & T' & N & C & CL). exists (z :: a), z', ys', cur2.
        split; [reflexivity|]. split; [reflexivity|]. split; [exact R'|]. split; [exact T'|]. split; [cbn [flat_map]; rewrite T; exact N|]. split; [intros Hc; apply C; eapply copied_next; eauto|]. intros Hc. apply CL. eapply listed_next; eauto.
      + assert (Q : qpulls h [FStep b x s cur []] (QGives w [FStep b x s cur' []])) by (apply (qpulls_out c h (FStep b x s cur []) [FStep b x s cur' []] [] w); cbn [turn]; rewrite E, T; reflexivity).
        pose proof (qpulls_det _ _ _ _ _ P Q) as D. injection D as -> ->. exists [], z, ys, cur'. repeat (split; [auto; fail|]). split; [intros Hc; eapply copied_next; eauto|]. intros Hc. eapply listed_next; eauto.
  Qed.
  Lemma eval_pull h b x s r : qpulls h [FEval b x [s]] r <-> qpulls h [FStep b x s (cstart h (fst s) x) []] r.
  Proof.
    split; [|intros H; eapply qpulls_quiet; [reflexivity|exact H]]. intros [n P]. destruct n as [|n]; [discriminate|]. exists n. exact P.
  Qed.

  (** ** A loop over a copied axis whose body edits only nodes that do not come any more *)
  Section Copied.
    Variables (i0 : ref) (ax : laxis) (t : ntest) (M : list ref) (anywhere : bool).
    Hypothesis Hax : ax <> XChild.
    (** What the body may edit when [y] has been delivered. *)
    Definition past_edits (h : heap) (y : hitem) (h1 : heap) : Prop := exists i, y = HNode i /\ edits_in (fun j => anywhere = true \/ ~ after (i0 :: M) i j) h h1.
    Lemma copied_loop h st out h' st' : qloop past_edits h st out h' st' -> forall pre m b cur, st = [FStep b (HNode i0) (ax, t) cur []] -> copied cur -> (anywhere = true -> exists l, cur = CList l) -> M = pre ++ m ->
      raws h (HNode i0) cur (map Some m) Done -> allocated h -> live h i0 -> (forall i, In i m -> live h i) ->
      exists rest, flat_map (fun i => htest h t (hcopy h (HNode i0) i)) m = out ++ rest /\ comes h' st' rest Done.
    Proof.
      assert (FM : forall h m, flat_map (tested h (HNode i0) (ax, t)) (map Some m) = flat_map (fun i => htest h t (hcopy h (HNode i0) i)) m).
      { intros h0 m0. induction m0 as [|i m0 IH]; [reflexivity|]. cbn [map flat_map]. rewrite IH, tested_plain by exact Hax. reflexivity. }
      induction 1 as [h st|h st y st1 h1 out h2 st2 P B L IH]; intros pre m b cur -> C An EM R Al L0 Lm.
      - exists (flat_map (fun i => htest h t (hcopy h (HNode i0) i)) m). split; [reflexivity|]. rewrite <- FM. apply step_comes; [exact R|discriminate].
      - destruct (pull_raws _ _ _ _ _ _ _ R _ _ P) as (a & z & ys' & cur' & Ey & -> & R' & T & N & C' & CL). specialize (C' C).
        assert (Em : exists a0 i m', m = a0 ++ i :: m' /\ a = map Some a0 /\ z = Some i /\ ys' = map Some m').
        { clear - Ey. revert m Ey. induction a as [|w a IH]; intros [|i m] Ey; try discriminate.
          - injection Ey as <- <-. exists [], i, m. auto.
          - injection Ey as <- Ey. destruct (IH _ Ey) as (a0 & i' & m' & -> & -> & -> & ->). exists (i :: a0), i', m'. auto. }
        destruct Em as (a0 & i & m' & -> & -> & -> & ->). destruct B as (iy & -> & B). destruct (edits_in_keep _ _ _ B Al) as (Al1 & Lk & K).
        assert (Li : live h i) by (apply Lm; apply in_or_app; right; left; reflexivity).
        assert (Y : iy = i \/ iy = i0).
        { rewrite tested_plain in T by exact Hax. assert (Q : htest h t (hcopy h (HNode i0) i) = [] \/ htest h t (hcopy h (HNode i0) i) = [hcopy h (HNode i0) i]).
          { unfold htest. destruct t; auto; destruct (hcopy h (HNode i0) i) as [|k|]; auto; [destruct (hp h k) as [[]|]; auto; destruct (str_eqb _ _); auto|destruct (htext h k); auto]. }
          destruct Q as [Q|Q]; rewrite Q in T; [discriminate|]. injection T as T. unfold hcopy in T. destruct (htext h i) as [[|]|]; injection T as ->; auto. }
        assert (Km : anywhere = true \/ forall j, In j m' -> kids_of h1 j = kids_of h j).
        { destruct anywhere; [left; reflexivity|right]. intros j Hj. apply K. intros [Hn|Hn]; [discriminate|]. apply Hn. destruct Y as [->| ->].
          - exists (i0 :: pre ++ a0), m'. split; [|exact Hj]. cbn [app]. rewrite EM, <- app_assoc. reflexivity.
          - exists [], M. split; [reflexivity|]. rewrite EM. apply in_or_app. right. apply in_or_app. right. right. exact Hj. }
        destruct (IH (pre ++ a0 ++ [i]) m' b cur' eq_refl C' (fun Q => CL (An Q))) as (rest & E & Cm).
        + rewrite EM, <- !app_assoc. reflexivity.
        + eapply raws_kept; [exact R'|exact C'|]. destruct Km as [Km|Km]; [left; auto|right]. intros j Hj. apply Km. apply in_map_iff in Hj as (j' & Ej & Hj). injection Ej as ->. exact Hj.
        + exact Al1.
        + eapply live_kept; eauto.
        + intros j Hj. eapply live_kept; [exact Lk|]. apply Lm. apply in_or_app. right. right. exact Hj.
        + exists rest. split; [|exact Cm]. rewrite flat_map_app. cbn [flat_map]. rewrite <- (FM h a0), N. cbn [app]. rewrite tested_plain in T by exact Hax. rewrite T. cbn [app]. f_equal.
          rewrite <- E. apply flat_map_ext_in. intros j Hj. rewrite <- !(tested_plain _ _ ax) by exact Hax. symmetry. apply tested_kept; auto. apply Lm. apply in_or_app. right. right. exact Hj.
    Qed.
  End Copied.
  Lemma query_loop body h b x s out h' st' : qloop body h [FEval b x [s]] out h' st' ->
    (out = [] /\ h' = h /\ st' = [FEval b x [s]]) \/ (out <> [] /\ qloop body h [FStep b x s (cstart h (fst s) x) []] out h' st').
  Proof.
    intros H. inversion H as [|? ? y st1 h1 out1 h2 st2 P B L]; subst; [left; auto|right]. apply eval_pull in P. split; [discriminate|]. eapply ql_turn; eauto.
  Qed.
  Lemma query_loop_back body h b x s out h' st' : out <> [] -> qloop body h [FStep b x s (cstart h (fst s) x) []] out h' st' -> qloop body h [FEval b x [s]] out h' st'.
  Proof. intros Hn H. inversion H as [|? ? y st1 h1 out1 h2 st2 P B L]; subst; [congruence|]. eapply ql_turn; [apply eval_pull; exact P|exact B|exact L]. Qed.
  Lemma copied_query i0 ax t M any h out h' st' : ax <> XChild -> copied (cstart h ax (HNode i0)) -> (any = true -> exists l, cstart h ax (HNode i0) = CList l) -> raws h (HNode i0) (cstart h ax (HNode i0)) (map Some M) Done ->
    allocated h -> live h i0 -> (forall i, In i M -> live h i) ->
    qloop (past_edits i0 M any) h (query (HNode i0) [(ax, t)]) out h' st' ->
    exists rest, flat_map (fun i => htest h t (hcopy h (HNode i0) i)) M = out ++ rest /\ comes h' st' rest Done.
  Proof.
    intros Hax C An R Al L0 Lm L. apply query_loop in L as [(-> & -> & ->)|[_ L]].
    - destruct (copied_loop i0 ax t M any Hax h _ [] h _ (ql_start _ _ _ _) [] M (HNode i0) _ eq_refl C An eq_refl R Al L0 Lm) as (rest & E & Cm). exists rest. split; [exact E|].
      apply flows_comes. unfold query. eapply fl_quiet; [reflexivity|]. cbn [fst app]. 
      eapply (step_flows c h (HNode i0) (HNode i0) (ax, t) [] (fun z => ([z], Done))); [|exact R| |discriminate].
      + intros z l g H _. injection H as <- <-. eapply fl_out; [reflexivity|constructor].
      + rewrite hbind_single by discriminate. f_equal. transitivity (flat_map (fun i => htest h t (hcopy h (HNode i0) i)) M); [|exact E].
        clear - Hax. induction M as [|i m0 IH]; [reflexivity|]. cbn [map flat_map]. rewrite IH, tested_plain by exact Hax. reflexivity.
    - eapply (copied_loop i0 ax t M any Hax _ _ _ _ _ L [] M); eauto.
  Qed.
End Loops.
