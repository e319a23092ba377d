(** Loops over suspended iterators that edit where the iterator does not look. *)
From Verif Require Import PyStr Parser XTree Tree Nodes Pattern TreeUtil Heap Builder HeapSpec HeapFacts.
From Verif Require Import LiveIter LiveIterSpec LiveIterFacts LiveIterMore LiveIterLoops.
From Coq Require Import Permutation.

Lemma elem_chosen h c : elem_of h c = chosen any_elem h c.
Proof. unfold elem_of, chosen, any_elem. destruct (hp h c) as [[]|]; reflexivity. Qed.

(** What an edit of [j] leaves alone. *)
Definition beside (j : ref) (h h' : heap) : Prop := allocated h' /\ (forall r, r <> j -> kids_of h' r = kids_of h r) /\ (forall f x, chosen f h' x = chosen f h x).
Lemma upd_beside h j n a ks ks' p p' : hp h j = Some (OElem n a ks p) -> allocated h -> beside j h (upd h j (OElem n a ks' p')).
Proof.
  intros Hj Al. split; [|split].
  - intros x o. rewrite hp_upd. destruct (Nat.eqb_spec x j) as [->|_]; [intros _; apply (Al _ _ Hj)|apply Al].
  - intros r Hr. unfold kids_of. rewrite hp_upd_other by auto. reflexivity.
  - intros f x. unfold chosen. rewrite hp_upd. destruct (Nat.eqb_spec x j) as [->|_]; [rewrite Hj; reflexivity|reflexivity].
Qed.
Lemma parent_beside h j i o q : hp h i = Some o -> allocated h -> beside j h (upd h i (set_parent o q)).
Proof.
  intros Hi Al. split; [|split].
  - intros x o'. cbn [upd nxt]. rewrite hp_upd. destruct (Nat.eqb_spec x i) as [->|_]; [intros _; apply (Al _ _ Hi)|apply Al].
  - intros r Hr. unfold kids_of. rewrite hp_upd. destruct (Nat.eqb_spec r i) as [->|_]; [rewrite Hi; destruct o; reflexivity|reflexivity].
  - intros f x. unfold chosen. rewrite hp_upd. destruct (Nat.eqb_spec x i) as [->|_]; [rewrite Hi; destruct o; reflexivity|reflexivity].
Qed.
Lemma fresh_beside h j s q : allocated h -> beside j h (fst (alloc h (OText s q))).
Proof.
  intros Al. assert (N : hp h (nxt h) = None) by (destruct (hp h (nxt h)) eqn:E; [apply Al in E; lia|reflexivity]). split; [|split].
  - intros x o. rewrite hp_alloc. cbn [alloc fst nxt]. destruct (Nat.eqb_spec x (nxt h)) as [->|_]; [lia|]. intros H. apply Al in H. lia.
  - intros r Hr. unfold kids_of. rewrite hp_alloc. destruct (Nat.eqb_spec r (nxt h)) as [->|_]; [rewrite N; reflexivity|reflexivity].
  - intros f x. unfold chosen. rewrite hp_alloc. destruct (Nat.eqb_spec x (nxt h)) as [->|_]; [rewrite N; reflexivity|reflexivity].
Qed.
Lemma beside_trans j h h1 h2 : beside j h h1 -> beside j h1 h2 -> beside j h h2.
Proof. intros (_ & A & B) (C & D & E). split; [exact C|]. split; intros; [rewrite D, A by auto|rewrite E, B]; reflexivity. Qed.
Lemma place_beside h j index c h' : allocated h -> place_kid h j index c = EOk h' -> beside j h h'.
Proof.
  intros Al H. unfold place_kid in H. destruct (hp h j) as [[n a ks p|]|] eqn:E; try discriminate. injection H as <-. eapply upd_beside; eauto.
Qed.
Lemma edit_in_beside j h h' : allocated h -> edit_in j h h' -> beside j h h'.
Proof.
  intros Al [(x & index & H)|(c & H)].
  - unfold xml_insert in H. destruct (hp h j) as [[n a ks p|]|] eqn:Ej; try discriminate.
    assert (T : forall s, place_kid (fst (alloc h (OText s (Some j)))) j index (nxt h) = EOk h' -> beside j h h').
    { intros s E. pose proof (fresh_beside h j s (Some j) Al) as B. eapply beside_trans; [exact B|]. eapply place_beside; [exact (proj1 B)|exact E]. }
    destruct x as [i|s]; [|apply (T s H)]. destruct (hp h i) as [[n1 a1 k1 p1|s p1]|] eqn:Ei; [|apply (T s H)|discriminate].
    pose proof (parent_beside h j i _ (Some j) Ei Al) as B. eapply beside_trans; [exact B|]. eapply place_beside; [exact (proj1 B)|exact H].
  - unfold xml_remove in H. destruct (hp h j) as [[n a ks p|]|] eqn:Ej; try discriminate. destruct (existsb _ ks); [|discriminate].
    destruct (hp h c) as [o|] eqn:Ec; [|discriminate]. pose proof (parent_beside h j c o None Ec Al) as B.
    destruct (hp (upd h c (set_parent o None)) j) as [[n1 a1 k1 p1|]|] eqn:E1; try discriminate. injection H as <-.
    eapply beside_trans; [exact B|]. eapply upd_beside; [exact E1|exact (proj1 B)].
Qed.
(** ** Flat iteration: edits elsewhere *)
Lemma edits_off_kids r h h' : edits_off r h h' -> allocated h -> allocated h' /\ kids_of h' r = kids_of h r /\ forall f x, chosen f h' x = chosen f h x.
Proof.
  induction 1 as [h|j h h1 h2 Hj E _ IH]; intros Al; [auto|]. destruct (edit_in_beside _ _ _ Al E) as (A1 & A2 & A3). destruct (IH A1) as (B1 & B2 & B3).
  split; [exact B1|]. split; [rewrite B2; apply A2; auto|]. intros f x. rewrite B3. apply A3.
Qed.
Lemma filter_chosen f h h' l : (forall x, chosen f h' x = chosen f h x) -> filter (chosen f h') l = filter (chosen f h) l.
Proof. intros H. apply filter_ext. exact H. Qed.
Lemma flat_gives p h r i c st1 : pulls (flat p) h [(r, i, tt)] (Gives c st1) -> exists k, st1 = [(r, k, tt)] /\ filter (p h) (to_come h r i) = c :: filter (p h) (to_come h r k).
Proof.
  intros Hp. destruct (first_sel (p h) (to_come h r i)) as [Hn|(a & x & b & Ht & Ha & Hx)].
  - pose proof (flat_end p h r _ i eq_refl Hn) as E. pose proof (pulls_det _ _ _ _ _ Hp E). discriminate.
  - pose proof (flat_pull p h r a i x b Ht Ha Hx) as E. pose proof (pulls_det _ _ _ _ _ Hp E) as Q. injection Q as -> ->. exists (S (i + length a)). split; [reflexivity|].
    rewrite Ht, filter_app. cbn [filter]. rewrite Hx. assert (Na : filter (p h) a = []).
    { clear - Ha. induction a as [|y a IH]; [reflexivity|]. cbn [filter]. rewrite (Ha y (or_introl eq_refl)). apply IH. intros z Hz. apply Ha. right; exact Hz. }
    rewrite Na. cbn [app]. do 2 f_equal. unfold to_come in *. replace (S (i + length a)) with (S (length a) + i) by lia. rewrite <- skipn_twice, Ht.
    rewrite skipn_app, skipn_all2 by lia. replace (S (length a) - length a) with 1 by lia. reflexivity.
Qed.
Lemma off_loop f r h st out h' st' : loop (flat (chosen f)) (fun h _ h1 => edits_off r h h1) h st out h' st' -> allocated h -> forall i, st = [(r, i, tt)] ->
  exists k, st' = [(r, k, tt)] /\ filter (chosen f h) (to_come h r i) = out ++ filter (chosen f h) (to_come h r k) /\ kids_of h' r = kids_of h r /\ forall x, chosen f h' x = chosen f h x.
Proof.
  induction 1 as [h st|h st x st1 h1 out h2 st2 Hp B L IH]; intros Al i ->; [exists i; auto|]. destruct (flat_gives _ _ _ _ _ _ Hp) as (k & -> & E).
  destruct (edits_off_kids _ _ _ B Al) as (A1 & A2 & A3). destruct (IH A1 k eq_refl) as (k' & -> & E' & K' & C'). exists k'. split; [reflexivity|]. split; [|split].
  - rewrite E. cbn [app]. f_equal. rewrite !(filter_chosen _ _ _ _ (A3 f)) in E'. unfold to_come in *. rewrite A2 in E'. exact E'.
  - rewrite K'. exact A2.
  - intros y. rewrite C'. apply A3.
Qed.

(** ** Deep iteration: text edits in what has just been delivered *)
Lemma remove_first_elems (el q : ref -> bool) l : (forall x, q x = true -> el x = false) -> filter el (remove_first q l) = filter el l.
Proof.
  intros H. induction l as [|x l IH]; [reflexivity|]. cbn [remove_first filter]. destruct (q x) eqn:E; [rewrite (H x E); reflexivity|]. cbn [filter]. rewrite IH. reflexivity.
Qed.
Lemma node_eqb_text h x i s : is_text h i s -> node_eqb h x i = true -> elem_of h x = false.
Proof.
  intros (p & Hi) H. unfold node_eqb in H. unfold elem_of. destruct (Nat.eqb_spec x i) as [->|_]; [rewrite Hi; reflexivity|]. cbn [orb] in H. destruct (hp h x) as [[]|]; auto; discriminate.
Qed.
Lemma text_edit_beside c h h' : allocated h -> text_edit c h h' -> beside c h h' /\ filter (elem_of h') (kids_of h' c) = filter (elem_of h) (kids_of h c).
Proof.
  intros Al H. assert (B : beside c h h') by (apply edit_in_beside; [exact Al|]; destruct H as [x s index _ H|i s _ H]; [left; eauto|right; eauto]).
  split; [exact B|]. destruct B as (_ & _ & B). assert (Be : forall x, elem_of h' x = elem_of h x) by (intros x; rewrite !elem_chosen; apply B).
  rewrite (filter_ext _ _ Be). destruct H as [x s index Hx H|i s Hi H].
  - destruct (hp h c) as [[n a ks p|]|] eqn:Ec; [|unfold xml_insert in H; rewrite Ec in H; discriminate|unfold xml_insert in H; rewrite Ec in H; discriminate].
    destruct (insert_text_at h c n a ks p x s index Ec Al Hx) as (h2 & E2 & A1 & A2 & A3 & A4). rewrite H in E2. injection E2 as <-.
    unfold kids_of. rewrite A1, Ec. cbn [okids]. rewrite filter_app. cbn [filter]. assert (N : elem_of h (nxt h) = false) by (unfold elem_of; rewrite A2; reflexivity).
    rewrite N, <- filter_app, firstn_skipn. reflexivity.
  - unfold xml_remove in H. destruct (hp h c) as [[n a ks p|]|] eqn:Ec; try discriminate. destruct (existsb _ ks); [|discriminate].
    pose proof Hi as (pi & Hi'). rewrite Hi' in H. cbn [set_parent] in H. rewrite hp_upd_other in H by congruence. rewrite Ec in H. injection H as <-.
    unfold kids_of. rewrite hp_upd_same, Ec. cbn [okids]. apply remove_first_elems. intros x Hx.
    assert (T : is_text (upd h i (OText s None)) i s) by (exists None; apply hp_upd_same). pose proof (node_eqb_text _ _ _ _ T Hx) as E.
    unfold elem_of in *. rewrite hp_upd in E. destruct (Nat.eqb_spec x i) as [->|_]; [rewrite Hi'; reflexivity|exact E].
Qed.

Section Deep.
  Variable f : str -> dict str -> bool.
  Notation v := (kept (chosen f) deep).
  Lemma v_text s h c : elem_of h c = false -> v s h c = Pass.
  Proof. intros E. unfold kept, deep. rewrite E. reflexivity. Qed.
  Lemma sees_elems h s cs l e : sees v h s cs l e -> sees v h s (filter (elem_of h) cs) l e.
  Proof.
    induction 1 as [s|s c cs l e Hv Hs IH|s c cs l e Hv Hs IH|s s' c cs l1 l2 e Hv H1 IH1 H2 IH2|s s' c cs l1 l2 e Hv H1 IH1 H2 IH2
      |s s' c cs l Hv H1 IH1|s s' c cs l Hv H1 IH1|s c cs Hv]; cbn [filter]; [constructor|..]; destruct (elem_of h c) eqn:E; try (rewrite (v_text s h c E) in Hv; discriminate); try (econstructor; eauto; fail); auto.
  Qed.
  Lemma sees_elems_inv h s cs : forall l e, sees v h s (filter (elem_of h) cs) l e -> sees v h s cs l e.
  Proof.
    induction cs as [|c cs IH]; intros l e H; [exact H|]. cbn [filter] in H. destruct (elem_of h c) eqn:E; [|apply se_pass; [apply v_text; exact E|apply IH; exact H]].
    inversion H; subst; first [eapply se_pass; eauto; fail|eapply se_give; eauto; fail|eapply se_enter; eauto; fail|eapply se_both; eauto; fail|eapply se_enter_fail; eauto; fail|eapply se_both_fail; eauto; fail|eapply se_fail; eauto].
  Qed.
  Lemma v_same h h' s x : (forall f x, chosen f h' x = chosen f h x) -> v s h' x = v s h x.
  Proof. intros H. unfold kept, deep. rewrite !elem_chosen, !H. reflexivity. Qed.
  Lemma sees_beside c h h' s cs l e : beside c h h' -> filter (elem_of h') (kids_of h' c) = filter (elem_of h) (kids_of h c) -> sees v h s cs l e -> sees v h' s cs l e.
  Proof.
    intros (_ & Bk & Bc) Be. assert (Ee : forall x, elem_of h' x = elem_of h x) by (intros x; rewrite !elem_chosen; apply Bc).
    assert (K : forall x s l e, sees v h' s (kids_of h x) l e -> sees v h' s (kids_of h' x) l e).
    { intros x s' l' e' H. destruct (Nat.eq_dec x c) as [->|Hx]; [|rewrite Bk by exact Hx; exact H]. apply sees_elems_inv. rewrite Be. apply sees_elems in H. rewrite (filter_ext _ _ Ee) in H. exact H. }
    assert (V : forall s x, v s h' x = v s h x) by (intros; apply v_same; exact Bc).
    induction 1 as [s|s x cs l e Hv Hs IH|s x cs l e Hv Hs IH|s s' x cs l1 l2 e Hv H1 IH1 H2 IH2|s s' x cs l1 l2 e Hv H1 IH1 H2 IH2
      |s s' x cs l Hv H1 IH1|s s' x cs l Hv H1 IH1|s x cs Hv]; try rewrite <- V in Hv.
    - constructor.
    - apply se_pass; auto.
    - apply se_give; auto.
    - eapply se_enter; eauto.
    - eapply se_both; eauto.
    - eapply se_enter_fail; eauto.
    - eapply se_both_fail; eauto.
    - apply se_fail; auto.
  Qed.
  Definition refs (st : list (frame unit)) : list ref := map (fun x => fst (fst x)) st.
  Lemma future_beside c h h' st l e : beside c h h' -> filter (elem_of h') (kids_of h' c) = filter (elem_of h) (kids_of h c) -> ~ In c (refs st) ->
    future v h st l e -> future v h' st l e.
  Proof.
    intros B Be Hn F. induction F as [|r i s st l1 l2 e Hs F IH|r i s st l Hs]; [constructor|..];
      (assert (Hr : r <> c) by (intros ->; apply Hn; left; reflexivity)); (assert (Ht : to_come h' r i = to_come h r i) by (unfold to_come; rewrite (proj1 (proj2 B)) by exact Hr; reflexivity)).
    - apply fu_cons; [rewrite Ht; eapply sees_beside; eauto|]. apply IH. intros Hc. apply Hn. right; exact Hc.
    - apply fu_fail. rewrite Ht. eapply sees_beside; eauto.
  Qed.
  Lemma future_top c h h' rest l e : beside c h h' -> filter (elem_of h') (kids_of h' c) = filter (elem_of h) (kids_of h c) -> ~ In c (refs rest) ->
    future v h ((c, 0, tt) :: rest) l e -> future v h' ((c, 0, tt) :: rest) l e.
  Proof.
    intros B Be Hn F. assert (S0 : forall l e, sees v h tt (to_come h c 0) l e -> sees v h' tt (to_come h' c 0) l e).
    { intros l' e' H. unfold to_come in *. cbn [skipn] in *. apply sees_elems_inv. rewrite Be. apply (sees_beside c h h' _ _ _ _ B Be) in H. apply sees_elems in H.
      assert (Ee : forall x, elem_of h' x = elem_of h x) by (intros x; rewrite !elem_chosen; apply B). rewrite (filter_ext _ _ Ee) in H. exact H. }
    inversion F; subst; [apply fu_cons; [apply S0; assumption|eapply future_beside; eauto]|apply fu_fail; apply S0; assumption].
  Qed.
End Deep.

(** No element is met twice. *)
Definition once (h : heap) (st : list (frame unit)) : Prop := exists l, future deep h st l false /\ NoDup (refs st ++ l).
Lemma deep_is h : forall s c, kept (chosen any_elem) deep s h c = deep s h c.
Proof. intros s c. unfold kept, deep. rewrite elem_chosen. destruct (chosen any_elem h c); reflexivity. Qed.
Lemma sees_ext {T} (v w : T -> heap -> ref -> act T) h s cs l e : (forall s c, v s h c = w s h c) -> sees v h s cs l e -> sees w h s cs l e.
Proof.
  intros E. induction 1 as [s|s x cs l e Hv Hs IH|s x cs l e Hv Hs IH|s s' x cs l1 l2 e Hv H1 IH1 H2 IH2|s s' x cs l1 l2 e Hv H1 IH1 H2 IH2
      |s s' x cs l Hv H1 IH1|s s' x cs l Hv H1 IH1|s x cs Hv]; try rewrite E in Hv.
  - constructor.
  - apply se_pass; auto.
  - apply se_give; auto.
  - eapply se_enter; eauto.
  - eapply se_both; eauto.
  - eapply se_enter_fail; eauto.
  - eapply se_both_fail; eauto.
  - apply se_fail; auto.
Qed.
Lemma future_ext {T} (v w : T -> heap -> ref -> act T) h st l e : (forall s c, v s h c = w s h c) -> future v h st l e -> future w h st l e.
Proof. intros E F. induction F; [constructor|apply fu_cons|apply fu_fail]; eauto using sees_ext. Qed.
Lemma once_top c h h' rest : beside c h h' -> filter (elem_of h') (kids_of h' c) = filter (elem_of h) (kids_of h c) -> ~ In c (refs rest) ->
  once h ((c, 0, tt) :: rest) -> once h' ((c, 0, tt) :: rest).
Proof.
  intros B Be Hn (l & F & Hd). exists l. split; [|exact Hd]. eapply future_ext; [apply deep_is|]. eapply future_top; eauto. eapply future_ext; [intros; symmetry; apply deep_is|exact F].
Qed.
Lemma once_tick f h st : once h st -> match tick (kept (chosen f) deep) h st with
  | TEnd => True | TFail => False | TQuiet st' => once h st' | TOut c st' => once h st' /\ exists rest, st' = (c, 0, tt) :: rest /\ ~ In c (refs rest) end.
Proof.
  intros (l & F & Hd). destruct st as [|[[r i] []] st]; [exact I|]. cbn [tick]. inversion F as [|? ? ? ? l1 l2 ? Hs F2|]; subst.
  destruct (nth_error (kids_of h r) i) as [c|] eqn:Hn.
  - rewrite to_come_nth, Hn in Hs. destruct (elem_of h c) eqn:E.
    + assert (Hv : deep tt h c = GiveEnter tt) by (unfold deep; rewrite E; reflexivity). inversion Hs; subst; try congruence.
      assert (Q : once h ((c, 0, tt) :: (r, 1 + i, tt) :: st) /\ ~ In c (refs ((r, 1 + i, tt) :: st))).
      { match goal with A : deep _ _ _ = GiveEnter ?x, S1 : sees deep h ?x (kids_of h c) ?m _, S2 : sees deep h _ _ ?m2 _ |- _ => destruct x; rename S1 into Sa, S2 into Sb end.
        split.
        - eexists. split; [apply fu_cons; [exact Sa|]; apply fu_cons; [exact Sb|exact F2]|]. cbn [refs map fst] in *. cbn [app] in *.
          eapply Permutation_NoDup; [|exact Hd]. rewrite <- app_assoc. rewrite <- Permutation_middle. apply perm_swap.
        - assert (Hd' : NoDup ((r :: refs st) ++ c :: (l0 ++ l3) ++ l2)) by exact Hd. apply NoDup_remove_2 in Hd'. intros Hc. apply Hd', in_or_app. left. exact Hc. }
      unfold kept. rewrite Hv. destruct Q as [Q1 Q2]. destruct (chosen f h c); [|exact Q1]. split; [exact Q1|]. eexists. split; [reflexivity|exact Q2].
    + assert (Hv : deep tt h c = Pass) by (unfold deep; rewrite E; reflexivity). unfold kept. rewrite Hv. inversion Hs; subst; try congruence.
      eexists. split; [apply fu_cons; [eassumption|exact F2]|]. exact Hd.
  - rewrite to_come_nth, Hn in Hs. inversion Hs; subst. cbn [app] in *. exists l2. split; [exact F2|]. cbn [refs map app fst] in Hd. inversion Hd; subst; assumption.
Qed.
Lemma once_pull f h st c st1 : once h st -> pulls (kept (chosen f) deep) h st (Gives c st1) -> once h st1 /\ exists rest, st1 = (c, 0, tt) :: rest /\ ~ In c (refs rest).
Proof.
  intros O (n & H). revert st O H. induction n as [|n IH]; intros st O H; [discriminate|]. cbn [pull] in H. pose proof (once_tick f h st O) as Q.
  destruct (tick (kept (chosen f) deep) h st) as [| |st'|x st']; try discriminate; [eapply IH; eauto|]. injection H as -> ->. exact Q.
Qed.
Lemma text_steps f c h h1 : text_edits c h h1 -> forall rest l e, allocated h -> ~ In c (refs rest) -> once h ((c, 0, tt) :: rest) ->
  future (kept (chosen f) deep) h ((c, 0, tt) :: rest) l e ->
  allocated h1 /\ once h1 ((c, 0, tt) :: rest) /\ future (kept (chosen f) deep) h1 ((c, 0, tt) :: rest) l e.
Proof.
  induction 1 as [h|h h1 h2 E _ IH]; intros rest l e Al Hn O F; [auto|]. destruct (text_edit_beside _ _ _ Al E) as [B Be].
  apply IH; auto; [exact (proj1 B)|eapply once_top; eauto|eapply future_top; eauto].
Qed.
Lemma text_loop f h st out h' st' : loop (kept (chosen f) deep) (fun h c h1 => text_edits c h h1) h st out h' st' -> forall l e, allocated h -> once h st ->
  future (kept (chosen f) deep) h st l e -> exists l', l = out ++ l' /\ future (kept (chosen f) deep) h' st' l' e.
Proof.
  induction 1 as [h st|h st x st1 h1 out h2 st2 Hp B L IH]; intros l e Al O F; [exists l; auto|].
  destruct (once_pull _ _ _ _ _ O Hp) as (O1 & rest & -> & Hn). pose proof (next_answers _ _ _ _ _ F) as A.
  destruct l as [|c l]; [cbn [answers] in A; pose proof (pulls_det _ _ _ _ _ Hp A) as Q; destruct e; discriminate|].
  destruct A as (st1' & Hp' & F1). pose proof (pulls_det _ _ _ _ _ Hp Hp') as Q. injection Q as -> <-.
  destruct (text_steps f _ _ _ B rest l e Al Hn O1 F1) as (Al1 & O2 & F2). destruct (IH l e Al1 O2 F2) as (l' & -> & F'). exists l'. auto.
Qed.
Lemma once_start h p r t ids : holds h p r t ids -> NoDup ids -> once h [(r, 0, tt)].
Proof.
  intros H Hd. exists (filter (elem_of h) (tl ids)). split; [eapply future_deep; eauto|]. assert (E : ids = r :: tl ids) by (inversion H; reflexivity).
  rewrite E in Hd. cbn [refs map fst app]. inversion Hd as [|? ? Hr Hd']; subst. constructor; [|apply NoDup_filter; exact Hd']. intros Hi. apply filter_In in Hi. tauto.
Qed.
