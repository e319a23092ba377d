(** More facts about suspended iterators: patterns, cursors, and loops that edit. *)
From Verif Require Import PyStr Parser XTree Tree Nodes Pattern TreeUtil Path Heap Builder HeapSpec HeapFacts.
From Verif Require Import RootCache XPath HeapNav HeapNavSpec LiveIter LiveIterSpec LiveIterFacts.

(** ** Patterns *)
Definition at_kid (h : heap) (is : list ref) (k : nat) (c : ref) (x : located) : Prop :=
  exists j a i', fst x = (k + j) :: a /\ nth_error is j = Some i' /\ follow h i' a = Some c.
Definition on_kid (s : pst) (k : xtree) : list located * bool :=
  match node_step s k with
  | SType => ([], true)
  | SState PMatched => ([([], k)], false)
  | SState s' => select_state k s'
  | SNone => ([], false)
  end.
Lemma select_state_eq n a ks s : select_state (XE n a ks) s = sel_kids (on_kid s) 0 ks.
Proof. reflexivity. Qed.
Lemma by_state_holds h p i t ids s : holds h p i t ids -> by_state s h i = match node_step s t with
  | SType => Raise | SState PMatched => Give | SState s' => Enter s' | SNone => Pass end.
Proof. intros H. unfold by_state. inversion H as [? ? ? ? ? ? ? Hi|? ? ? Hi]; subst; rewrite Hi; reflexivity. Qed.
Lemma under_at h i is k l locs : Forall2 (at_loc h i) l locs -> Forall2 (at_kid h (i :: is) k) l (under k locs).
Proof.
  intros H. induction H as [|c x l locs Hx _ IH]; [constructor|]. cbn [under map]. constructor; [|exact IH].
  exists 0, (fst x), i. cbn [fst]. rewrite Nat.add_0_r. destruct x; auto.
Qed.
Lemma shift_at h i is k l locs : Forall2 (at_kid h is (S k)) l locs -> Forall2 (at_kid h (i :: is) k) l locs.
Proof.
  intros H. induction H as [|c x l locs (j & a & i' & A & B & C) _ IH]; constructor; auto. exists (S j), a, i'. rewrite A. split; [f_equal; lia|auto].
Qed.
Lemma F2_app {A B} (R : A -> B -> Prop) l l' m m' : Forall2 R l m -> Forall2 R l' m' -> Forall2 R (l ++ l') (m ++ m').
Proof. induction 1; cbn [app]; auto. Qed.
Lemma sees_state h : (forall p i t ids, holds h p i t ids -> forall s, exists l, sees by_state h s (kids_of h i) l (snd (select_state t s)) /\
    Forall2 (at_loc h i) l (fst (select_state t s))) /\
  (forall q is ts ids, holds_all h q is ts ids -> forall s k, exists l, sees by_state h s is l (snd (sel_kids (on_kid s) k ts)) /\
    Forall2 (at_kid h is k) l (fst (sel_kids (on_kid s) k ts))).
Proof.
  apply holds_both.
  - intros p i n a is ks idss Hi _ IH s. rewrite select_state_eq. destruct (IH s 0) as (l & H & F). exists l. unfold kids_of at 1. rewrite Hi. split; [exact H|].
    revert F. generalize (fst (sel_kids (on_kid s) 0 ks)). clear H. induction l as [|c l IHl]; intros locs F; inversion F; subst; constructor; auto.
    destruct H1 as (j & b & i' & A & B & C). unfold at_loc. rewrite A. cbn [Nat.add follow]. rewrite Hi. cbn [okids]. rewrite B. exact C.
  - intros p i s Hi s'. exists []. unfold kids_of. rewrite Hi. split; constructor.
  - intros q s k. exists []. split; constructor.
  - intros q i is t ts ids idss Hh IH1 _ IH2 s k. pose proof (by_state_holds _ _ _ _ _ s Hh) as Hv. cbn [sel_kids]. destruct (IH2 s (S k)) as (l2 & H2 & F2).
    assert (Fi : forall s', exists l1, sees by_state h s' (kids_of h i) l1 (snd (select_state t s')) /\ Forall2 (at_loc h i) l1 (fst (select_state t s'))) by exact IH1.
    unfold on_kid at 1 3. destruct (node_step s t) as [| |s'] eqn:E.
    + exists []. split; [apply se_fail; exact Hv|constructor].
    + destruct (sel_kids (on_kid s) (S k) ts) as [m e2] eqn:Es. cbn [fst snd] in *. exists l2. split; [apply se_pass; auto|]. cbn [under map app]. apply shift_at. exact F2.
    + assert (C : s' = PMatched \/ by_state s h i = Enter s' /\ (match s' with PMatched => ([([], t)], false) | s0 => select_state t s0 end) = select_state t s').
      { destruct s'; auto. }
      destruct C as [->|[Hv' ->]].
      * destruct (sel_kids (on_kid s) (S k) ts) as [m e2] eqn:Es. cbn [fst snd] in *. exists (i :: l2). split; [apply se_give; auto|].
        cbn [under map app fst]. constructor; [|apply shift_at; exact F2]. exists 0, [], i. cbn [fst]. rewrite Nat.add_0_r. auto.
      * destruct (Fi s') as (l1 & H1 & F1). destruct (select_state t s') as [lo [|]] eqn:Et; cbn [fst snd] in H1, F1.
        -- exists l1. split; [eapply se_enter_fail; eauto|]. apply under_at. exact F1.
        -- destruct (sel_kids (on_kid s) (S k) ts) as [m e2] eqn:Es. cbn [fst snd] in *. exists (l1 ++ l2). split; [eapply se_enter; eauto|].
           apply F2_app; [apply under_at; exact F1|apply shift_at; exact F2].
Qed.
Lemma future_state h p r t ids s : holds h p r t ids -> exists l, future by_state h [(r, 0, s)] l (snd (select_state t s)) /\
  Forall2 (at_loc h r) l (fst (select_state t s)).
Proof.
  intros H. destruct (proj1 (sees_state h) _ _ _ _ H s) as (l & S1 & F). exists l. split; [|exact F].
  destruct (snd (select_state t s)); [apply fu_fail; exact S1|]. rewrite <- (app_nil_r l). apply fu_cons; [exact S1|constructor].
Qed.

(** ** following_siblings *)
Lemma past_drop (p : ref -> bool) l : existsb p l = true -> skipn (past p l) l = tl (dropwhile (fun x => negb (p x)) l).
Proof.
  induction l as [|x l IH]; [discriminate|]. cbn [existsb past dropwhile]. destruct (p x); cbn [negb orb]; [reflexivity|exact IH].
Qed.
Lemma past_none (p : ref -> bool) l : existsb p l = false -> dropwhile (fun x => negb (p x)) l = [].
Proof. induction l as [|x l IH]; [reflexivity|]. cbn [existsb dropwhile]. destruct (p x); [discriminate|]. exact IH. Qed.
Lemma siblings_future h i st : siblings_from h i = Some st -> exists l, following_siblings h i = Some l /\ future (flat (fun _ _ => true)) h st l false.
Proof.
  unfold siblings_from, following_siblings. destruct (xml_parent h i) as [p|] eqn:E; [|discriminate]. intros H.
  assert (Hp : exists o, hp h p = Some o).
  { unfold xml_parent in E. destruct (hp h i) as [o|]; [|discriminate]. destruct (oparent o) as [q|]; [|discriminate]. destruct (hp h q) eqn:Eq; [|discriminate]. injection E as ->. eauto. }
  destruct Hp as (o & Ho). rewrite Ho. eexists. split; [reflexivity|].
  assert (Hk : kids_of h p = okids o) by (unfold kids_of; rewrite Ho; reflexivity). rewrite Hk in H.
  destruct (existsb (fun x => node_eqb h x i) (okids o)) eqn:Ex.
  - injection H as <-. rewrite <- past_drop by exact Ex.
    match goal with |- future _ _ _ ?l _ => replace l with (filter (fun _ => true) (to_come h p (past (fun x => node_eqb h x i) (okids o)))) end.
    + apply (future_flat (fun _ _ => true)).
    + unfold to_come. rewrite Hk. clear. generalize (skipn (past (fun x => node_eqb h x i) (okids o)) (okids o)). intros l. induction l as [|x l IH]; cbn [filter]; congruence.
  - injection H as <-. rewrite past_none by exact Ex. constructor.
Qed.

(** ** Cursors *)
Lemma skipn_twice {A} m n (l : list A) : skipn m (skipn n l) = skipn (m + n) l.
Proof. revert l. induction n as [|n IH]; intros l; [rewrite Nat.add_0_r; reflexivity|]. rewrite Nat.add_succ_r. destruct l as [|x l]; [destruct m; reflexivity|]. cbn [skipn]. apply IH. Qed.
Lemma skipn_insert_after {A} (ks : list A) q i c : i <= q -> q <= length ks ->
  skipn i (firstn q ks ++ c :: skipn q ks) = firstn (q - i) (skipn i ks) ++ c :: skipn (q - i) (skipn i ks).
Proof.
  intros H Hq. rewrite skipn_app, firstn_length_le by exact Hq. replace (i - q) with 0 by lia. cbn [skipn].
  rewrite firstn_skipn_comm. replace (i + (q - i)) with q by lia. rewrite skipn_twice. replace (q - i + i) with q by lia. reflexivity.
Qed.
Lemma skipn_S {A} i (l : list A) : skipn (S i) l = tl (skipn i l).
Proof. revert l. induction i as [|i IH]; intros [|x l]; try reflexivity. cbn [skipn]. rewrite <- IH. reflexivity. Qed.
Lemma skipn_nth {A} i (l : list A) x : nth_error l i = Some x -> skipn i l = x :: skipn (S i) l.
Proof. revert l. induction i as [|i IH]; intros [|y l]; try discriminate. { cbn. intros H. injection H as ->. reflexivity. } cbn [nth_error skipn]. intros H. rewrite (IH _ H). destruct l; reflexivity. Qed.
Lemma skipn_insert_before {A} (ks : list A) q i c x : q <= i -> nth_error ks i = Some x ->
  skipn (S i) (firstn q ks ++ c :: skipn q ks) = x :: skipn (S i) ks.
Proof.
  intros H Hx. assert (Hi : i < length ks) by (apply nth_error_Some; congruence).
  rewrite skipn_app, firstn_length_le by lia. rewrite (skipn_all2 (firstn q ks)) by (rewrite firstn_length_le; lia).
  replace (S i - q) with (S (i - q)) by lia. cbn [app skipn]. rewrite skipn_twice. replace (i - q + q) with i by lia. apply skipn_nth. exact Hx.
Qed.
Lemma kids_split h r n a ks p : hp h r = Some (OElem n a ks p) -> kids_of h r = ks.
Proof. unfold kids_of. intros ->. reflexivity. Qed.
(** What an insertion does to a suspended iterator. *)
Lemma insert_cursor h r x index h' : well_linked h -> xml_insert h r x index = EOk h' ->
  (forall i, x = ARef i -> is_elem h i -> i <> r) -> exists c,
  (forall i, i <= position index (length (kids_of h r)) -> to_come h' r i =
     firstn (position index (length (kids_of h r)) - i) (to_come h r i) ++ c :: skipn (position index (length (kids_of h r)) - i) (to_come h r i)) /\
  (forall i y, position index (length (kids_of h r)) <= i -> nth_error (kids_of h r) i = Some y -> to_come h' r (S i) = y :: to_come h r (S i)) /\
  (forall i, length (kids_of h r) < i -> to_come h' r i = []) /\
  (forall j i, j <> r -> to_come h' j i = to_come h j i).
Proof.
  intros W H Hne. destruct (hp h r) as [[n a ks p|s p]|] eqn:Hr; [|unfold xml_insert in H; rewrite Hr in H; discriminate|unfold xml_insert in H; rewrite Hr in H; discriminate].
  assert (Al : allocated h) by (intros j o Ho; apply (proj1 W _ _ Ho)).
  assert (G : exists c, hp h' r = Some (OElem n a (firstn (position index (length ks)) ks ++ c :: skipn (position index (length ks)) ks) p) /\
    forall j, j <> r -> kids_of h' j = kids_of h j).
  { destruct x as [i|s].
    - destruct (hp h i) as [[n1 a1 k1 p1|s1 p1]|] eqn:Hi.
      + assert (Ei : is_elem h i) by (do 4 eexists; exact Hi). destruct (insert_elem_at h r n a ks p i index Hr Ei (Hne i eq_refl Ei)) as (h2 & E2 & A1 & A2 & A3).
        rewrite H in E2. injection E2 as <-. exists i. split; [exact A1|]. intros j Hj. unfold kids_of. destruct (Nat.eq_dec j i) as [->|Hji].
        * rewrite (A2 _ Hi), Hi. reflexivity.
        * rewrite A3 by auto. reflexivity.
      + destruct (insert_text_at h r n a ks p (ARef i) s1 index Hr Al) as (h2 & E2 & A1 & A2 & A3 & A4); [right; exists i; split; [reflexivity|exists p1; exact Hi]|].
        rewrite H in E2. injection E2 as <-. exists (nxt h). split; [exact A1|]. intros j Hj. unfold kids_of. destruct (Nat.eq_dec j (nxt h)) as [->|Hji].
        * rewrite A3, A2. reflexivity.
        * rewrite A4 by auto. reflexivity.
      + unfold xml_insert in H. rewrite Hr, Hi in H. discriminate.
    - destruct (insert_text_at h r n a ks p (AStr s) s index Hr Al) as (h2 & E2 & A1 & A2 & A3 & A4); [left; reflexivity|].
      rewrite H in E2. injection E2 as <-. exists (nxt h). split; [exact A1|]. intros j Hj. unfold kids_of. destruct (Nat.eq_dec j (nxt h)) as [->|Hji].
      + rewrite A3, A2. reflexivity.
      + rewrite A4 by auto. reflexivity. }
  destruct G as (c & A1 & A2). exists c. unfold to_come. rewrite (kids_split _ _ _ _ _ _ Hr), (kids_split _ _ _ _ _ _ A1).
  assert (Hq : position index (length ks) <= length ks).
  { unfold position. destruct (index =? -1)%Z; [lia|]. destruct (Z.ltb_spec index 0); lia. }
  split; [|split; [|split]].
  - intros i Hi. apply skipn_insert_after; assumption.
  - intros i y Hi Hy. apply skipn_insert_before; assumption.
  - intros i Hi. apply skipn_all2. rewrite app_length. cbn [length]. rewrite firstn_length_le, skipn_length by exact Hq. lia.
  - intros j i Hj. rewrite (A2 j Hj). reflexivity.
Qed.
Lemma remove_cursor h r c h' k1 k2 : well_linked h -> is_elem h c -> kids_of h r = k1 ++ c :: k2 -> xml_remove h r (ARef c) = EOk h' ->
  (forall i, length k1 < i -> to_come h' r i = tl (to_come h r i)) /\
  (forall i, i <= length k1 -> to_come h r i = skipn i k1 ++ c :: k2 /\ to_come h' r i = skipn i k1 ++ k2) /\
  (forall j i, j <> r -> to_come h' j i = to_come h j i).
Proof.
  intros W Ec Hk H. pose proof W as (_ & Hl & Hn & Ht). destruct (hp h r) as [[n a ks p|s p]|] eqn:Hr; [|unfold xml_remove in H; rewrite Hr in H; discriminate|unfold xml_remove in H; rewrite Hr in H; discriminate].
  rewrite (kids_split _ _ _ _ _ _ Hr) in Hk. subst ks.
  assert (Hcr : c <> r).
  { intros ->. destruct (Ht r _ Hr) as (t & ids & Hh & _). assert (Hc : child h r r) by (eexists; split; [exact Hr|apply in_or_app; right; left; reflexivity]).
    apply (no_cycle _ _ _ _ _ _ Hh Hc). constructor. }
  assert (Hc1 : ~ In c k1).
  { specialize (Hn r _ Hr). cbn [okids] in Hn. apply NoDup_remove_2 in Hn. intros Hi. apply Hn, in_or_app; auto. }
  destruct (remove_elem_at h r n a k1 c k2 p Hr Ec Hcr Hc1) as (h2 & E2 & A1 & A2 & A3). rewrite H in E2. injection E2 as <-.
  unfold to_come. rewrite (kids_split _ _ _ _ _ _ Hr), (kids_split _ _ _ _ _ _ A1). split; [|split].
  - intros i Hi. rewrite <- skipn_S. rewrite !skipn_app, !(skipn_all2 k1) by lia. cbn [app]. replace (S i - length k1) with (S (i - length k1)) by lia. reflexivity.
  - intros i Hi. rewrite !skipn_app. replace (i - length k1) with 0 by lia. auto.
  - intros j i Hj. unfold kids_of. destruct (Nat.eq_dec j c) as [->|Hjc].
    + destruct Ec as (n1 & a1 & k3 & p1 & Hc). rewrite (A2 _ Hc), Hc. reflexivity.
    + rewrite A3 by auto. reflexivity.
Qed.
