(** Loops over suspended iterators that edit the tree. *)
From Verif Require Import PyStr Parser XTree Tree Nodes Pattern TreeUtil Heap Builder HeapSpec HeapFacts.
From Verif Require Import LiveIter LiveIterSpec LiveIterFacts LiveIterMore.
From Coq Require Import Permutation.

Lemma loop_det {T} (v : T -> heap -> ref -> act T) (body : heap -> ref -> heap -> Prop) :
  (forall h c h1 h2, body h c h1 -> body h c h2 -> h1 = h2) ->
  forall h st out h' st', loop v body h st out h' st' -> pulls v h' st' Ends ->
  forall out2 h2 st2, loop v body h st out2 h2 st2 -> pulls v h2 st2 Ends -> out2 = out /\ h2 = h' /\ st2 = st'.
Proof.
  intros Hb h st out h' st' L. induction L as [h st|h st c st1 h1 out h2 st2 Hp B L IH]; intros E out' h'' st'' L' E'.
  - inversion L' as [|? ? c st1 h1 out2 ? ? Hp B L2]; subst; auto. pose proof (pulls_det _ _ _ _ _ E Hp). discriminate.
  - inversion L' as [|? ? c' st1' h1' out2 ? ? Hp' B' L2]; subst; [pose proof (pulls_det _ _ _ _ _ E' Hp); discriminate|].
    pose proof (pulls_det _ _ _ _ _ Hp Hp') as Q. injection Q as <- <-. rewrite (Hb _ _ _ _ B' B) in L2. destruct (IH E _ _ _ L2 E') as (-> & -> & ->). auto.
Qed.

(** ** Flat iteration *)
Lemma flat_pull p h r a : forall i c b, to_come h r i = a ++ c :: b -> (forall x, In x a -> p h x = false) -> p h c = true ->
  pulls (flat p) h [(r, i, tt)] (Gives c [(r, S (i + length a), tt)]).
Proof.
  induction a as [|x a IH]; intros i c b Ht Ha Hc; apply to_come_cons in Ht as [Hn Ht]; cbn [length].
  - exists 1. cbn [pull tick]. rewrite Hn. unfold flat. rewrite Hc. rewrite Nat.add_0_r. reflexivity.
  - apply pulls_quiet with (st' := [(r, S i, tt)]); [cbn [tick]; rewrite Hn; unfold flat; rewrite (Ha x (or_introl eq_refl)); reflexivity|].
    replace (i + S (length a)) with (S i + length a) by lia. eapply IH; eauto. intros y Hy. apply Ha. right; exact Hy.
Qed.
Lemma flat_end p h r l : forall i, to_come h r i = l -> (forall x, In x l -> p h x = false) -> pulls (flat p) h [(r, i, tt)] Ends.
Proof.
  intros i <- H. pose proof (next_answers _ _ _ _ _ (future_flat p h r i)) as A.
  assert (E : filter (p h) (to_come h r i) = []).
  { revert H. generalize (to_come h r i). intros l. induction l as [|x l IH]; intros H; [reflexivity|]. cbn [filter]. rewrite (H x (or_introl eq_refl)). apply IH. intros y Hy. apply H. right; exact Hy. }
  rewrite E in A. exact A.
Qed.
Lemma first_sel {A} (sel : A -> bool) l : (forall x, In x l -> sel x = false) \/ exists a c b, l = a ++ c :: b /\ (forall x, In x a -> sel x = false) /\ sel c = true.
Proof.
  induction l as [|x l IH]; [left; intros x []|]. destruct (sel x) eqn:E; [right; exists [], x, l; split; [reflexivity|]; split; [intros y []|exact E]|].
  destruct IH as [IH|(a & c & b & -> & Ha & Hc)]; [left; intros y [<-|Hy]; auto|]. right. exists (x :: a), c, b. split; [reflexivity|]. split; [intros y [<-|Hy]; auto|exact Hc].
Qed.
Lemma spared_none {A} (sel : A -> bool) l : (forall x, In x l -> sel x = false) -> spared sel l = l /\ taken sel l = [].
Proof.
  induction l as [|x l IH]; intros H; [auto|]. cbn [spared taken]. rewrite (H x (or_introl eq_refl)). destruct (IH (fun y Hy => H y (or_intror Hy))) as [-> ->]. auto.
Qed.
Lemma spared_app {A} (sel : A -> bool) a l : (forall x, In x a -> sel x = false) -> spared sel (a ++ l) = a ++ spared sel l /\ taken sel (a ++ l) = taken sel l.
Proof.
  induction a as [|x a IH]; intros H; [auto|]. cbn [app spared taken]. rewrite (H x (or_introl eq_refl)). destruct (IH (fun y Hy => H y (or_intror Hy))) as [-> ->]. auto.
Qed.
Lemma to_come_app h r done todo i : kids_of h r = done ++ todo -> (i = length done \/ todo = [] /\ length done <= i) -> to_come h r i = todo.
Proof.
  intros H. unfold to_come. rewrite H. intros [->|[-> Hi]].
  - rewrite skipn_app, skipn_all, Nat.sub_diag. reflexivity.
  - rewrite app_nil_r. apply skipn_all2. exact Hi.
Qed.
Lemma drop_step f h r k1 c k2 : well_linked h -> chosen f h c = true -> kids_of h r = k1 ++ c :: k2 ->
  exists h', drop_from r h c h' /\ well_linked h' /\ kids_of h' r = k1 ++ k2 /\ forall g x, chosen g h' x = chosen g h x.
Proof.
  intros W Hc Hk. pose proof W as (_ & _ & Hn & Ht). unfold kids_of in Hk.
  assert (Ec : is_elem h c) by (unfold chosen in Hc; destruct (hp h c) as [[]|] eqn:E; try discriminate; do 4 eexists; exact E).
  destruct (hp h r) as [[n a ks p|s p]|] eqn:Hr; cbn [okids] in Hk; [|destruct k1; discriminate|destruct k1; discriminate]. subst ks.
  assert (Hcr : c <> r).
  { intros ->. destruct (Ht r _ Hr) as (t & ids & Hh & _). assert (Hc' : child h r r) by (eexists; split; [exact Hr|apply in_or_app; right; left; reflexivity]).
    apply (no_cycle _ _ _ _ _ _ Hh Hc'). constructor. }
  assert (Hc1 : ~ In c k1).
  { specialize (Hn r _ Hr). cbn [okids] in Hn. apply NoDup_remove_2 in Hn. intros Hi. apply Hn, in_or_app; auto. }
  destruct (remove_elem_at h r n a k1 c k2 p Hr Ec Hcr Hc1) as (h2 & E2 & A1 & A2 & A3). exists h2. split; [exact E2|]. split; [eapply remove_elem_well_linked; eauto|].
  split; [unfold kids_of; rewrite A1; reflexivity|]. intros g x. unfold chosen. destruct (Nat.eq_dec x r) as [->|Hx]; [rewrite A1, Hr; reflexivity|].
  destruct (Nat.eq_dec x c) as [->|Hxc]; [|rewrite A3 by auto; reflexivity]. destruct Ec as (n1 & a1 & k3 & p1 & Hc'). rewrite (A2 _ Hc'), Hc'. reflexivity.
Qed.
Lemma drop_run f r m : forall todo, length todo <= m -> forall h done i, well_linked h -> kids_of h r = done ++ todo -> (i = length done \/ todo = [] /\ length done <= i) ->
  exists h' st', loop (flat (chosen f)) (drop_from r) h [(r, i, tt)] (taken (chosen f h) todo) h' st' /\ pulls (flat (chosen f)) h' st' Ends /\
    kids_of h' r = done ++ spared (chosen f h) todo.
Proof.
  induction m as [|m IH]; intros todo Hm h done i W Hk Hi; pose proof (to_come_app _ _ _ _ _ Hk Hi) as Ht.
  - destruct todo; [|cbn in Hm; lia]. exists h, [(r, i, tt)]. split; [constructor|]. split; [eapply flat_end; [exact Ht|intros x []]|exact Hk].
  - destruct (first_sel (chosen f h) todo) as [Hno|(a & c & b & -> & Ha & Hc)].
    + destruct (spared_none _ _ Hno) as [-> ->]. exists h, [(r, i, tt)]. split; [constructor|]. split; [eapply flat_end; eauto|exact Hk].
    + destruct (spared_app _ a (c :: b) Ha) as [-> ->]. cbn [spared taken]. rewrite Hc.
      assert (Hi' : i = length done) by (destruct Hi as [Hi|[Hi _]]; [exact Hi|destruct a; discriminate]).
      assert (Hk' : kids_of h r = (done ++ a) ++ c :: b) by (rewrite Hk, <- app_assoc; reflexivity).
      destruct (drop_step f h r (done ++ a) c b W Hc Hk') as (h1 & D & W1 & K1 & S1).
      assert (Ef : forall x, chosen f h1 x = chosen f h x) by (intros x; apply S1).
      assert (Es : forall l, spared (chosen f h1) l = spared (chosen f h) l /\ taken (chosen f h1) l = taken (chosen f h) l).
      { intros l. assert (G : forall n l, length l <= n -> spared (chosen f h1) l = spared (chosen f h) l /\ taken (chosen f h1) l = taken (chosen f h) l).
        { clear - Ef. induction n as [|n IHn]; intros [|x l] Hl; cbn [length] in Hl; auto; [lia|]. cbn [spared taken]. rewrite Ef. destruct (chosen f h x).
          - destruct l as [|y l]; [auto|]. cbn [length] in Hl. destruct (IHn l) as [-> ->]; [lia|auto].
          - destruct (IHn l) as [-> ->]; [lia|auto]. }
        apply (G (length l)). lia. }
      destruct b as [|y b].
      * rewrite app_nil_r in K1. rewrite app_length in Hm; cbn [length] in Hm.
        destruct (IH [] (Nat.le_0_l _) h1 (done ++ a) (S (i + length a)) W1) as (h' & st' & L & E & K); [rewrite app_nil_r; exact K1|right; split; [reflexivity|rewrite app_length; lia]|].
        exists h', st'. cbn [taken spared] in L, K. split; [|split; [exact E|rewrite app_nil_r in *; exact K]].
        eapply lo_turn; [eapply flat_pull; eauto|exact D|exact L].
      * rewrite app_length in Hm; cbn [length] in Hm.
        destruct (IH b ltac:(lia) h1 ((done ++ a) ++ [y]) (S (i + length a)) W1) as (h' & st' & L & E & K);
          [rewrite K1, <- !app_assoc; reflexivity|left; rewrite !app_length; cbn [length]; lia|].
        destruct (Es b) as [E1 E2]. rewrite E1 in K. rewrite E2 in L. exists h', st'. split; [|split; [exact E|rewrite K, <- !app_assoc; reflexivity]].
        eapply lo_turn; [eapply flat_pull; eauto|exact D|exact L].
Qed.
Lemma drop_det r h c h1 h2 : drop_from r h c h1 -> drop_from r h c h2 -> h1 = h2.
Proof. unfold drop_from. congruence. Qed.
Lemma spared_apart {A} (sel : A -> bool) l : apart sel l -> spared sel l = filter (fun x => negb (sel x)) l /\ taken sel l = filter sel l.
Proof.
  assert (G : forall n l, length l <= n -> apart sel l -> spared sel l = filter (fun x => negb (sel x)) l /\ taken sel l = filter sel l).
  { induction n as [|n IH]; intros [|x l'] Hl Ha; cbn [length] in Hl; auto; [lia|]. cbn [spared taken filter]. destruct (sel x) eqn:E; cbn [negb].
    - destruct l' as [|y l']; [auto|]. cbn [length] in Hl. assert (Ey : sel y = false) by (destruct (sel y) eqn:Ey; [exfalso; exact (Ha [] x y l' eq_refl E Ey)|reflexivity]).
      cbn [filter]. rewrite Ey. cbn [negb]. destruct (IH l') as [-> ->]; [lia| |auto]. intros a u w b -> Hu Hw. exact (Ha (x :: y :: a) u w b eq_refl Hu Hw).
    - destruct (IH l') as [-> ->]; [lia| |auto]. intros a u w b -> Hu Hw. exact (Ha (x :: a) u w b eq_refl Hu Hw). }
  apply (G (length l)). lia.
Qed.
Lemma drop_list f r l : forall h, well_linked h -> NoDup l -> (forall c, In c l -> chosen f h c = true /\ In c (kids_of h r)) ->
  exists h', drop_all r h l h' /\ kids_of h' r = filter (fun x => negb (existsb (Nat.eqb x) l)) (kids_of h r).
Proof.
  induction l as [|c l IH]; intros h W Hd Hl.
  - exists h. split; [reflexivity|]. cbn [existsb negb]. generalize (kids_of h r). intros k. induction k as [|x k IHk]; cbn [filter]; congruence.
  - destruct (Hl c (or_introl eq_refl)) as [Hc Hin]. apply in_split in Hin as (k1 & k2 & Hk). destruct (drop_step f h r k1 c k2 W Hc Hk) as (h1 & D & W1 & K1 & S1).
    inversion Hd as [|? ? Hcl Hd']; subst. destruct (IH h1 W1 Hd') as (h' & Da & K).
    { intros x Hx. destruct (Hl x (or_intror Hx)) as [Hsel Hxk]. split; [rewrite S1; exact Hsel|]. rewrite Hk in Hxk. rewrite K1. apply in_app_or in Hxk as [Hxk|[->|Hxk]]; [|contradiction|]; apply in_or_app; auto. }
    exists h'. split; [exists h1; auto|]. rewrite K, K1, Hk, !filter_app. cbn [filter existsb]. rewrite Nat.eqb_refl. cbn [orb negb].
    assert (Hnd : NoDup (k1 ++ c :: k2)).
    { rewrite <- Hk. unfold kids_of. destruct (hp h r) as [o|] eqn:Hr; [|constructor]. apply (proj1 (proj2 (proj2 W)) _ _ Hr). }
    apply NoDup_remove_2 in Hnd. f_equal; apply filter_ext_in; intros x Hx; (destruct (Nat.eqb_spec x c) as [->|_]; [exfalso; apply Hnd, in_or_app; auto|reflexivity]).
Qed.

(** ** Insertions before the current child *)
Section Again.
  Variables (f : str -> dict str -> bool) (r c : ref).
  Definition stuck (h : heap) (st : list (frame unit)) : Prop := well_linked h /\ chosen f h c = true /\
    exists i a b, st = [(r, i, tt)] /\ kids_of h r = a ++ c :: b /\ i <= length a /\ forall x, In x (skipn i a) -> chosen f h x = false.
  Lemma stuck_pull h st : stuck h st -> exists st1, pulls (flat (chosen f)) h st (Gives c st1) /\
    forall h1, text_before r h c h1 -> stuck h1 st1.
  Proof.
    intros (W & Hc & i & a & b & -> & Hk & Hi & Ha). exists [(r, S (length a), tt)]. split.
    - replace (length a) with (i + length (skipn i a)) by (rewrite skipn_length; lia). eapply flat_pull; eauto.
      unfold to_come. rewrite Hk, skipn_app. replace (i - length a) with 0 by lia. reflexivity.
    - intros h1 (s & k & a' & b' & Hk' & Hle & H). assert (Hr : exists n at_ p, hp h r = Some (OElem n at_ (a ++ c :: b) p)).
      { unfold kids_of in Hk. destruct (hp h r) as [[n at_ ks p|t p]|]; cbn [okids] in Hk; [subst; eauto|destruct a; discriminate|destruct a; discriminate]. }
      destruct Hr as (n & at_ & p & Hr). assert (Al : allocated h) by (intros j o Ho; apply (proj1 W _ _ Ho)).
      assert (Ea : a' = a).
      { rewrite Hk in Hk'. pose proof (proj1 (proj2 (proj2 W)) _ _ Hr) as Hnd. cbn [okids] in Hnd. clear - Hk' Hnd. revert a' Hk' Hnd. induction a as [|x a IH]; intros [|y a'] E Hnd; cbn [app] in E; [reflexivity| | |].
        - injection E as E1 E2. subst. inversion Hnd as [|? ? Hx _]; subst. exfalso. apply Hx, in_or_app. right; left; reflexivity.
        - injection E as E1 E2. subst. inversion Hnd as [|? ? Hx _]; subst. exfalso. apply Hx, in_or_app. right; left; reflexivity.
        - injection E as -> E. inversion Hnd; subst. f_equal. apply IH; auto. }
      subst a'. destruct (insert_text_at h r n at_ (a ++ c :: b) p (AStr s) s (Z.of_nat k) Hr Al (or_introl eq_refl)) as (h2 & E2 & A1 & A2 & A3 & A4).
      rewrite H in E2. injection E2 as <-.
      assert (Ep : position (Z.of_nat k) (length (a ++ c :: b)) = k).
      { unfold position. destruct (Z.eqb_spec (Z.of_nat k) (-1)); [lia|]. destruct (Z.ltb_spec (Z.of_nat k) 0); [lia|]. rewrite Nat2Z.id. rewrite app_length. lia. }
      rewrite Ep in A1. assert (S1 : forall x, chosen f h1 x = chosen f h x).
      { intros x. unfold chosen. destruct (Nat.eq_dec x r) as [->|Hx]; [rewrite A1, Hr; reflexivity|]. destruct (Nat.eq_dec x (nxt h)) as [->|Hxn]; [rewrite A3, A2; reflexivity|]. rewrite A4 by auto. reflexivity. }
      split; [eapply insert_text_well_linked; [exact W|left; reflexivity|exact H]|]. split; [rewrite S1; exact Hc|].
      exists (S (length a)), (firstn k a ++ nxt h :: skipn k a), b. split; [reflexivity|].
      split; [unfold kids_of; rewrite A1; cbn [okids]; rewrite firstn_app, skipn_app; replace (k - length a) with 0 by lia; cbn [firstn skipn]; rewrite app_nil_r, <- app_assoc; reflexivity|].
      split; [rewrite app_length; cbn [length]; rewrite firstn_length_le, skipn_length by exact Hle; lia|].
      intros x Hx. rewrite skipn_all2 in Hx; [destruct Hx|]. rewrite app_length; cbn [length]; rewrite firstn_length_le, skipn_length by exact Hle; lia.
  Qed.
  Lemma stuck_loop h st out h' st' : loop (flat (chosen f)) (text_before r) h st out h' st' -> stuck h st -> out = repeat c (length out) /\ stuck h' st'.
  Proof.
    induction 1 as [h st|h st x st1 h1 out h2 st2 Hp B L IH]; intros S0; [auto|]. destruct (stuck_pull _ _ S0) as (st1' & Hp' & Hn).
    pose proof (pulls_det _ _ _ _ _ Hp Hp') as E. injection E as -> ->. destruct (IH (Hn _ B)) as [E S2]. cbn [length repeat]. rewrite <- E. auto.
  Qed.
  Lemma stuck_can h s : (exists st, stuck h st) -> exists h1, text_before r h c h1 /\ xml_insert h r (AStr s) 0 = EOk h1.
  Proof.
    intros (st & W & _ & i & a & b & _ & Hk & _). unfold kids_of in Hk. destruct (hp h r) as [[n at_ ks p|t p]|] eqn:Hr; cbn [okids] in Hk; [|destruct a; discriminate|destruct a; discriminate].
    assert (Al : allocated h) by (intros j o Ho; apply (proj1 W _ _ Ho)).
    destruct (insert_text_at h r n at_ ks p (AStr s) s 0 Hr Al (or_introl eq_refl)) as (h2 & E2 & _). exists h2. split; [|exact E2].
    exists s, 0, a, b. split; [unfold kids_of; rewrite Hr; exact Hk|]. split; [lia|exact E2].
  Qed.
  Lemma stuck_run n : forall h st, stuck h st -> exists h' st', loop (flat (chosen f)) (text_before r) h st (repeat c n) h' st'.
  Proof.
    induction n as [|n IH]; intros h st S0; [exists h, st; constructor|]. destruct (stuck_pull _ _ S0) as (st1 & Hp & Hn).
    destruct (stuck_can h [] (ex_intro _ st S0)) as (h1 & B & _). destruct (IH h1 st1 (Hn _ B)) as (h' & st' & L). exists h', st'. cbn [repeat]. eapply lo_turn; eauto.
  Qed.
End Again.

(** ** Appending elements to what has just been delivered *)
Lemma deep_pull_inv h st c st1 : pulls deep h st (Gives c st1) -> elem_of h c = true /\ exists rest, st1 = (c, 0, tt) :: rest.
Proof.
  intros (n & H). revert st H. induction n as [|n IH]; intros st H; [discriminate|]. cbn [pull] in H.
  destruct st as [|[[r i] []] st]; [discriminate|]. cbn [tick] in H. destruct (nth_error (kids_of h r) i) as [x|]; [|apply (IH _ H)].
  unfold deep in H. destruct (elem_of h x) eqn:E; [|apply (IH _ H)]. injection H as <- <-. eauto.
Qed.
Lemma sees_deep_some h s cs l e c : sees deep h s cs l e -> In c cs -> elem_of h c = true -> l <> [].
Proof.
  intros H. remember deep as v eqn:Ev. revert c. induction H; subst v; intros x Hx Hel; try discriminate.
  - destruct Hx.
  - destruct Hx as [<-|Hx]; [unfold deep in H; rewrite Hel in H; discriminate|]. eapply IHsees; eauto.
  - unfold deep in H. destruct (elem_of h c); discriminate.
  - unfold deep in H. destruct (elem_of h c); discriminate.
  - unfold deep in H. destruct (elem_of h c); discriminate.
Qed.
Definition going (h : heap) (st : list (frame unit)) : Prop := well_linked h /\ exists c l e, future deep h st (c :: l) e.
Lemma grow_step n h c : well_linked h -> elem_of h c = true -> exists h', grow n h c h' /\ well_linked h' /\ In (nxt h) (kids_of h' c) /\ elem_of h' (nxt h) = true.
Proof.
  intros W Hc. unfold elem_of in Hc. destruct (hp h c) as [[nc ac kc pc|]|] eqn:Ec; try discriminate. pose proof (proj1 W _ _ Ec) as Hlt.
  set (h0 := fst (alloc h (OElem n [] [] None))). assert (W0 : well_linked h0) by (apply alloc_well_linked; auto).
  assert (E0 : hp h0 c = Some (OElem nc ac kc pc)) by (unfold h0; rewrite hp_alloc_other by lia; exact Ec).
  assert (En : hp h0 (nxt h) = Some (OElem n [] [] None)) by (unfold h0; rewrite hp_alloc, Nat.eqb_refl; reflexivity).
  assert (Ie : is_elem h0 (nxt h)) by (do 4 eexists; exact En).
  destruct (insert_elem_at h0 c nc ac kc pc (nxt h) (-1) E0 Ie ltac:(lia)) as (h' & H & A1 & A2 & A3). exists h'. split; [exact H|]. split.
  - eapply insert_elem_well_linked with (h := h0); [exact W0|exact Ie|exists (OElem n [] [] None); auto| |exact H]. intros B.
    assert (G : forall p q, below h0 p q -> p = nxt h -> q = nxt h).
    { intros p q Hq. induction Hq as [|p j q _ IH Hch]; [auto|]. intros Hp. destruct Hch as (o & Ho & Hi). rewrite (IH Hp), En in Ho. injection Ho as <-. destruct Hi. }
    apply G in B; [lia|reflexivity].
  - split; [unfold kids_of; rewrite A1; cbn [okids]; apply in_or_app; right; left; reflexivity|]. unfold elem_of. rewrite (A2 _ En). reflexivity.
Qed.
Lemma grow_det n h c h1 h2 : grow n h c h1 -> grow n h c h2 -> h1 = h2.
Proof. unfold grow. congruence. Qed.
Lemma going_next n h st : going h st -> exists c st1 h1, pulls deep h st (Gives c st1) /\ grow n h c h1 /\ going h1 st1.
Proof.
  intros (W & c & l & e & F). destruct (next_answers _ _ _ _ _ F) as (st1 & Hp & F1). destruct (deep_pull_inv _ _ _ _ Hp) as (Hel & rest & ->).
  destruct (grow_step n h c W Hel) as (h1 & G & W1 & Hin & Hn). exists c, ((c, 0, tt) :: rest), h1. split; [exact Hp|]. split; [exact G|]. split; [exact W1|].
  destruct (future_total deep h1 ((c, 0, tt) :: rest) W1) as ([|x l'] & e' & F2); [|eauto]. exfalso. inversion F2 as [|? ? ? ? l1 l2 ? Hs _ E1 E2|? ? ? ? ? Hs]; subst.
  - destruct l1; [|discriminate]. eapply sees_deep_some; eauto.
  - eapply sees_deep_some; eauto.
Qed.
Lemma going_loop n h st out h' st' : loop deep (grow n) h st out h' st' -> going h st -> going h' st'.
Proof.
  induction 1 as [h st|h st x st1 h1 out h2 st2 Hp B L IH]; intros G; [exact G|]. destruct (going_next n _ _ G) as (c & st1' & h1' & Hp' & B' & G').
  pose proof (pulls_det _ _ _ _ _ Hp Hp') as E. injection E as -> ->. rewrite (grow_det _ _ _ _ _ B B') in *. auto.
Qed.
Lemma going_run n k : forall h st, going h st -> exists out h' st', length out = k /\ loop deep (grow n) h st out h' st'.
Proof.
  induction k as [|k IH]; intros h st G; [exists [], h, st; split; [reflexivity|constructor]|]. destruct (going_next n _ _ G) as (c & st1 & h1 & Hp & B & G1).
  destruct (IH h1 st1 G1) as (out & h' & st' & El & L). exists (c :: out), h', st'. split; [cbn [length]; congruence|]. eapply lo_turn; eauto.
Qed.
