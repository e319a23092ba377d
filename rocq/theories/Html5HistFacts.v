(** Proofs about histories of html5lib's calls. *)
From Verif Require Import PyStr Parser XTree Heap HeapSpec HeapFacts Builder BuilderFacts Html5 Html5Spec Html5Facts Html5Hist Html5HistSpec.

Definition kid_of (h : heap) (a b : ref) : Prop := child h b a.
Definition finite (h : heap) (i : ref) : Prop := Acc (kid_of h) i.
Definition half (h : heap) : Prop := forall p i, child h p i -> parent_is h i (Some p).

Lemma child_of h p o i : hp h p = Some o -> In i (okids o) -> child h p i.
Proof. intros H I. exists o. auto. Qed.
Lemma holds_finite h : (forall p i t ids, holds h p i t ids -> finite h i) /\ (forall q is ts ids, holds_all h q is ts ids -> Forall (finite h) is).
Proof.
  apply holds_both.
  - intros p i n a is ks idss Hi _ IH. constructor. intros k (o & Ho & Hk). rewrite Hi in Ho. injection Ho as <-. cbn in Hk.
    rewrite Forall_forall in IH. exact (IH k Hk).
  - intros p i s Hi. constructor. intros k (o & Ho & Hk). rewrite Hi in Ho. injection Ho as <-. destruct Hk.
  - constructor.
  - constructor; auto.
Qed.
Lemma finite_holds h : half h -> forall i, finite h i -> forall o, hp h i = Some o -> exists t ids, holds h (oparent o) i t ids.
Proof.
  intros Hh i F. induction F as [i _ IH]. intros o Ho.
  assert (B : forall l, (forall k, In k l -> In k (okids o)) -> exists ts ids, holds_all h i l ts ids).
  { intros l. induction l as [|k l IHl]; intros Hl; [do 2 eexists; constructor|].
    destruct IHl as (ts & ids & Ha); [intros; apply Hl; right; auto|].
    assert (C : child h i k) by (apply (child_of h i o); auto; apply Hl; left; auto).
    destruct (Hh _ _ C) as (ok & Hok & Hp). destruct (IH k C ok Hok) as (t & idk & Hk). rewrite Hp in Hk.
    do 2 eexists. constructor; eauto. }
  destruct (B (okids o)) as (ts & ids & Ha); [auto|]. destruct o as [n a ks p|s p]; cbn [okids oparent] in *.
  - do 2 eexists. econstructor; eauto.
  - do 2 eexists. constructor; eauto.
Qed.

(** Different nodes: as in [holds_nodup], but with one direction of the links only. *)
Lemma half_comparable h j : half h -> forall a b, below h a j -> below h b j -> below h a b \/ below h b a.
Proof.
  intros Hl a b Ha. revert b. induction Ha as [a|a x j Ha IH Hc]; intros b Hb; [auto|].
  inversion Hb as [|b' y j' Hb' Hc']; subst; [left; eapply be_kid; eauto|].
  apply Hl in Hc. apply Hl in Hc'. destruct Hc as (o & Ho & Hp), Hc' as (o' & Ho' & Hp'). rewrite Ho in Ho'. injection Ho' as <-.
  assert (y = x) by congruence. subst y. auto.
Qed.
Lemma half_strict h q k : half h -> child h q k -> forall a, below h a k -> a = k \/ below h a q.
Proof.
  intros Hl C a Ha. apply Hl in C as (o & Ho & Hp). inversion Ha as [|a' y j' Hb' Hc']; subst; [auto|]. right.
  apply Hl in Hc'. destruct Hc' as (o' & Ho' & Hp'). assert (y = q) by congruence. subst; auto.
Qed.
Lemma half_nodup h : half h -> no_twice h ->
  (forall p i t ids, holds h p i t ids -> NoDup ids) /\
  (forall q is ts ids, holds_all h q is ts ids -> NoDup is -> (forall k, In k is -> child h q k /\ ~ below h k q) -> NoDup ids).
Proof.
  intros Hl Ht. apply holds_both.
  - intros p i n a is ks idss Hi Ha IH.
    assert (Hc : forall k, In k is -> child h i k) by (intros k Hk; eexists; split; [exact Hi|exact Hk]).
    assert (Hh : holds h p i (XE n a ks) (i :: idss)) by (econstructor; eauto).
    constructor.
    + intros Hin. destruct (proj2 (holds_below h) _ _ _ _ Ha i Hin) as (k & Hk & Hb). eapply no_cycle; eauto.
    + apply IH; [apply (Ht _ _ Hi)|]. intros k Hk. split; [auto|]. eapply no_cycle; eauto.
  - intros p i s Hi. constructor; [intros []|constructor].
  - intros; constructor.
  - intros q i is t ts ids idss Hh IH1 Ha IH2 Hn Hk. inversion Hn as [|x l Hx Hn']; subst. apply NoDup_app_disjoint.
    + exact IH1.
    + apply IH2; auto. intros k Hin. apply Hk. right; auto.
    + intros j Hj1 Hj2. pose proof (proj1 (holds_below h) _ _ _ _ Hh j Hj1) as B1.
      destruct (proj2 (holds_below h) _ _ _ _ Ha j Hj2) as (k & Hin & B2).
      assert (Hik : i <> k) by (intros ->; auto).
      destruct (Hk i (or_introl eq_refl)) as [P1 N1]. destruct (Hk k (or_intror Hin)) as [P2 N2].
      destruct (half_comparable h j Hl i k B1 B2) as [B|B].
      * destruct (half_strict h q k Hl P2 i B); auto.
      * destruct (half_strict h q i Hl P1 k B); auto.
Qed.
Lemma forest_intro h : allocated h -> half h -> no_twice h -> (forall i o, hp h i = Some o -> finite h i) -> forest h.
Proof.
  intros H1 H2 H3 H4. split; [exact H1|]. split; [exact H2|]. split; [exact H3|]. intros i o Hi.
  destruct (finite_holds h H2 i (H4 i o Hi) o Hi) as (t & ids & Hh). exists t, ids. split; [exact Hh|]. eapply (proj1 (half_nodup h H2 H3)); eauto.
Qed.
Lemma forest_finite h i : forest h -> finite h i.
Proof.
  intros (_ & _ & _ & Hall). destruct (hp h i) as [o|] eqn:E.
  - destruct (Hall _ _ E) as (t & ids & Hh & _). eapply (proj1 (holds_finite h)); eauto.
  - constructor. intros k (o & Ho & _). congruence.
Qed.
Lemma below_down h k y i : below h k y -> child h y i -> exists z, child h k z /\ below h z i.
Proof.
  intros B. revert i. induction B as [k|k y w B IH C0]; intros i C.
  - exists i. split; [exact C|constructor].
  - destruct (IH _ C0) as (z & Cz & Bz). exists z. split; [exact Cz|]. eapply be_kid; eauto.
Qed.
Lemma finite_irrefl h i : finite h i -> forall k, child h i k -> ~ below h k i.
Proof.
  intros F. induction F as [i _ IH]. intros k C B. inversion B as [|a y j B' C']; subst.
  - exact (IH i C i C B).
  - assert (exists z, child h k z /\ below h z i) as (z & Cz & Bz) by (apply (below_down h k y i B' C')).
    apply (IH k C z Cz). eapply be_kid; [exact Bz|exact C].
Qed.
Lemma finite_less h h' : (forall p i, child h' p i -> child h p i) -> forall i, finite h i -> finite h' i.
Proof. intros H i F. induction F as [i _ IH]. constructor. intros k C. apply IH, H, C. Qed.
Lemma finite_same h h' i : finite h i -> (forall x, below h i x -> forall k, child h' x k -> child h x k) -> finite h' i.
Proof.
  intros F. induction F as [i _ IH]. intros H. constructor. intros k C. pose proof (H i (be_refl h i) k C) as C0. apply (IH k C0).
  intros x B. apply H. eapply below_child; eauto.
Qed.
Lemma finite_graft h h' : (forall i, finite h i) -> (forall p i, child h' p i -> child h p i \/ finite h' i) -> forall i, finite h' i.
Proof.
  intros F H i. induction (F i) as [i _ IH]. constructor. intros k C. destruct (H i k C) as [C0|Fk]; [apply IH, C0|exact Fk].
Qed.

(** ** One change: [self] gets the children [js] from elsewhere *)
Lemma change h h' self js : forest h -> allocated h' -> no_twice h' ->
  (forall q x, child h' q x -> (child h q x /\ ~ In x js) \/ (q = self /\ In x js)) ->
  (forall x, In x js -> parent_is h' x (Some self) /\ ~ below h x self) ->
  (forall q x o, child h' q x -> ~ In x js -> hp h x = Some o -> parent_is h' x (oparent o)) -> forest h'.
Proof.
  intros F A N C J K. apply forest_intro; [exact A| |exact N|].
  - intros q x Hc. destruct (C q x Hc) as [(Hc0 & Hn)|(-> & Hj)]; [|apply (J x Hj)].
    destruct F as (_ & Hl & _). destruct (Hl _ _ Hc0) as (o & Ho & Hp). rewrite <- Hp. eauto.
  - intros i _ _. apply (finite_graft h h'); [intros; apply forest_finite, F|]. intros p x Hc. destruct (C p x Hc) as [(Hc0 & _)|(-> & Hj)]; [left; exact Hc0|right].
    apply (finite_same h h'); [apply forest_finite, F|]. intros y B k Hk. destruct (C y k Hk) as [(Hk0 & _)|(-> & _)]; [exact Hk0|]. destruct (J x Hj) as (_ & Hb). contradiction.
Qed.
Lemma insert_allocated h self c index h' : allocated h -> xml_insert h self c index = EOk h' -> allocated h'.
Proof.
  intros A H. unfold xml_insert in H.
  assert (P : forall h1 i h2, allocated h1 -> place_kid h1 self index i = EOk h2 -> allocated h2).
  { intros h1 i h2 A1 E. unfold place_kid in E. destruct (hp h1 self) as [[n a ks p|s p]|] eqn:Es; try discriminate. injection E as <-.
    intros j o Ho. rewrite hp_upd in Ho. cbn [upd nxt]. destruct (Nat.eqb_spec j self) as [->|_]; [apply (A1 _ _ Es)|apply (A1 _ _ Ho)]. }
  assert (L : forall o, allocated (fst (alloc h o))).
  { intros o j x Hx. rewrite hp_alloc in Hx. cbn [alloc fst nxt]. destruct (Nat.eqb_spec j (nxt h)) as [->|_]; [lia|]. apply A in Hx. lia. }
  destruct (hp h self) as [[n a ks p|s p]|] eqn:Es; try discriminate. destruct c as [i|s].
  - destruct (hp h i) as [[n1 a1 ks1 p1|s1 p1]|] eqn:Ei; try discriminate.
    + eapply P; [|exact H]. intros j o Ho. rewrite hp_upd in Ho. cbn [upd nxt]. destruct (Nat.eqb_spec j i) as [->|_]; [apply (A _ _ Ei)|apply (A _ _ Ho)].
    + eapply (P (fst (alloc h (OText s1 (Some self))))); [apply L|exact H].
  - eapply (P (fst (alloc h (OText s (Some self))))); [apply L|exact H].
Qed.
Lemma append_all_allocated l : forall h self h', allocated h -> append_all h self l = EOk h' -> allocated h'.
Proof.
  induction l as [|x l IH]; intros h self h' A H; cbn [append_all] in H; [injection H as <-; exact A|].
  destruct (xml_append h self (insert_arg x)) as [h1|h1 e] eqn:E; [|discriminate]. eapply IH; [|exact H]. eapply insert_allocated; eauto.
Qed.

Lemma below_dead h j y : below h j y -> hp h j = None -> y = j.
Proof. intros B E. induction B as [j|j y z B IH C]; [reflexivity|]. rewrite (IH E) in C. destruct C as (o & Ho & _). congruence. Qed.
(** Where an argument came from: not a child of anybody, and not above [self]. *)
Lemma placed_loose h h' self n a ks p x j : forest h -> hp h self = Some (OElem n a ks p) -> fits h self x -> placed h h' self x j -> j <> self ->
  (forall q, ~ child h q j) /\ ~ below h j self /\ exists oj, hp h' j = Some oj /\ oparent oj = Some self /\ NoDup (okids oj) /\ forall k, In k (okids oj) -> child h j k.
Proof.
  intros (A & Hl & Ht & _) Hs Fx P Nj.
  assert (Fresh : forall s, hp h j = None -> hp h' j = Some (OText s (Some self)) -> (forall q, ~ child h q j) /\ ~ below h j self /\
    exists oj, hp h' j = Some oj /\ oparent oj = Some self /\ NoDup (okids oj) /\ forall k, In k (okids oj) -> child h j k).
  { intros s E E'. split; [intros q C; apply Hl in C as (o & Ho & _); congruence|]. split.
    - intros B. apply Nj. symmetry. exact (below_dead h j self B E).
    - exists (OText s (Some self)). split; [exact E'|]. split; [reflexivity|]. split; [constructor|intros k []]. }
  inversion P as [i n1 a1 k1 p1 E E'|i s p1 j1 E E1 E'|s j1 E E'|d j1 E E']; subst; try (eapply Fresh; eauto; fail).
  destruct Fx as (H1 & H2); [do 4 eexists; exact E|]. split; [exact H1|]. split; [exact H2|]. eexists. split; [exact E'|]. split; [reflexivity|]. cbn [okids].
  split; [apply (Ht _ _ E)|]. intros k Hk. eexists. split; [exact E|exact Hk].
Qed.
Lemma insert_forest h self x index h' : forest h -> fits h self x -> xml_insert h self (insert_arg x) index = EOk h' -> forest h'.
Proof.
  intros F Fx H. pose proof F as (A & Hl & Ht & _).
  assert (Hs : exists n a ks p, hp h self = Some (OElem n a ks p)).
  { unfold xml_insert in H. destruct (hp h self) as [[n a ks p|s p]|]; try discriminate. eauto. }
  destruct Hs as (n & a & ks & p & Hs).
  assert (U : usable h self x).
  { destruct x as [i|s|d]; cbn [usable]; auto. cbn [insert_arg] in H. destruct (hp h i) as [o|] eqn:Ei; [|unfold xml_insert in H; rewrite Hs, Ei in H; discriminate].
    split; [|eauto]. intros ->. destruct Fx as (_ & B); [do 4 eexists; exact Hs|]. apply B. constructor. }
  destruct (placed_insert h self n a ks p x index Hs A U) as (h2 & j & H1 & P & Hself & Hoth & _ & _ & _ & Nj & A').
  rewrite H in H1. injection H1 as <-.
  destruct (placed_loose h h' self n a ks p x j F Hs Fx P Nj) as (L1 & L2 & oj & Ej & Pj & Nd & Kj).
  set (m := position index (length ks)) in *.
  assert (Hks : ~ In j ks) by (intros I; apply (L1 self); eexists; split; [exact Hs|exact I]).
  apply (change h h' self [j] F A').
  - intros y o Ho. destruct (Nat.eq_dec y self) as [->|Ny].
    + rewrite Hself in Ho. injection Ho as <-. cbn [okids]. apply (NoDup_Add (Add_app j (firstn m ks) (skipn m ks))). rewrite firstn_skipn. split; [apply (Ht _ _ Hs)|exact Hks].
    + destruct (Nat.eq_dec y j) as [->|Nyj]; [congruence|]. rewrite Hoth in Ho by auto. apply (Ht _ _ Ho).
  - intros q y (o & Ho & Hy). destruct (Nat.eq_dec q self) as [->|Nq].
    + rewrite Hself in Ho. injection Ho as <-. cbn [okids] in Hy. apply in_app_or in Hy. cbn [In] in Hy.
      destruct (Nat.eq_dec y j) as [->|Ny]; [right; split; [reflexivity|left; reflexivity]|]. left. split; [|intros [E|[]]; auto].
      eexists. split; [exact Hs|]. cbn [okids]. rewrite <- (firstn_skipn m ks). apply in_or_app. destruct Hy as [Hy|[Hy|Hy]]; auto. congruence.
    + left. destruct (Nat.eq_dec q j) as [->|Nqj].
      * assert (C : child h j y) by (apply Kj; congruence). split; [exact C|]. intros [E|[]]. subst y. exact (L1 _ C).
      * rewrite Hoth in Ho by auto. assert (C : child h q y) by (exists o; auto). split; [exact C|]. intros [E|[]]. subst y. exact (L1 _ C).
  - intros y [<-|[]]. split; [exists oj; auto|exact L2].
  - intros q y o C Ny Hy. destruct (Nat.eq_dec y self) as [->|Nys].
    + rewrite Hs in Hy. injection Hy as <-. eexists. split; [exact Hself|reflexivity].
    + exists o. split; [|reflexivity]. rewrite Hoth; auto. intros ->. apply Ny. left; reflexivity.
Qed.

(** Lists of children that only shrink *)
Lemma shrink_forest h h' : forest h -> allocated h' ->
  (forall x o', hp h' x = Some o' -> exists o, hp h x = Some o /\ oparent o' = oparent o /\ NoDup (okids o') /\ forall k, In k (okids o') -> In k (okids o)) ->
  (forall q x, child h' q x -> exists o, hp h' x = Some o) -> forest h'.
Proof.
  intros F A H L. apply (change h h' 0 []); auto.
  - intros x o Ho. destruct (H x o Ho) as (_ & _ & _ & N & _). exact N.
  - intros q x (o & Ho & Hx). destruct (H q o Ho) as (o0 & E & _ & _ & K). left. split; [exists o0; auto|intros []].
  - intros x [].
  - intros q x o C _ Ho. destruct (L q x C) as (o' & Ho'). destruct (H x o' Ho') as (o0 & E & P & _). exists o'. split; [exact Ho'|]. congruence.
Qed.
Lemma remove_first_sub {A} (f : A -> bool) l : (forall x, In x (remove_first f l) -> In x l) /\ (NoDup l -> NoDup (remove_first f l)).
Proof.
  induction l as [|y l (IH1 & IH2)]; [split; auto|]. cbn [remove_first]. destruct (f y).
  - split; [intros x Hx; right; exact Hx|intros N; inversion N; auto].
  - split; [intros x [Hx|Hx]; [left; auto|right; auto]|]. intros N. inversion N as [|z l0 Hz N']; subst. constructor; auto.
Qed.
Lemma relist_forest h self n a ks ks' a' p : forest h -> hp h self = Some (OElem n a ks p) -> NoDup ks' -> (forall k, In k ks' -> In k ks) -> forest (upd h self (OElem n a' ks' p)).
Proof.
  intros F Hs N K. pose proof F as (A & Hl & Ht & _). apply (shrink_forest h); [exact F| | |].
  - intros j o Ho. rewrite hp_upd in Ho. cbn [upd nxt]. destruct (Nat.eqb_spec j self) as [->|_]; [apply (A _ _ Hs)|apply (A _ _ Ho)].
  - intros x o' Ho. rewrite hp_upd in Ho. destruct (Nat.eqb_spec x self) as [->|_].
    + injection Ho as <-. eexists. split; [exact Hs|]. split; [reflexivity|]. split; [exact N|exact K].
    + exists o'. split; [exact Ho|]. split; [reflexivity|]. split; [apply (Ht _ _ Ho)|auto].
  - intros q x (o & Ho & Hx). rewrite hp_upd. destruct (Nat.eqb x self); [eauto|].
    assert (C : child h q x).
    { rewrite hp_upd in Ho. destruct (Nat.eqb_spec q self) as [->|_]; [injection Ho as <-; eexists; split; [exact Hs|apply K, Hx]|exists o; auto]. }
    apply Hl in C as (ox & Hox & _). eauto.
Qed.
Lemma remove_forest h self x h' : forest h -> h_removeChild h self x = EOk h' -> forest h'.
Proof.
  intros F H. unfold h_removeChild in H. destruct (hp h self) as [[n a ks p|s p]|] eqn:Hs; try discriminate.
  destruct (existsb (harg_eqb h x) ks); [|discriminate]. injection H as <-. pose proof F as (_ & _ & Ht & _).
  destruct (remove_first_sub (harg_eqb h x) ks) as (R1 & R2). apply (relist_forest h self n a ks); auto. apply R2, (Ht _ _ Hs).
Qed.
Lemma alloc_forest h o : forest h -> okids o = [] -> forest (fst (alloc h o)).
Proof.
  intros F Ko. pose proof F as (A & Hl & Ht & _).
  assert (Hf : hp h (nxt h) = None) by (destruct (hp h (nxt h)) eqn:E; auto; apply A in E; lia).
  apply (change h _ 0 []); [exact F| | | |intros x []|].
  - intros j x Hx. rewrite hp_alloc in Hx. cbn [alloc fst nxt]. destruct (Nat.eqb_spec j (nxt h)) as [->|_]; [lia|]. apply A in Hx. lia.
  - intros j x Hx. rewrite hp_alloc in Hx. destruct (Nat.eqb_spec j (nxt h)) as [->|_]; [injection Hx as <-; rewrite Ko; constructor|apply (Ht _ _ Hx)].
  - intros q x (y & Hy & Hx). left. rewrite hp_alloc in Hy. destruct (Nat.eqb_spec q (nxt h)) as [->|_]; [injection Hy as <-; rewrite Ko in Hx; destruct Hx|]. split; [exists y; auto|intros []].
  - intros q x y C _ Hy. exists y. split; [|reflexivity]. rewrite hp_alloc_other; [exact Hy|]. intros ->. congruence.
Qed.
Lemma reparent_forest h self q h' : forest h -> ~ below h self q -> h_reparentChildren h self q = EOk h' -> forest h'.
Proof.
  intros F Nb H. pose proof F as (A & Hl & Ht & _). unfold h_reparentChildren in H.
  destruct (hp h self) as [[n a ks p|s p]|] eqn:Hs; try discriminate.
  destruct (append_all h q (map HRef ks)) as [h1|h1 e] eqn:E1; [|discriminate].
  assert (Nq : q <> self) by (intros ->; apply Nb; constructor).
  assert (Kc : forall k, In k ks -> child h self k) by (intros k Hk; eexists; split; [exact Hs|exact Hk]).
  destruct ks as [|k0 ks0] eqn:Ek.
  { cbn [map append_all] in E1. injection E1 as <-. unfold h_set_childNodes in H. rewrite Hs in H. cbn [append_all] in H. injection H as <-.
    apply (relist_forest h self n a []); auto. constructor. }
  rewrite <- Ek in *. assert (Hq : exists nq aq kq pq, hp h q = Some (OElem nq aq kq pq)).
  { rewrite Ek in E1. cbn [map append_all insert_arg] in E1. unfold xml_append, xml_insert in E1. destruct (hp h q) as [[nq aq kq pq|sq pq]|]; try discriminate. eauto. }
  clear Ek k0 ks0. destruct Hq as (nq & aq & kq & pq & Hq).
  assert (U : Forall (usable h q) (map HRef ks)).
  { apply Forall_forall. intros x Hx. apply in_map_iff in Hx as (k & <- & Hk). cbn [usable]. split.
    - intros ->. apply Nb. eapply be_kid; [constructor|apply Kc, Hk].
    - destruct (Hl _ _ (Kc k Hk)) as (o & Ho & _). eauto. }
  destruct (append_all_placed (map HRef ks) h q nq aq kq pq Hq A U) as (h2 & js & J1 & J2 & J3 & J4 & J5 & J6 & J7).
  rewrite E1 in J1. injection J1 as <-. pose proof (append_all_allocated _ _ _ _ A E1) as A1.
  assert (PJ : forall x, In x js -> (exists s, hp h x = None /\ hp h1 x = Some (OText s (Some q))) \/
    (In x ks /\ exists nx ax kx px, hp h x = Some (OElem nx ax kx px) /\ hp h1 x = Some (OElem nx ax kx (Some q)))).
  { intros x Hx. destruct (Forall2_in_r _ _ _ J2 x Hx) as (y & Hy & P). apply in_map_iff in Hy as (k & <- & Hk).
    inversion P as [i n1 a1 k1 p1 P1 P2|i s1 p1 j1 P1 P2 P3| |]; subst; [right; split; [exact Hk|eauto 8]|left; eauto]. }
  assert (Dj : forall r x, child h r x -> In x js -> r = self).
  { intros r x C Hx. destruct (Hl _ _ C) as (o & Ho & Hp). destruct (PJ x Hx) as [(s & E & _)|(Hk & _)]; [congruence|].
    destruct (Hl _ _ (Kc x Hk)) as (o' & Ho' & Hp'). congruence. }
  assert (Sj : ~ In self js).
  { intros Hx. destruct (PJ self Hx) as [(s & E & _)|(Hk & _)]; [congruence|]. apply (finite_irrefl h self (forest_finite h self F) self (Kc _ Hk)). constructor. }
  assert (Hs1 : hp h1 self = Some (OElem n a ks p)) by (rewrite J6; auto).
  unfold h_set_childNodes in H. rewrite Hs1 in H. cbn [append_all] in H. injection H as <-.
  set (h' := upd h1 self (OElem n a [] p)).
  assert (Oth : forall x, x <> self -> hp h' x = hp h1 x) by (intros x Nx; apply hp_upd_other; exact Nx).
  assert (Slf : hp h' self = Some (OElem n a [] p)) by apply hp_upd_same.
  assert (Ndj : NoDup js).
  { assert (Nk : NoDup ks) by (apply (Ht _ _ Hs)). clear - J2 J4 Nk. remember (map HRef ks) as l eqn:El. revert ks El Nk.
    induction J2 as [|y z l js P J2 IH]; intros ks El Nk; [constructor|]. destruct ks as [|k ks]; [discriminate|]. cbn [map] in El. injection El as -> ->.
    inversion Nk as [|k' ks' Hk Nk']; subst.
    assert (J4' : NoDup (filter (fresh_in h) js)) by (cbn [filter] in J4; destruct (fresh_in h z); [inversion J4; auto|exact J4]).
    constructor; [|exact (IH J4' ks eq_refl Nk')]. intros Hz.
    destruct (hp h z) as [oz|] eqn:Ez.
    - destruct (Forall2_in_r _ _ _ J2 z Hz) as (y & Hy & P'). apply in_map_iff in Hy as (k' & <- & Hk').
      inversion P; inversion P'; subst; congruence.
    - cbn [filter] in J4. assert (Fz : fresh_in h z = true) by (unfold fresh_in; rewrite Ez; reflexivity). rewrite Fz in J4.
      inversion J4 as [|z' l' Hn _]; subst. apply Hn, filter_In. auto. }
  assert (Dq : forall x, In x kq -> ~ In x js).
  { intros x Hx Hj. apply Nq. apply (Dj q x); [|exact Hj]. eexists. split; [exact Hq|exact Hx]. }
  apply (change h h' q js F).
  - intros j o Ho. unfold h' in *. rewrite hp_upd in Ho. cbn [upd nxt]. destruct (Nat.eqb_spec j self) as [->|_]; [apply (A1 _ _ Hs1)|apply (A1 _ _ Ho)].
  - intros x o Ho. destruct (Nat.eq_dec x self) as [->|Nx]; [rewrite Slf in Ho; injection Ho as <-; constructor|]. rewrite Oth in Ho by exact Nx.
    destruct (Nat.eq_dec x q) as [->|Nxq].
    + rewrite J3 in Ho. injection Ho as <-. cbn [okids]. apply NoDup_app_disjoint; [apply (Ht _ _ Hq)|exact Ndj|exact Dq].
    + destruct (in_dec Nat.eq_dec x js) as [Hx|Hx].
      * destruct (PJ x Hx) as [(s & _ & E)|(_ & nx & ax & kx & px & E & E')]; [rewrite E in Ho; injection Ho as <-; constructor|].
        rewrite E' in Ho. injection Ho as <-. apply (Ht _ _ E).
      * rewrite J6 in Ho by auto. apply (Ht _ _ Ho).
  - intros r x (o & Ho & Hx). destruct (Nat.eq_dec r self) as [->|Nr]; [rewrite Slf in Ho; injection Ho as <-; destruct Hx|]. rewrite Oth in Ho by exact Nr.
    destruct (Nat.eq_dec r q) as [->|Nrq].
    + rewrite J3 in Ho. injection Ho as <-. cbn [okids] in Hx. apply in_app_or in Hx as [Hx|Hx]; [left|right; auto]. split; [|apply Dq, Hx]. eexists. split; [exact Hq|exact Hx].
    + left. assert (C : child h r x).
      { destruct (in_dec Nat.eq_dec r js) as [Hr|Hr].
        - destruct (PJ r Hr) as [(s & _ & E)|(_ & nx & ax & kx & px & E & E')]; [rewrite E in Ho; injection Ho as <-; destruct Hx|].
          rewrite E' in Ho. injection Ho as <-. eexists. split; [exact E|exact Hx].
        - rewrite J6 in Ho by auto. exists o. auto. }
      split; [exact C|]. intros Hj. apply Nr. exact (Dj r x C Hj).
  - intros x Hx. assert (Nx : x <> self) by (intros ->; auto). split.
    + destruct (PJ x Hx) as [(s & _ & E)|(_ & nx & ax & kx & px & E & E')]; eexists; (split; [rewrite Oth by exact Nx; eassumption|reflexivity]).
    + intros B. destruct (PJ x Hx) as [(s & E & _)|(Hk & _)].
      * pose proof (below_dead h x q B E) as ->. congruence.
      * apply Nb. eapply below_child; [apply Kc, Hk|exact B].
  - intros r x o C Nj Hx. destruct (Nat.eq_dec x self) as [->|Nx]; [rewrite Hs in Hx; injection Hx as <-; eexists; split; [exact Slf|reflexivity]|].
    destruct (Nat.eq_dec x q) as [->|Nxq].
    + rewrite Hq in Hx. injection Hx as <-. eexists. split; [rewrite Oth by exact Nx; exact J3|reflexivity].
    + exists o. split; [|reflexivity]. rewrite Oth by exact Nx. rewrite J6; auto.
Qed.
Lemma collected_forest h h' : forest h -> collected h h' -> forest h'.
Proof.
  intros F (N & K & L). pose proof F as (A & _ & Ht & _). apply (shrink_forest h); [exact F| | |exact L].
  - intros j o Ho. rewrite N. destruct (K j) as [E|E]; rewrite E in Ho; [apply (A _ _ Ho)|discriminate].
  - intros x o Ho. destruct (K x) as [E|E]; rewrite E in Ho; [|discriminate]. exists o. split; [exact Ho|]. split; [reflexivity|]. split; [apply (Ht _ _ Ho)|auto].
Qed.
(** xml_remove of the first child, whatever it is *)
Lemma lax_forest h t h' top : forest h -> parse_lax h (Some t) = LaxOk h' top ->
  forest h' /\ (exists body, child h t body /\ child h body top) /\ parent_is h' top None /\ forall p u ids, holds h p top u ids -> holds h' None top u ids.
Proof.
  intros F H. pose proof F as (A & Hl & Ht & _). unfold parse_lax in H. destruct (hp h t) as [o|] eqn:E; [|discriminate].
  destruct (nth_error (okids o) 1) as [body|] eqn:E1; [|discriminate]. destruct (hp h body) as [ob|] eqn:E2; [|discriminate].
  destruct (nth_error (okids ob) 0) as [top'|] eqn:E3; [|discriminate]. destruct (xml_remove h body (ARef top')) as [h2|h2 e] eqn:E4; [|discriminate].
  injection H as -> ->.
  assert (C : child h body top) by (exists ob; split; [exact E2|eapply nth_error_In; eauto]).
  assert (C0 : child h t body) by (exists o; split; [exact E|eapply nth_error_In; eauto]).
  assert (Nt : top <> body) by (intros ->; apply (finite_irrefl h body (forest_finite h body F) body C); constructor).
  unfold xml_remove in E4. rewrite E2 in E4. destruct ob as [n a ks p|s p]; [|discriminate]. cbn [okids] in E3. destruct ks as [|k ks]; [discriminate|]. cbn in E3. injection E3 as ->.
  destruct (existsb (fun x => node_eqb h x top) (top :: ks)); [|discriminate]. destruct (Hl _ _ C) as (otop & Et & Hp). rewrite Et in E4.
  cbv zeta in E4. rewrite hp_upd_other in E4 by auto. rewrite E2 in E4. injection E4 as <-.
  cbn [remove_first]. assert (Eq : node_eqb (upd h top (set_parent otop None)) top top = true) by (unfold node_eqb; rewrite Nat.eqb_refl; reflexivity). rewrite Eq.
  set (h' := upd (upd h top (set_parent otop None)) body (OElem n a ks p)).
  assert (B' : hp h' body = Some (OElem n a ks p)) by apply hp_upd_same.
  assert (T' : hp h' top = Some (set_parent otop None)) by (unfold h'; rewrite hp_upd_other by exact Nt; apply hp_upd_same).
  assert (O' : forall x, x <> body -> x <> top -> hp h' x = hp h x) by (intros x N1 N2; unfold h'; rewrite hp_upd_other, hp_upd_other by auto; reflexivity).
  pose proof (Ht _ _ E2) as Nd. cbn [okids] in Nd. inversion Nd as [|x l Hx Nd']; subst.
  assert (Kt : okids (set_parent otop None) = okids otop) by (destruct otop; reflexivity).
  assert (Cs : forall q x, child h' q x -> child h q x /\ x <> top).
  { intros q x (oq & Hq & Hin). destruct (Nat.eq_dec q body) as [->|Nq].
    - rewrite B' in Hq. injection Hq as <-. cbn [okids] in Hin. split; [eexists; split; [exact E2|right; exact Hin]|]. intros ->. contradiction.
    - assert (Cq : child h q x).
      { destruct (Nat.eq_dec q top) as [->|Nq2]; [rewrite T' in Hq; injection Hq as <-; rewrite Kt in Hin; exists otop; auto|]. rewrite O' in Hq by auto. exists oq. auto. }
      split; [exact Cq|]. intros ->. apply Hl in Cq as (o1 & Ho1 & Hp1). congruence. }
  split; [|split; [exists body; auto|split]].
  - apply (change h h' 0 [] F).
    + intros j x Hj. unfold h' in *. rewrite !hp_upd in Hj. cbn [upd nxt]. destruct (Nat.eqb_spec j body) as [->|_]; [apply (A _ _ E2)|]. destruct (Nat.eqb_spec j top) as [->|_]; [apply (A _ _ Et)|apply (A _ _ Hj)].
    + intros x ox Ho. destruct (Nat.eq_dec x body) as [->|N1]; [rewrite B' in Ho; injection Ho as <-; exact Nd'|].
      destruct (Nat.eq_dec x top) as [->|N2]; [rewrite T' in Ho; injection Ho as <-; rewrite Kt; apply (Ht _ _ Et)|]. rewrite O' in Ho by auto. apply (Ht _ _ Ho).
    + intros q x Cq. left. split; [apply Cs, Cq|intros []].
    + intros x [].
    + intros q x ox Cq _ Ho. destruct (Cs _ _ Cq) as (_ & Nx). destruct (Nat.eq_dec x body) as [->|N1]; [rewrite E2 in Ho; injection Ho as <-; eexists; split; [exact B'|reflexivity]|].
      exists ox. rewrite O' by auto. auto.
  - eexists. split; [exact T'|destruct otop; reflexivity].
  - intros p0 u ids Hh. pose proof (proj1 (half_nodup h Hl Ht) _ _ _ _ Hh) as Nid. inversion Hh as [p1 i1 n1 a1 is1 ks1 idss Hi Ha|p1 i1 s1 Hi]; subst.
    + rewrite Hi in Et. injection Et as <-. cbn [set_parent] in T'. econstructor; [exact T'|]. eapply (proj2 (holds_same h h')); [exact Ha|]. inversion Nid as [|x l Hn Nid']; subst. intros j Hj. apply O'.
      * intros ->. apply (finite_irrefl h body (forest_finite h body F) top C). eapply (proj1 (holds_below h)); [exact Hh|right; exact Hj].
      * intros ->. contradiction.
    + rewrite Hi in Et. injection Et as <-. cbn [set_parent] in T'. constructor. exact T'.
Qed.

Lemma hstep_forest h h' : hstep h h' -> forest h -> forest h'.
Proof.
  intros H F. destruct H as [h u name ns|h self h' j H|h self l h' H|h self x h' Fx H|h self x r h' Fx H|h self s r h' H|h self x h' H|h self q h' Nb H|h t h' top H|h h' H].
  - apply alloc_forest; [exact F|reflexivity].
  - unfold h_cloneNode in H. destruct (hp h self) as [[n a ks p|s p]|]; try discriminate. injection H as <- <-. apply (alloc_forest h (OElem n a [] None)); [exact F|reflexivity].
  - unfold h_set_attributes in H. destruct (hp h self) as [[n a ks p|s p]|] eqn:E; try discriminate. injection H as <-. apply (relist_forest h self n a ks); auto. destruct F as (_ & _ & Ht & _). apply (Ht _ _ E).
  - eapply insert_forest; eauto.
  - unfold h_insertBefore in H. destruct (hp h self) as [[n a ks p|s p]|]; try discriminate. destruct (find_index (harg_eqb h r) ks); [|discriminate]. eapply insert_forest; eauto.
  - assert (Hb : forall r, h_insertBefore h self (HStr s) r = EOk h' -> forest h').
    { intros r0 H0. unfold h_insertBefore in H0. destruct (hp h self) as [[n a ks p|s0 p]|]; try discriminate. destruct (find_index (harg_eqb h r0) ks); [|discriminate]. eapply (insert_forest h self (HStr s)); eauto. exact I. }
    unfold h_insertText in H. destruct r as [r|]; [destruct (harg_truthy h r); [eauto|]|]; (eapply (insert_forest h self (HStr s)); [exact F|exact I|exact H]).
  - eapply remove_forest; eauto.
  - eapply reparent_forest; eauto.
  - eapply lax_forest; eauto.
  - eapply collected_forest; eauto.
Qed.
Lemma hsteps_forest h h' : hsteps h h' -> forest h -> forest h'.
Proof. induction 1; intros F; [exact F|]. eauto using hstep_forest. Qed.
Lemma empty_forest : forest empty_heap.
Proof. split; [intros j o H; discriminate|]. split; [intros p i (o & Ho & _); discriminate|]. split; intros i o H; discriminate. Qed.
Lemma below_first h i y : below h i y -> y = i \/ exists k, child h i k /\ below h k y.
Proof. intros B. inversion B as [|p j i' B' C]; subst; [auto|]. right. eapply below_down; eauto. Qed.
Lemma forest_child h p i : forest h -> child h p i -> parent_is h i (Some p) /\ (forall q, child h q i -> q = p) /\ ~ below h i p.
Proof.
  intros F C. pose proof F as (_ & Hl & _). split; [apply Hl, C|]. split; [|apply (finite_irrefl h p (forest_finite h p F) i C)].
  intros q Cq. apply Hl in Cq as (o & Ho & Hp). apply Hl in C as (o' & Ho' & Hp'). congruence.
Qed.
Lemma forest_document h i : forest h -> parent_is h i None -> exists t, holds_tree h i t /\ forall t', holds_tree h i t' -> t' = t.
Proof.
  intros (_ & _ & _ & T) (o & Ho & Hp). destruct (T _ _ Ho) as (t & ids & Hh & Nd). rewrite Hp in Hh. exists t. assert (H : holds_tree h i t) by (exists ids; auto).
  split; [exact H|]. intros t' H'. eapply holds_tree_det; eauto.
Qed.
Lemma forest_lax h t h' top : forest h -> parse_lax h (Some t) = LaxOk h' top -> forest h' /\ exists u p ids, holds h p top u ids /\ holds_tree h' top u.
Proof.
  intros F H. destruct (lax_forest h t h' top F H) as (F' & (body & _ & C) & _ & K). split; [exact F'|]. pose proof F as (_ & Hl & _ & T).
  destruct (Hl _ _ C) as (o & Ho & Hp). destruct (T _ _ Ho) as (u & ids & Hh & Nd). exists u, (oparent o), ids. split; [exact Hh|]. exists ids. split; [eapply K; exact Hh|exact Nd].
Qed.
