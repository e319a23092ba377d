(** Editing trees (C28-C33). *)
From Verif Require Import PyStr Parser ParserS ParserInv XTree Heap HeapSpec.

Lemma hp_upd h i o j : hp (upd h i o) j = if Nat.eqb j i then Some o else hp h j.
Proof. reflexivity. Qed.
Lemma hp_upd_same h i o : hp (upd h i o) i = Some o.
Proof. rewrite hp_upd, Nat.eqb_refl. reflexivity. Qed.
Lemma hp_upd_other h i o j : j <> i -> hp (upd h i o) j = hp h j.
Proof. intros H. rewrite hp_upd. apply Nat.eqb_neq in H. rewrite H. reflexivity. Qed.
Lemma hp_alloc h o j : hp (fst (alloc h o)) j = if Nat.eqb j (nxt h) then Some o else hp h j.
Proof. reflexivity. Qed.
Lemma hp_alloc_other h o j : j <> nxt h -> hp (fst (alloc h o)) j = hp h j.
Proof. intros H. rewrite hp_alloc. apply Nat.eqb_neq in H. rewrite H. reflexivity. Qed.

(** ** Positions *)
Definition kids_insert (ks : list ref) (index : Z) (c : ref) : list ref :=
  if (index =? -1)%Z then ks ++ [c] else list_insert ks index c.
Lemma kids_insert_split ks index c :
  kids_insert ks index c = firstn (position index (length ks)) ks ++ c :: skipn (position index (length ks)) ks.
Proof.
  unfold kids_insert, position, list_insert. destruct (index =? -1)%Z eqn:E.
  - rewrite firstn_all, skipn_all. reflexivity.
  - destruct (index <? 0)%Z eqn:E1.
    + apply Z.ltb_lt in E1.
      assert (H : Z.max 0 (index + Z.of_nat (length ks)) =
        (if Z.of_nat (length ks) <? (if index + Z.of_nat (length ks) <? 0 then 0 else index + Z.of_nat (length ks))
         then Z.of_nat (length ks) else if index + Z.of_nat (length ks) <? 0 then 0 else index + Z.of_nat (length ks))%Z).
      { destruct (index + Z.of_nat (length ks) <? 0)%Z eqn:E2; [apply Z.ltb_lt in E2|apply Z.ltb_ge in E2];
          destruct (Z.ltb_spec (Z.of_nat (length ks)) 0); try lia; destruct (Z.ltb_spec (Z.of_nat (length ks)) (index + Z.of_nat (length ks))); lia. }
      rewrite H. reflexivity.
    + rewrite E1. apply Z.ltb_ge in E1.
      assert (H : Z.to_nat (if (Z.of_nat (length ks) <? index)%Z then Z.of_nat (length ks) else index) = Nat.min (Z.to_nat index) (length ks)).
      { destruct (Z.ltb_spec (Z.of_nat (length ks)) index); lia. }
      rewrite H. reflexivity.
Qed.

(** ** What xml_insert does *)
Lemma insert_elem_eq h self i index h' n a ks p : hp h self = Some (OElem n a ks p) -> is_elem h i ->
  xml_insert h self (ARef i) index = EOk h' ->
  nxt h' = nxt h /\
  (i <> self -> hp h' self = Some (OElem n a (kids_insert ks index i) p) /\
     (forall o, hp h i = Some o -> hp h' i = Some (set_parent o (Some self)))) /\
  (i = self -> hp h' self = Some (OElem n a (kids_insert ks index i) (Some self))) /\
  forall j, j <> self -> j <> i -> hp h' j = hp h j.
Proof.
  intros Hs (n1 & a1 & k1 & p1 & Hi) H. unfold xml_insert in H. rewrite Hs, Hi in H. unfold place_kid in H.
  destruct (Nat.eq_dec i self) as [->|Hn].
  - rewrite hp_upd_same in H. cbn [set_parent] in H. rewrite Hs in Hi. inversion Hi; subst. inversion H; subst. cbn [nxt upd].
    split; [reflexivity|]. split; [congruence|]. split; [intros _; apply hp_upd_same|]. intros j H1 _. rewrite !hp_upd_other by auto. reflexivity.
  - rewrite hp_upd_other, Hs in H by auto. inversion H; subst. split; [reflexivity|]. split; [|split; [congruence|]].
    + intros _. split; [apply hp_upd_same|]. intros o Ho. rewrite hp_upd_other by auto. rewrite hp_upd_same. rewrite Hi in Ho. inversion Ho; subst. reflexivity.
    + intros j H1 H2. rewrite !hp_upd_other by auto. reflexivity.
Qed.

Lemma insert_text_eq h self c s index h' n a ks p : hp h self = Some (OElem n a ks p) -> self < nxt h ->
  (c = AStr s \/ exists i, c = ARef i /\ is_text h i s) ->
  xml_insert h self c index = EOk h' ->
  nxt h' = S (nxt h) /\ hp h' self = Some (OElem n a (kids_insert ks index (nxt h)) p) /\
  hp h' (nxt h) = Some (OText s (Some self)) /\ forall j, j <> self -> j <> nxt h -> hp h' j = hp h j.
Proof.
  intros Hs Hl Hc H. assert (H' : place_kid (fst (alloc h (OText s (Some self)))) self index (nxt h) = EOk h').
  { unfold xml_insert in H. rewrite Hs in H. destruct Hc as [->|(i & -> & q & Hi)]; [exact H|]. rewrite Hi in H. exact H. }
  clear H. unfold place_kid in H'. rewrite hp_alloc_other in H' by lia. rewrite Hs in H'. inversion H'; subst.
  split; [reflexivity|]. split; [apply hp_upd_same|]. split.
  - rewrite hp_upd_other by lia. cbn [alloc fst hp]. rewrite Nat.eqb_refl. reflexivity.
  - intros j H1 H2. rewrite hp_upd_other by auto. apply (hp_alloc_other h). auto.
Qed.

(** ** What xml_remove does *)
Lemma remove_first_eq {A} (p q : A -> bool) l : (forall x, In x l -> p x = q x) -> remove_first p l = remove_first q l.
Proof. induction l as [|x l IH]; intros H; cbn; [reflexivity|]. rewrite (H x (or_introl eq_refl)). destruct (q x); [reflexivity|]. f_equal. apply IH. intros y Hy; apply H; right; auto. Qed.
Lemma node_eqb_elem h x i : is_elem h i -> node_eqb h x i = Nat.eqb x i.
Proof. intros (n & a & k & p & Hi). unfold node_eqb. rewrite Hi. destruct (hp h x) as [[]|]; rewrite orb_false_r; reflexivity. Qed.
Lemma existsb_eqb i l : existsb (fun x => Nat.eqb x i) l = true <-> In i l.
Proof.
  rewrite existsb_exists. split.
  - intros (x & H & E). apply Nat.eqb_eq in E. subst; auto.
  - intros H. exists i. split; auto. apply Nat.eqb_refl.
Qed.
Lemma existsb_ext {A} (p q : A -> bool) l : (forall x, p x = q x) -> existsb p l = existsb q l.
Proof. intros H. induction l as [|x l IH]; cbn; [reflexivity|]. rewrite H, IH. reflexivity. Qed.

Definition without (i : ref) (ks : list ref) : list ref := remove_first (fun x => Nat.eqb x i) ks.
Lemma without_split i ks : In i ks -> exists a b, ks = a ++ i :: b /\ without i ks = a ++ b /\ ~ In i a.
Proof.
  unfold without. induction ks as [|x ks IH]; [intros []|]. cbn. destruct (Nat.eqb x i) eqn:E.
  - apply Nat.eqb_eq in E. subst. intros _. exists [], ks. repeat split. intros [].
  - intros [->|Hi]; [rewrite Nat.eqb_refl in E; discriminate|]. destruct (IH Hi) as (a & b & -> & H & Hn). exists (x :: a), b.
    cbn. rewrite H. repeat split. apply Nat.eqb_neq in E. intros [->|Ha]; auto.
Qed.

Lemma remove_elem_cases h self i n a ks p : hp h self = Some (OElem n a ks p) -> is_elem h i -> i <> self ->
  (In i ks /\ exists h', xml_remove h self (ARef i) = EOk h' /\ nxt h' = nxt h /\
     hp h' self = Some (OElem n a (without i ks) p) /\
     (forall o, hp h i = Some o -> hp h' i = Some (set_parent o None)) /\
     forall j, j <> self -> j <> i -> hp h' j = hp h j) \/
  (~ In i ks /\ xml_remove h self (ARef i) = EExn h ValueErr_).
Proof.
  intros Hs Hi Hn. unfold xml_remove. rewrite Hs.
  rewrite (existsb_ext _ (fun x => Nat.eqb x i)) by (intros x; apply node_eqb_elem; auto).
  destruct (existsb (fun x => Nat.eqb x i) ks) eqn:E.
  - left. apply existsb_eqb in E. split; [exact E|]. pose proof Hi as (n1 & a1 & k1 & p1 & Hi').
    rewrite Hi'. rewrite hp_upd_other, Hs by auto. eexists. split; [reflexivity|]. split; [reflexivity|]. split; [|split].
    + rewrite hp_upd_same. do 2 f_equal. apply remove_first_eq. intros x _. apply node_eqb_elem.
      exists n1, a1, k1, None. rewrite hp_upd_same. reflexivity.
    + intros o Ho. rewrite hp_upd_other, hp_upd_same by auto. inversion Ho; subst. reflexivity.
    + intros j H1 H2. rewrite !hp_upd_other by auto. reflexivity.
  - right. split; [|reflexivity]. rewrite <- existsb_eqb. congruence.
Qed.

(** Errors leave everything as it was. *)
Lemma insert_error h self c index h' e : xml_insert h self c index = EExn h' e ->
  (exists n a ks p, hp h self = Some (OElem n a ks p)) -> self < nxt h -> h' = h /\ exists i, c = ARef i /\ hp h i = None.
Proof.
  intros H (n & a & ks & p & Hs) Hl. unfold xml_insert in H. rewrite Hs in H. destruct c as [i|s].
  - destruct (hp h i) as [[n1 a1 k1 p1|s1 p1]|] eqn:E.
    + unfold place_kid in H. destruct (Nat.eq_dec self i) as [->|Hn].
      * rewrite hp_upd_same in H. discriminate.
      * rewrite hp_upd_other, Hs in H by auto. discriminate.
    + cbn [alloc] in H. unfold place_kid in H. cbn [hp] in H. destruct (Nat.eqb_spec self (nxt h)); [lia|]. rewrite Hs in H. discriminate.
    + inversion H; subst. eauto.
  - cbn [alloc] in H. unfold place_kid in H. cbn [hp] in H. destruct (Nat.eqb_spec self (nxt h)); [lia|]. rewrite Hs in H. discriminate.
Qed.

(** ** Trees in heaps *)
Lemma holds_both h (P : option ref -> ref -> xtree -> list ref -> Prop) (P0 : ref -> list ref -> list xtree -> list ref -> Prop) :
  (forall p i n a is ks idss, hp h i = Some (OElem n a is p) -> holds_all h i is ks idss -> P0 i is ks idss -> P p i (XE n a ks) (i :: idss)) ->
  (forall p i s, hp h i = Some (OText s p) -> P p i (XT s) [i]) ->
  (forall q, P0 q [] [] []) ->
  (forall q i is t ts ids idss, holds h (Some q) i t ids -> P (Some q) i t ids -> holds_all h q is ts idss -> P0 q is ts idss ->
     P0 q (i :: is) (t :: ts) (ids ++ idss)) ->
  (forall p i t ids, holds h p i t ids -> P p i t ids) /\ (forall q is ts ids, holds_all h q is ts ids -> P0 q is ts ids).
Proof. intros H1 H2 H3 H4. split; [apply (holds_mut h P P0)|apply (holds_all_mut h P P0)]; auto. Qed.

Lemma holds_obj h p i t ids : holds h p i t ids -> exists o, hp h i = Some o /\ oparent o = p.
Proof. intros H. inversion H; subst; eexists; split; eauto. Qed.
Lemma holds_head h p i t ids : holds h p i t ids -> In i ids.
Proof. intros H. inversion H; subst; left; auto. Qed.
Lemma holds_live h : (forall p i t ids, holds h p i t ids -> forall j, In j ids -> exists o, hp h j = Some o) /\
  (forall q is ts ids, holds_all h q is ts ids -> forall j, In j ids -> exists o, hp h j = Some o).
Proof.
  apply holds_both.
  - intros p i n a is ks idss Hi _ IH j [<-|Hj]; eauto.
  - intros p i s Hi j [<-|[]]; eauto.
  - intros q j [].
  - intros q i is t ts ids idss _ IH1 _ IH2 j Hj. apply in_app_or in Hj as [Hj|Hj]; auto.
Qed.
Lemma holds_same h h' :
  (forall p i t ids, holds h p i t ids -> (forall j, In j ids -> hp h' j = hp h j) -> holds h' p i t ids) /\
  (forall q is ts ids, holds_all h q is ts ids -> (forall j, In j ids -> hp h' j = hp h j) -> holds_all h' q is ts ids).
Proof.
  apply holds_both.
  - intros p i n a is ks idss Hi _ IH Hs. econstructor.
    + rewrite Hs by (left; auto). exact Hi.
    + apply IH. intros j Hj. apply Hs. right; auto.
  - intros p i s Hi Hs. constructor. rewrite Hs by (left; auto). exact Hi.
  - intros; constructor.
  - intros q i is t ts ids idss _ IH1 _ IH2 Hs. constructor; [apply IH1|apply IH2]; intros j Hj; apply Hs; apply in_or_app; auto.
Qed.

Lemma below_trans h a b c : below h a b -> below h b c -> below h a c.
Proof. intros H1 H2. induction H2 as [|p j i H IH Hc]; [exact H1|]. exact (be_kid _ _ _ _ (IH H1) Hc). Qed.
Lemma below_child h a b c : child h a b -> below h b c -> below h a c.
Proof. intros H. apply below_trans. eapply be_kid; [constructor|exact H]. Qed.

Lemma holds_below h :
  (forall p i t ids, holds h p i t ids -> forall j, In j ids -> below h i j) /\
  (forall q is ts ids, holds_all h q is ts ids -> forall j, In j ids -> exists k, In k is /\ below h k j).
Proof.
  apply holds_both.
  - intros p i n a is ks idss Hi _ IH j [<-|Hj]; [constructor|]. destruct (IH j Hj) as (k & Hk & Hb).
    eapply below_child; [|exact Hb]. eexists. split; [exact Hi|exact Hk].
  - intros p i s Hi j [<-|[]]; constructor.
  - intros q j [].
  - intros q i is t ts ids idss _ IH1 _ IH2 j Hj. apply in_app_or in Hj as [Hj|Hj].
    + exists i. split; [left; auto|auto].
    + destruct (IH2 j Hj) as (k & Hk & Hb). exists k. split; [right; auto|exact Hb].
Qed.
Lemma holds_all_in h q is ts ids : holds_all h q is ts ids -> forall k, In k is ->
  exists t idk, holds h (Some q) k t idk /\ In t ts /\ incl idk ids.
Proof.
  induction 1 as [|q i is t ts ids idss Hh Ha IH]; intros k Hk; [destruct Hk|]. destruct Hk as [<-|Hk].
  - exists t, ids. split; [exact Hh|]. split; [left; auto|]. intros x Hx. apply in_or_app; auto.
  - destruct (IH k Hk) as (t' & idk & H1 & H2 & H3). exists t', idk. split; [exact H1|]. split; [right; auto|].
    intros x Hx. apply in_or_app; auto.
Qed.
Lemma below_holds h i j : below h i j -> forall p t ids, holds h p i t ids -> In j ids.
Proof.
  intros Hb. induction Hb as [i|i k j Hb IH (o & Ho & Hc)]; intros p t ids Hh; [eapply holds_head; eauto|].
  pose proof (IH _ _ _ Hh) as Hk.
  assert (G : (forall p i t ids, holds h p i t ids -> In k ids -> In j ids) /\
     (forall q is ts ids, holds_all h q is ts ids -> In k ids -> In j ids)).
  { apply holds_both.
    - intros p0 i0 n a is ks idss Hi Ha IHa [->|Hx]; [|right; auto].
      rewrite Hi in Ho. inversion Ho; subst. cbn in Hc.
      destruct (holds_all_in _ _ _ _ _ Ha j Hc) as (t' & idk & H1 & _ & H3). right. apply H3. eapply holds_head; eauto.
    - intros p0 i0 s Hi [->|[]]. rewrite Hi in Ho. inversion Ho; subst. destruct Hc.
    - intros q [].
    - intros q i0 is t0 ts ids0 idss _ IH1 _ IH2 Hx. apply in_app_or in Hx as [Hx|Hx]; apply in_or_app; auto. }
  eapply (proj1 G); eauto.
Qed.

(** The tree of a node in a tree, with its size. *)
Lemma size_in k ks : In k ks -> tree_size k <= fold_right (fun k n => tree_size k + n) 0 ks.
Proof. induction ks as [|x ks IH]; [intros []|]. cbn. intros [->|H]; [lia|]. apply IH in H. lia. Qed.
Lemma holds_sub h :
  (forall p i t ids, holds h p i t ids -> forall j, In j ids -> exists p' t' ids', holds h p' j t' ids' /\ tree_size t' <= tree_size t) /\
  (forall q is ts ids, holds_all h q is ts ids -> forall j, In j ids -> exists k t' ids', In k ts /\ (exists p', holds h p' j t' ids') /\ tree_size t' <= tree_size k).
Proof.
  apply holds_both.
  - intros p i n a is ks idss Hi Ha IH j [<-|Hj].
    + do 3 eexists. split; [econstructor; eauto|]. lia.
    + destruct (IH j Hj) as (k & t' & ids' & Hk & (p' & Hh) & Hs). exists p', t', ids'. split; [exact Hh|]. apply size_in in Hk. cbn [tree_size]. lia.
  - intros p i s Hi j [<-|[]]. do 3 eexists. split; [constructor; eauto|]. lia.
  - intros q j [].
  - intros q i is t ts ids idss _ IH1 _ IH2 j Hj. apply in_app_or in Hj as [Hj|Hj].
    + destruct (IH1 j Hj) as (p' & t' & ids' & H & Hs). exists t, t', ids'. split; [left; auto|]. eauto.
    + destruct (IH2 j Hj) as (k & t' & ids' & Hk & H). exists k, t', ids'. split; [right; auto|exact H].
Qed.

Lemma holds_det h :
  (forall p i t ids, holds h p i t ids -> forall p' t' ids', holds h p' i t' ids' -> t' = t) /\
  (forall q is ts ids, holds_all h q is ts ids -> forall q' ts' ids', holds_all h q' is ts' ids' -> ts' = ts).
Proof.
  apply holds_both.
  - intros p i n a is ks idss Hi _ IH p' t' ids' H. inversion H as [p2 i2 n2 a2 is2 ks2 idss2 Hi2 Ha2|p2 i2 s2 Hi2]; subst; rewrite Hi in Hi2; inversion Hi2; subst.
    f_equal. eapply IH; eauto.
  - intros p i s Hi p' t' ids' H. inversion H as [p2 i2 n2 a2 is2 ks2 idss2 Hi2 Ha2|p2 i2 s2 Hi2]; subst; rewrite Hi in Hi2; inversion Hi2; subst. reflexivity.
  - intros q q' ts' ids' H. inversion H; reflexivity.
  - intros q i is t ts ids idss _ IH1 _ IH2 q' ts' ids' H. inversion H; subst. f_equal; [eapply IH1|eapply IH2]; eauto.
Qed.

Lemma no_cycle h p q t ids k : holds h p q t ids -> child h q k -> ~ below h k q.
Proof.
  intros Hh (o & Ho & Hk) Hb. inversion Hh as [p0 i0 n a is ks idss Hi Ha|p0 i0 s Hi]; subst; rewrite Hi in Ho; inversion Ho; subst; [|destruct Hk].
  cbn in Hk. destruct (holds_all_in _ _ _ _ _ Ha k Hk) as (tk & idk & H1 & H2 & _).
  pose proof (below_holds _ _ _ Hb _ _ _ H1) as Hq.
  destruct (proj1 (holds_sub h) _ _ _ _ H1 q Hq) as (p' & t' & ids' & H3 & H4).
  pose proof (proj1 (holds_det h) _ _ _ _ Hh _ _ _ H3) as He. subst t'. apply size_in in H2. cbn [tree_size] in H4. lia.
Qed.

Lemma below_comparable h j : linked h -> forall a b, below h a j -> below h b j -> below h a b \/ below h b a.
Proof.
  intros Hl a b Ha. revert b. induction Ha as [a|a x j Ha IH Hc]; intros b Hb; [auto|].
  inversion Hb as [|b' y j' Hb' Hc']; subst; [left; eapply be_kid; eauto|].
  apply Hl in Hc. apply Hl in Hc'. destruct Hc as (o & Ho & Hp), Hc' as (o' & Ho' & Hp'). rewrite Ho in Ho'. inversion Ho'; subst.
  assert (y = x) by congruence. subst y. auto.
Qed.
Lemma below_strict h q k : linked h -> parent_is h k (Some q) -> forall a, below h a k -> a = k \/ below h a q.
Proof.
  intros Hl (o & Ho & Hp) a Ha. inversion Ha as [|a' y j' Hb' Hc']; subst; [auto|]. right.
  apply Hl in Hc'. destruct Hc' as (o' & Ho' & Hp'). assert (y = q) by congruence. subst; auto.
Qed.

Lemma NoDup_app_disjoint {A} (l m : list A) : NoDup l -> NoDup m -> (forall x, In x l -> ~ In x m) -> NoDup (l ++ m).
Proof.
  induction 1 as [|x l Hx Hl IH]; intros Hm Hd; [exact Hm|]. cbn. constructor.
  - rewrite in_app_iff. intros [H|H]; [auto|]. eapply Hd; [left; reflexivity|exact H].
  - apply IH; auto. intros y Hy. apply Hd. right; auto.
Qed.

Lemma holds_nodup h : linked h -> no_twice h ->
  (forall p i t ids, holds h p i t ids -> NoDup ids) /\
  (forall q is ts ids, holds_all h q is ts ids -> NoDup is -> (forall k, In k is -> parent_is h k (Some q) /\ ~ below h k q) -> NoDup ids).
Proof.
  intros Hl Ht. apply holds_both.
  - intros p i n a is ks idss Hi Ha IH.
    assert (Hc : forall k, In k is -> child h i k) by (intros k Hk; eexists; split; [exact Hi|exact Hk]).
    assert (Hh : holds h p i (XE n a ks) (i :: idss)) by (econstructor; eauto).
    constructor.
    + intros Hin. destruct (proj2 (holds_below h) _ _ _ _ Ha i Hin) as (k & Hk & Hb). eapply no_cycle; eauto.
    + apply IH; [apply (Ht _ _ Hi)|]. intros k Hk. split; [apply Hl; auto|]. eapply no_cycle; eauto.
  - intros p i s Hi. constructor; [intros []|constructor].
  - intros; constructor.
  - intros q i is t ts ids idss Hh IH1 Ha IH2 Hn Hk. inversion Hn as [|x l Hx Hn']; subst. apply NoDup_app_disjoint.
    + exact IH1.
    + apply IH2; auto. intros k Hin. apply Hk. right; auto.
    + intros j Hj1 Hj2. pose proof (proj1 (holds_below h) _ _ _ _ Hh j Hj1) as B1.
      destruct (proj2 (holds_below h) _ _ _ _ Ha j Hj2) as (k & Hin & B2).
      assert (Hik : i <> k) by (intros ->; auto).
      destruct (Hk i (or_introl eq_refl)) as [P1 N1]. destruct (Hk k (or_intror Hin)) as [P2 N2].
      destruct (below_comparable h j Hl i k B1 B2) as [B|B].
      * destruct (below_strict h q k Hl P2 i B); auto.
      * destruct (below_strict h q i Hl P1 k B); auto.
Qed.

(** ** Rebuilding trees after a change *)
Lemma rebuild h h' i :
  (forall x o, hp h x = Some o -> x <> i -> exists o', hp h' x = Some o' /\ oparent o' = oparent o /\
     forall k, In k (okids o') -> (In k (okids o) /\ k <> i) \/ exists t ids, holds h' (Some x) k t ids) ->
  (forall p x t ids, holds h p x t ids -> x <> i -> exists t' ids', holds h' p x t' ids').
Proof.
  intros Hr.
  assert (G : (forall p x t ids, holds h p x t ids -> x <> i -> exists t' ids', holds h' p x t' ids') /\
    (forall q is ts ids, holds_all h q is ts ids -> forall k, In k is -> k <> i -> exists t' ids', holds h' (Some q) k t' ids')).
  { assert (B : forall q l, (forall k, In k l -> exists t ids, holds h' (Some q) k t ids) -> exists ts ids, holds_all h' q l ts ids).
    { intros q l. induction l as [|k l IH]; intros Hk; [do 2 eexists; constructor|].
      destruct (Hk k (or_introl eq_refl)) as (t & ids & Ht). destruct IH as (ts & idss & Hts); [intros x Hx; apply Hk; right; auto|].
      do 2 eexists. constructor; eauto. }
    apply holds_both.
    - intros p x n a is ks idss Hi _ IH Hn. destruct (Hr _ _ Hi Hn) as (o' & Ho' & Hp & Hk). cbn in Hp.
      destruct o' as [n' a' is' p'|s' p']; cbn in Hp, Hk; subst p'; [|do 2 eexists; constructor; eauto].
      destruct (B x is') as (ts & ids & Hts).
      { intros k Hin. destruct (Hk k Hin) as [[H1 H2]|H]; [apply IH; auto|exact H]. }
      do 2 eexists. econstructor; eauto.
    - intros p x s Hi Hn. destruct (Hr _ _ Hi Hn) as (o' & Ho' & Hp & Hk). cbn in Hp.
      destruct o' as [n' a' is' p'|s' p']; cbn in Hp, Hk; subst p'; [|do 2 eexists; constructor; eauto].
      destruct (B x is') as (ts & ids & Hts).
      { intros k Hin. destruct (Hk k Hin) as [[[] H2]|H]; exact H. }
      do 2 eexists. econstructor; eauto.
    - intros q k [].
    - intros q x is t ts ids idss _ IH1 _ IH2 k [<-|Hin] Hn; auto. }
  exact (proj1 G).
Qed.

(** It suffices to show that trees exist. *)
Lemma well_linked_intro h : (forall i o, hp h i = Some o -> i < nxt h) -> linked h -> no_twice h ->
  (forall i o, hp h i = Some o -> exists t ids, holds h (oparent o) i t ids) -> well_linked h.
Proof.
  intros H1 H2 H3 H4. split; [exact H1|]. split; [exact H2|]. split; [exact H3|]. intros i o Hi.
  destruct (H4 i o Hi) as (t & ids & Hh). exists t, ids. split; [exact Hh|]. eapply (proj1 (holds_nodup h H2 H3)); eauto.
Qed.

Lemma NoDup_insert ks index i : NoDup ks -> ~ In i ks -> NoDup (kids_insert ks index i).
Proof.
  intros Hn Hi. rewrite kids_insert_split. set (m := position index (length ks)).
  apply (NoDup_Add (Add_app i (firstn m ks) (skipn m ks))). rewrite firstn_skipn. auto.
Qed.
Lemma In_insert ks index i k : In k (kids_insert ks index i) <-> k = i \/ In k ks.
Proof.
  rewrite kids_insert_split. set (m := position index (length ks)).
  rewrite in_app_iff. cbn. rewrite <- (firstn_skipn m ks) at 3. rewrite in_app_iff. intuition.
Qed.

(** New detached nodes. *)
Lemma alloc_well_linked h o : well_linked h -> okids o = [] -> oparent o = None -> well_linked (fst (alloc h o)).
Proof.
  intros (Hb & Hl & Ht & Hall) Hk Hp.
  assert (Hf : hp h (nxt h) = None).
  { destruct (hp h (nxt h)) eqn:E; auto. apply Hb in E. lia. }
  apply well_linked_intro.
  - intros i x. rewrite hp_alloc. cbn [alloc fst nxt]. destruct (Nat.eqb_spec i (nxt h)); [lia|]. intros H; apply Hb in H; lia.
  - intros p i. split.
    + intros (x & Hx & Hin). rewrite hp_alloc in Hx. destruct (Nat.eqb_spec p (nxt h)).
      * inversion Hx; subst. rewrite Hk in Hin. destruct Hin.
      * assert (Hc : child h p i) by (exists x; auto). apply Hl in Hc. destruct Hc as (y & Hy & Hpy). exists y. split; [|exact Hpy].
        rewrite hp_alloc_other; auto. intros ->. congruence.
    + intros (x & Hx & Hpx). rewrite hp_alloc in Hx. destruct (Nat.eqb_spec i (nxt h)).
      * inversion Hx; subst. congruence.
      * assert (Hc : parent_is h i (Some p)) by (exists x; auto). apply Hl in Hc. destruct Hc as (y & Hy & Hpy). exists y. split; [|exact Hpy].
        rewrite hp_alloc_other; auto. intros ->. congruence.
  - intros i x Hx. rewrite hp_alloc in Hx. destruct (Nat.eqb_spec i (nxt h)); [inversion Hx; subst; rewrite Hk; constructor|]. eapply Ht; eauto.
  - intros i x Hx. rewrite hp_alloc in Hx. destruct (Nat.eqb_spec i (nxt h)).
    + inversion Hx; subst. rewrite Hp. destruct x as [n a ks q|s q]; cbn in *; subst.
      * do 2 eexists. eapply hd_elem; [cbn; rewrite Nat.eqb_refl; reflexivity|constructor].
      * do 2 eexists. eapply hd_text. cbn; rewrite Nat.eqb_refl; reflexivity.
    + destruct (Hall i x Hx) as (t & ids & Hh & _). exists t, ids. eapply (proj1 (holds_same h _)); eauto.
      intros j Hj. apply hp_alloc_other. intros ->. destruct (proj1 (holds_live h) _ _ _ _ Hh _ Hj) as (y & Hy). congruence.
Qed.

Lemma insert_elem_well_linked h self i index h' : well_linked h -> is_elem h i -> parent_is h i None -> ~ below h i self ->
  xml_insert h self (ARef i) index = EOk h' -> well_linked h'.
Proof.
  intros (Hb & Hl & Ht & Hall) Hi (oi & Hoi & Hpi) Hnb H.
  assert (Hn : i <> self) by (intros ->; apply Hnb; constructor).
  assert (Hs : exists n a ks p, hp h self = Some (OElem n a ks p)).
  { unfold xml_insert in H. destruct (hp h self) as [[n a ks p|s p]|]; try discriminate. eauto. }
  destruct Hs as (n & a & ks & p & Hs).
  destruct (insert_elem_eq _ _ _ _ _ _ _ _ _ Hs Hi H) as (Hnx & H1 & _ & Hoth). destruct (H1 Hn) as [Hself Hi']. specialize (Hi' _ Hoi). clear H1.
  assert (Hnk : ~ In i ks).
  { intros Hin. assert (Hc : child h self i) by (eexists; split; [exact Hs|exact Hin]). apply Hl in Hc. destruct Hc as (o & Ho & Hp). congruence. }
  assert (Hkids : okids (set_parent oi (Some self)) = okids oi) by (destruct oi; reflexivity).
  assert (Hpar : oparent (set_parent oi (Some self)) = Some self) by (destruct oi; reflexivity).
  assert (Hnch : forall q, ~ child h q i).
  { intros q Hc. apply Hl in Hc. destruct Hc as (o & Ho & Hp). congruence. }
  apply well_linked_intro.
  - intros x o Hx. rewrite Hnx. destruct (Nat.eq_dec x self) as [->|N1]; [eapply Hb; eauto|].
    destruct (Nat.eq_dec x i) as [->|N2]; [eapply Hb; eauto|]. rewrite Hoth in Hx by auto. eapply Hb; eauto.
  - intros q x. split.
    + intros (o & Ho & Hin). destruct (Nat.eq_dec q self) as [->|N1].
      * rewrite Hself in Ho. inversion Ho; subst. cbn in Hin. apply In_insert in Hin as [->|Hin].
        -- eexists. split; [exact Hi'|exact Hpar].
        -- assert (Hc : child h self x) by (eexists; split; [exact Hs|exact Hin]).
           destruct (Nat.eq_dec x i) as [->|N2]; [contradiction|]. apply Hl in Hc. destruct Hc as (ox & Hox & Hpx).
           destruct (Nat.eq_dec x self) as [->|N3].
           ++ eexists. split; [exact Hself|]. cbn. rewrite Hs in Hox. inversion Hox; subst. exact Hpx.
           ++ exists ox. rewrite Hoth by auto. auto.
      * assert (Hc : child h q x).
        { destruct (Nat.eq_dec q i) as [->|N2].
          - rewrite Hi' in Ho. inversion Ho; subst. rewrite Hkids in Hin. exists oi. auto.
          - rewrite Hoth in Ho by auto. exists o; auto. }
        destruct (Nat.eq_dec x i) as [->|N2]; [exfalso; eapply Hnch; eauto|]. apply Hl in Hc. destruct Hc as (ox & Hox & Hpx).
        destruct (Nat.eq_dec x self) as [->|N3].
        -- eexists. split; [exact Hself|]. cbn. rewrite Hs in Hox. inversion Hox; subst. exact Hpx.
        -- exists ox. rewrite Hoth by auto. auto.
    + intros (o & Ho & Hp). destruct (Nat.eq_dec x i) as [->|N2].
      * rewrite Hi' in Ho. inversion Ho; subst. rewrite Hpar in Hp. inversion Hp; subst. eexists. split; [exact Hself|]. cbn. apply In_insert. auto.
      * assert (Hc : child h q x).
        { apply Hl. destruct (Nat.eq_dec x self) as [->|N3].
          - rewrite Hself in Ho. inversion Ho; subst. eexists. split; [exact Hs|]. exact Hp.
          - rewrite Hoth in Ho by auto. exists o; auto. }
        destruct Hc as (oq & Hoq & Hin). destruct (Nat.eq_dec q self) as [->|N3].
        -- eexists. split; [exact Hself|]. cbn. apply In_insert. rewrite Hs in Hoq. inversion Hoq; subst. auto.
        -- destruct (Nat.eq_dec q i) as [->|N4].
           ++ eexists. split; [exact Hi'|]. rewrite Hkids. rewrite Hoi in Hoq. inversion Hoq; subst; auto.
           ++ exists oq. rewrite Hoth by auto. auto.
  - intros x o Hx. destruct (Nat.eq_dec x self) as [->|N1].
    + rewrite Hself in Hx. inversion Hx; subst. cbn. apply NoDup_insert; auto. apply (Ht _ _ Hs).
    + destruct (Nat.eq_dec x i) as [->|N2].
      * rewrite Hi' in Hx. inversion Hx; subst. rewrite Hkids. eapply Ht; eauto.
      * rewrite Hoth in Hx by auto. eapply Ht; eauto.
  - assert (Hti : exists t ids, holds h' (Some self) i t ids).
    { destruct (Hall _ _ Hoi) as (t & ids & Hh & Hnd). rewrite Hpi in Hh.
      inversion Hh as [p0 i0 n0 a0 is0 ks0 idss Hio Ha|p0 i0 s0 Hio]; subst.
      - inversion Hnd as [|x l Hx Hnd']; subst. rewrite Hio in Hoi. inversion Hoi; subst. cbn in Hi'. do 2 eexists. econstructor; [exact Hi'|].
        eapply (proj2 (holds_same h h')); [exact Ha|]. intros j Hj. apply Hoth.
        + intros ->. apply Hnb. eapply (proj1 (holds_below h)); [exact Hh|]. right; auto.
        + intros ->. auto.
      - destruct Hi as (? & ? & ? & ? & Hi). congruence. }
    assert (R : forall q x t ids, holds h q x t ids -> x <> i -> exists t' ids', holds h' q x t' ids').
    { apply rebuild. intros x o Hx Hxi. destruct (Nat.eq_dec x self) as [->|N1].
      - eexists. split; [exact Hself|]. rewrite Hs in Hx. inversion Hx; subst. split; [reflexivity|]. cbn. intros k Hk.
        apply In_insert in Hk as [->|Hk]; [right; exact Hti|]. left. split; auto. intros ->; auto.
      - exists o. rewrite Hoth by auto. split; [exact Hx|]. split; [reflexivity|]. intros k Hk. left. split; auto.
        intros ->. apply (Hnch x). exists o; auto. }
    intros x o Hx. destruct (Nat.eq_dec x i) as [->|N2].
    + rewrite Hi' in Hx. inversion Hx; subst. rewrite Hpar. exact Hti.
    + assert (Ho : exists o0, hp h x = Some o0 /\ oparent o0 = oparent o).
      { destruct (Nat.eq_dec x self) as [->|N1]; [rewrite Hself in Hx; inversion Hx; subst; eauto|]. rewrite Hoth in Hx by auto. eauto. }
      destruct Ho as (o0 & Ho0 & <-). destruct (Hall _ _ Ho0) as (t & ids & Hh & _). eapply R; eauto.
Qed.

Lemma insert_text_well_linked h self c s index h' : well_linked h -> (c = AStr s \/ exists i, c = ARef i /\ is_text h i s) ->
  xml_insert h self c index = EOk h' -> well_linked h'.
Proof.
  intros (Hb & Hl & Ht & Hall) Hc H.
  assert (Hs : exists n a ks p, hp h self = Some (OElem n a ks p)).
  { unfold xml_insert in H. destruct (hp h self) as [[n a ks p|s0 p]|]; try discriminate. eauto. }
  destruct Hs as (n & a & ks & p & Hs). pose proof (Hb _ _ Hs) as Hlt.
  destruct (insert_text_eq _ _ _ _ _ _ _ _ _ _ Hs Hlt Hc H) as (Hnx & Hself & Hi' & Hoth). clear Hc H.
  set (i := nxt h) in *.
  assert (Hf : hp h i = None).
  { destruct (hp h i) eqn:E; auto. apply Hb in E. unfold i in E. lia. }
  assert (Hn : i <> self) by (unfold i; lia).
  assert (Hnch : forall q, ~ child h q i).
  { intros q Hc. apply Hl in Hc. destruct Hc as (o & Ho & Hp). congruence. }
  assert (Hnk : ~ In i ks).
  { intros Hin. apply (Hnch self). eexists; split; [exact Hs|exact Hin]. }
  apply well_linked_intro.
  - intros x o Hx. rewrite Hnx. destruct (Nat.eq_dec x self) as [->|N1]; [lia|].
    destruct (Nat.eq_dec x i) as [->|N2]; [unfold i; lia|]. rewrite Hoth in Hx by auto. apply Hb in Hx. lia.
  - intros q x. split.
    + intros (o & Ho & Hin). destruct (Nat.eq_dec q self) as [->|N1].
      * rewrite Hself in Ho. inversion Ho; subst o. cbn in Hin. apply In_insert in Hin as [->|Hin].
        -- eexists. split; [exact Hi'|reflexivity].
        -- assert (Hc : child h self x) by (eexists; split; [exact Hs|exact Hin]).
           destruct (Nat.eq_dec x i) as [->|N2]; [contradiction|]. apply Hl in Hc. destruct Hc as (ox & Hox & Hpx).
           destruct (Nat.eq_dec x self) as [->|N3].
           ++ eexists. split; [exact Hself|]. cbn. rewrite Hs in Hox. inversion Hox; subst. exact Hpx.
           ++ exists ox. rewrite Hoth by auto. auto.
      * assert (Hc : child h q x).
        { destruct (Nat.eq_dec q i) as [->|N2].
          - rewrite Hi' in Ho. inversion Ho; subst. destruct Hin.
          - rewrite Hoth in Ho by auto. exists o; auto. }
        destruct (Nat.eq_dec x i) as [->|N2]; [exfalso; eapply Hnch; eauto|]. apply Hl in Hc. destruct Hc as (ox & Hox & Hpx).
        destruct (Nat.eq_dec x self) as [->|N3].
        -- eexists. split; [exact Hself|]. cbn. rewrite Hs in Hox. inversion Hox; subst. exact Hpx.
        -- exists ox. rewrite Hoth by auto. auto.
    + intros (o & Ho & Hp). destruct (Nat.eq_dec x i) as [->|N2].
      * rewrite Hi' in Ho. inversion Ho; subst. cbn in Hp. inversion Hp; subst. eexists. split; [exact Hself|]. cbn. apply In_insert. auto.
      * assert (Hc : child h q x).
        { apply Hl. destruct (Nat.eq_dec x self) as [->|N3].
          - rewrite Hself in Ho. inversion Ho; subst o. eexists. split; [exact Hs|]. exact Hp.
          - rewrite Hoth in Ho by auto. exists o; auto. }
        destruct Hc as (oq & Hoq & Hin). destruct (Nat.eq_dec q self) as [->|N3].
        -- eexists. split; [exact Hself|]. cbn. apply In_insert. rewrite Hs in Hoq. inversion Hoq; subst. auto.
        -- destruct (Nat.eq_dec q i) as [->|N4]; [congruence|].
           exists oq. rewrite Hoth by auto. auto.
  - intros x o Hx. destruct (Nat.eq_dec x self) as [->|N1].
    + rewrite Hself in Hx. inversion Hx; subst o. cbn. apply NoDup_insert; auto. apply (Ht _ _ Hs).
    + destruct (Nat.eq_dec x i) as [->|N2].
      * rewrite Hi' in Hx. inversion Hx; subst. constructor.
      * rewrite Hoth in Hx by auto. eapply Ht; eauto.
  - assert (Hti : exists t ids, holds h' (Some self) i t ids) by (do 2 eexists; constructor; exact Hi').
    assert (R : forall q x t ids, holds h q x t ids -> x <> i -> exists t' ids', holds h' q x t' ids').
    { apply rebuild. intros x o Hx Hxi. destruct (Nat.eq_dec x self) as [->|N1].
      - eexists. split; [exact Hself|]. rewrite Hs in Hx. inversion Hx; subst. split; [reflexivity|]. cbn. intros k Hk.
        apply In_insert in Hk as [->|Hk]; [right; exact Hti|]. left. split; auto. intros ->; auto.
      - exists o. rewrite Hoth by auto. split; [exact Hx|]. split; [reflexivity|]. intros k Hk. left. split; auto.
        intros ->. apply (Hnch x). exists o; auto. }
    intros x o Hx. destruct (Nat.eq_dec x i) as [->|N2].
    + rewrite Hi' in Hx. inversion Hx; subst. exact Hti.
    + assert (Ho : exists o0, hp h x = Some o0 /\ oparent o0 = oparent o).
      { destruct (Nat.eq_dec x self) as [->|N1]; [rewrite Hself in Hx; inversion Hx; subst; eauto|]. rewrite Hoth in Hx by auto. eauto. }
      destruct Ho as (o0 & Ho0 & <-). destruct (Hall _ _ Ho0) as (t & ids & Hh & _). eapply R; eauto.
Qed.

Lemma In_without i ks k : NoDup ks -> (In k (without i ks) <-> In k ks /\ k <> i).
Proof.
  intros Hn. destruct (in_dec Nat.eq_dec i ks) as [Hi|Hi].
  - destruct (without_split i ks Hi) as (a & b & -> & -> & Ha). apply NoDup_remove in Hn as [_ Hn].
    rewrite !in_app_iff in *. cbn. split; [|intuition congruence].
    intros Hk. split; [tauto|]. intros ->. tauto.
  - assert (He : without i ks = ks).
    { clear Hn. unfold without. induction ks as [|x ks IH]; [reflexivity|]. cbn. destruct (Nat.eqb_spec x i).
      - subst. exfalso. apply Hi. left; auto.
      - f_equal. apply IH. intros H; apply Hi; right; auto. }
    rewrite He. split; [|tauto]. intros H. split; auto. intros ->; auto.
Qed.
Lemma NoDup_without i ks : NoDup ks -> NoDup (without i ks).
Proof.
  intros H. unfold without. induction H as [|x l Hx Hl IH]; cbn; [constructor|]. destruct (Nat.eqb x i); auto. constructor; auto.
  intros Hin. apply Hx. fold (without i l) in Hin. apply In_without in Hin; tauto.
Qed.

Lemma remove_elem_well_linked h self i h' : well_linked h -> is_elem h i ->
  xml_remove h self (ARef i) = EOk h' -> well_linked h'.
Proof.
  intros (Hb & Hl & Ht & Hall) Hi H.
  assert (Hs : exists n a ks p, hp h self = Some (OElem n a ks p)).
  { unfold xml_remove in H. destruct (hp h self) as [[n a ks p|s0 p]|]; try discriminate. eauto. }
  destruct Hs as (n & a & ks & p & Hs).
  destruct (Hall _ _ Hs) as (ts & idss & Hhs & _).
  destruct (Nat.eq_dec i self) as [->|Hn].
  { exfalso. unfold xml_remove in H. rewrite Hs in H.
    rewrite (existsb_ext _ (fun x => Nat.eqb x self)) in H by (intros x; apply node_eqb_elem; auto).
    destruct (existsb (fun x => Nat.eqb x self) ks) eqn:E; [|discriminate]. apply existsb_eqb in E.
    eapply no_cycle; [exact Hhs| |constructor]. eexists; split; [exact Hs|exact E]. }
  destruct (remove_elem_cases _ _ _ _ _ _ _ Hs Hi Hn) as [(Hin & h2 & H2 & Hnx & Hself & Hi' & Hoth)|[_ H2]]; [|congruence].
  rewrite H2 in H. inversion H; subst h2. clear H H2.
  pose proof (Ht _ _ Hs) as Hnd. cbn in Hnd.
  assert (Hci : child h self i) by (eexists; split; [exact Hs|exact Hin]).
  pose proof (proj1 (Hl _ _) Hci) as (oi & Hoi & Hpi). specialize (Hi' _ Hoi).
  assert (Hkids : okids (set_parent oi None) = okids oi) by (destruct oi; reflexivity).
  assert (Hpar : oparent (set_parent oi None) = None) by (destruct oi; reflexivity).
  assert (Hnch : forall q, child h q i -> q = self).
  { intros q Hc. apply Hl in Hc. destruct Hc as (o & Ho & Hp). congruence. }
  apply well_linked_intro.
  - intros x o Hx. rewrite Hnx. destruct (Nat.eq_dec x self) as [->|N1]; [eapply Hb; eauto|].
    destruct (Nat.eq_dec x i) as [->|N2]; [eapply Hb; eauto|]. rewrite Hoth in Hx by auto. eapply Hb; eauto.
  - intros q x. split.
    + intros (o & Ho & Hk).
      assert (Hc : child h q x /\ x <> i).
      { destruct (Nat.eq_dec q self) as [->|N1].
        - rewrite Hself in Ho. inversion Ho; subst o. cbn in Hk. apply In_without in Hk as [Hk Hx]; auto. split; auto.
          eexists; split; [exact Hs|exact Hk].
        - assert (Hc : child h q x).
          { destruct (Nat.eq_dec q i) as [->|N2].
            - rewrite Hi' in Ho. inversion Ho; subst. rewrite Hkids in Hk. exists oi. auto.
            - rewrite Hoth in Ho by auto. exists o; auto. }
          split; auto. intros ->. apply N1. apply Hnch. exact Hc. }
      destruct Hc as [Hc Hx]. apply Hl in Hc. destruct Hc as (ox & Hox & Hpx). destruct (Nat.eq_dec x self) as [->|N3].
      * eexists. split; [exact Hself|]. cbn. rewrite Hs in Hox. inversion Hox; subst. exact Hpx.
      * exists ox. rewrite Hoth by auto. auto.
    + intros (o & Ho & Hp). destruct (Nat.eq_dec x i) as [->|N2].
      * rewrite Hi' in Ho. inversion Ho; subst. congruence.
      * assert (Hc : child h q x).
        { apply Hl. destruct (Nat.eq_dec x self) as [->|N3].
          - rewrite Hself in Ho. inversion Ho; subst o. eexists. split; [exact Hs|]. exact Hp.
          - rewrite Hoth in Ho by auto. exists o; auto. }
        destruct Hc as (oq & Hoq & Hk). destruct (Nat.eq_dec q self) as [->|N3].
        -- eexists. split; [exact Hself|]. cbn. apply In_without; auto. rewrite Hs in Hoq. inversion Hoq; subst. auto.
        -- destruct (Nat.eq_dec q i) as [->|N4].
           ++ eexists. split; [exact Hi'|]. rewrite Hkids. rewrite Hoi in Hoq. inversion Hoq; subst; auto.
           ++ exists oq. rewrite Hoth by auto. auto.
  - intros x o Hx. destruct (Nat.eq_dec x self) as [->|N1].
    + rewrite Hself in Hx. inversion Hx; subst o. cbn. apply NoDup_without; auto.
    + destruct (Nat.eq_dec x i) as [->|N2].
      * rewrite Hi' in Hx. inversion Hx; subst. rewrite Hkids. eapply Ht; eauto.
      * rewrite Hoth in Hx by auto. eapply Ht; eauto.
  - assert (Hti : exists t ids, holds h' None i t ids).
    { destruct (Hall _ _ Hoi) as (t & ids & Hh & Hnd'). rewrite Hpi in Hh.
      inversion Hh as [p0 i0 n0 a0 is0 ks0 idss0 Hio Ha|p0 i0 s0 Hio]; subst.
      - inversion Hnd' as [|x l Hx Hnd2]; subst. rewrite Hio in Hoi. inversion Hoi; subst. cbn in Hi'. do 2 eexists. econstructor; [exact Hi'|].
        eapply (proj2 (holds_same h h')); [exact Ha|]. intros j Hj. apply Hoth.
        + intros ->. eapply no_cycle; [exact Hhs|exact Hci|]. eapply (proj1 (holds_below h)); [exact Hh|]. right; auto.
        + intros ->. auto.
      - destruct Hi as (? & ? & ? & ? & Hi). congruence. }
    assert (R : forall q x t ids, holds h q x t ids -> x <> i -> exists t' ids', holds h' q x t' ids').
    { apply rebuild. intros x o Hx Hxi. destruct (Nat.eq_dec x self) as [->|N1].
      - eexists. split; [exact Hself|]. rewrite Hs in Hx. inversion Hx; subst. split; [reflexivity|]. cbn. intros k Hk.
        left. apply In_without in Hk; auto.
      - exists o. rewrite Hoth by auto. split; [exact Hx|]. split; [reflexivity|]. intros k Hk. left. split; auto.
        intros ->. apply N1, Hnch. exists o; auto. }
    intros x o Hx. destruct (Nat.eq_dec x i) as [->|N2].
    + rewrite Hi' in Hx. inversion Hx; subst. rewrite Hpar. exact Hti.
    + assert (Ho : exists o0, hp h x = Some o0 /\ oparent o0 = oparent o).
      { destruct (Nat.eq_dec x self) as [->|N1]; [rewrite Hself in Hx; inversion Hx; subst; eauto|]. rewrite Hoth in Hx by auto. eauto. }
      destruct Ho as (o0 & Ho0 & <-). destruct (Hall _ _ Ho0) as (t & ids & Hh & _). eapply R; eauto.
Qed.

(** ** Findings *)
Lemma remove_text_first h self n a k1 j k2 c k3 p s : hp h self = Some (OElem n a (k1 ++ j :: k2 ++ c :: k3) p) ->
  is_text h j s -> is_text h c s -> j <> c -> (forall x, In x k1 -> ~ is_text h x s) ->
  exists h', xml_remove h self (ARef c) = EOk h' /\
    hp h' self = Some (OElem n a (k1 ++ k2 ++ c :: k3) p) /\ hp h' c = Some (OText s None) /\
    forall x, x <> self -> x <> c -> hp h' x = hp h x.
Proof.
  intros Hs (pj & Hj) (pc & Hc) Hjc Hk.
  assert (Hns : c <> self) by congruence.
  assert (Hk1 : forall h0, (forall x, x <> c -> hp h0 x = hp h x) -> (exists q, hp h0 c = Some (OText s q)) -> forall x, In x k1 -> node_eqb h0 x c = false).
  { intros h0 Hsame (q & Hq) x Hx. unfold node_eqb. destruct (Nat.eqb_spec x c) as [->|Hxc].
    - exfalso. apply (Hk c Hx). exists pc; auto.
    - cbn [orb]. rewrite Hsame, Hq by auto. destruct (hp h x) as [[n1 a1 l1 p1|t1 p1]|] eqn:E; auto.
      destruct (str_eqb t1 s) eqn:Et; auto. apply str_eqb_eq in Et. subst. exfalso. apply (Hk x Hx). exists p1; auto. }
  assert (Hj1 : forall h0, (forall x, x <> c -> hp h0 x = hp h x) -> (exists q, hp h0 c = Some (OText s q)) -> node_eqb h0 j c = true).
  { intros h0 Hsame (q & Hq). unfold node_eqb. rewrite Hsame, Hj, Hq by auto. rewrite str_eqb_refl. apply orb_true_r. }
  unfold xml_remove. rewrite Hs.
  assert (Hex : existsb (fun x => node_eqb h x c) (k1 ++ j :: k2 ++ c :: k3) = true).
  { apply existsb_exists. exists j. split; [apply in_or_app; right; left; auto|]. apply Hj1; eauto. }
  rewrite Hex, Hc. cbn [set_parent]. rewrite hp_upd_other, Hs by auto. eexists. split; [reflexivity|]. split; [|split].
  - rewrite hp_upd_same. do 2 f_equal.
    assert (Hu : forall x, x <> c -> hp (upd h c (OText s None)) x = hp h x) by (intros; apply hp_upd_other; auto).
    assert (Hq : exists q, hp (upd h c (OText s None)) c = Some (OText s q)) by (eexists; apply hp_upd_same).
    generalize (Hk1 _ Hu Hq) (Hj1 _ Hu Hq). clear. intros H1 H2. induction k1 as [|x k1 IH]; cbn [app remove_first].
    + rewrite H2. reflexivity.
    + rewrite H1 by (left; auto). f_equal. apply IH. intros y Hy. apply H1. right; auto.
  - rewrite hp_upd_other, hp_upd_same by auto. reflexivity.
  - intros x H1 H2. rewrite !hp_upd_other by auto. reflexivity.
Qed.

Lemma remove_str h self n a ks p s : hp h self = Some (OElem n a ks p) ->
  exists e, xml_remove h self (AStr s) = EExn h e.
Proof. intros Hs. unfold xml_remove. rewrite Hs. destruct (existsb _ ks); eauto. Qed.

Lemma insert_two_parents h self q i index h' : self <> q -> is_elem h i -> i <> q -> child h q i ->
  xml_insert h self (ARef i) index = EOk h' -> child h' q i /\ child h' self i /\ parent_is h' i (Some self).
Proof.
  intros Hsq Hi Hiq (o & Ho & Hin) H.
  assert (Hs : exists n a ks p, hp h self = Some (OElem n a ks p)).
  { unfold xml_insert in H. destruct (hp h self) as [[n a ks p|s p]|]; try discriminate. eauto. }
  destruct Hs as (n & a & ks & p & Hs).
  destruct (insert_elem_eq _ _ _ _ _ _ _ _ _ Hs Hi H) as (_ & H1 & H2 & Hoth).
  split; [exists o; rewrite Hoth by auto; auto|].
  destruct (Nat.eq_dec i self) as [->|Hn].
  - specialize (H2 eq_refl). split; [|eexists; split; [exact H2|reflexivity]]. eexists. split; [exact H2|]. cbn. apply In_insert; auto.
  - destruct (H1 Hn) as [Hself Hi']. destruct Hi as (n1 & a1 & k1 & p1 & Hi). specialize (Hi' _ Hi).
    split; [|eexists; split; [exact Hi'|reflexivity]]. eexists. split; [exact Hself|]. cbn. apply In_insert; auto.
Qed.

Lemma insert_cycle h self i index h' : linked h -> is_elem h i -> parent_is h i None -> below h i self ->
  xml_insert h self (ARef i) index = EOk h' -> child h' self i /\ below h' i self /\
  forall p t ids, ~ holds h' p i t ids.
Proof.
  intros Hl Hi (oi & Hoi & Hpi) Hb H.
  assert (Hs : exists n a ks p, hp h self = Some (OElem n a ks p)).
  { unfold xml_insert in H. destruct (hp h self) as [[n a ks p|s p]|]; try discriminate. eauto. }
  destruct Hs as (n & a & ks & p & Hs).
  destruct (insert_elem_eq _ _ _ _ _ _ _ _ _ Hs Hi H) as (_ & H1 & H2 & Hoth).
  assert (Hc : child h' self i).
  { destruct (Nat.eq_dec i self) as [->|Hn].
    - eexists. split; [exact (H2 eq_refl)|]. cbn. apply In_insert; auto.
    - eexists. split; [exact (proj1 (H1 Hn))|]. cbn. apply In_insert; auto. }
  assert (Hsub : forall x y, child h x y -> child h' x y).
  { intros x y (o & Ho & Hin). destruct (Nat.eq_dec x self) as [->|Nx].
    - rewrite Hs in Ho. inversion Ho; subst o. cbn in Hin. destruct (Nat.eq_dec i self) as [->|Hn].
      + eexists. split; [exact (H2 eq_refl)|]. cbn. apply In_insert; auto.
      + eexists. split; [exact (proj1 (H1 Hn))|]. cbn. apply In_insert; auto.
    - destruct (Nat.eq_dec x i) as [->|Ni].
      + assert (Hn : i <> self) by auto. rewrite Hoi in Ho. inversion Ho; subst o. eexists. split; [apply (proj2 (H1 Hn) _ Hoi)|].
        destruct oi; exact Hin.
      + exists o. rewrite Hoth by auto. auto. }
  assert (Hb' : below h' i self).
  { clear - Hb Hsub. induction Hb as [x|x j y Hb IH Hc]; [constructor|]. exact (be_kid _ _ _ _ IH (Hsub _ _ Hc)). }
  split; [exact Hc|]. split; [exact Hb'|]. intros q t ids Hh.
  pose proof (below_holds _ _ _ Hb' _ _ _ Hh) as Hin. destruct (proj1 (holds_sub h') _ _ _ _ Hh self Hin) as (p' & t' & ids' & H3 & _).
  exact (no_cycle h' p' self t' ids' i H3 Hc Hb').
Qed.

(** ** Links inside one tree *)
Lemma holds_links h :
  (forall q i t ids, holds h q i t ids -> (forall x, In x ids -> forall c, child h x c -> In c ids /\ parent_is h c (Some x)) /\
     (forall c, In c ids -> c = i \/ exists x, In x ids /\ parent_is h c (Some x) /\ child h x c)) /\
  (forall q is ts ids, holds_all h q is ts ids -> (forall x, In x ids -> forall c, child h x c -> In c ids /\ parent_is h c (Some x)) /\
     (forall k, In k is -> In k ids /\ parent_is h k (Some q)) /\
     (forall c, In c ids -> In c is \/ exists x, In x ids /\ parent_is h c (Some x) /\ child h x c)).
Proof.
  apply holds_both.
  - intros p i n a is ks idss Hi _ (IH1 & IH2 & IH3). split.
    + intros x [<-|Hx] c Hc.
      * destruct Hc as (o & Ho & Hin). rewrite Hi in Ho. inversion Ho; subst o. cbn in Hin. destruct (IH2 c Hin). split; [right; auto|auto].
      * destruct (IH1 x Hx c Hc). split; [right; auto|auto].
    + intros c [<-|Hc]; [auto|]. right. destruct (IH3 c Hc) as [Hin|(x & Hx & H)].
      * exists i. split; [left; auto|]. split; [apply IH2; auto|]. eexists. split; [exact Hi|exact Hin].
      * exists x. split; [right; auto|auto].
  - intros p i s Hi. split.
    + intros x [<-|[]] c (o & Ho & Hin). rewrite Hi in Ho. inversion Ho; subst. destruct Hin.
    + intros c [<-|[]]; auto.
  - intros q. split; [intros x []|]. split; [intros k []|intros c []].
  - intros q i is t ts ids idss Hh (A1 & A2) _ (IH1 & IH2 & IH3). split; [|split].
    + intros x Hx c Hc. apply in_app_or in Hx as [Hx|Hx]; [destruct (A1 x Hx c Hc)|destruct (IH1 x Hx c Hc)]; split; auto; apply in_or_app; auto.
    + intros k [<-|Hk].
      * split; [apply in_or_app; left; eapply holds_head; eauto|]. destruct (holds_obj _ _ _ _ _ Hh) as (o & Ho & Hp). exists o; auto.
      * destruct (IH2 k Hk). split; auto. apply in_or_app; auto.
    + intros c Hc. apply in_app_or in Hc as [Hc|Hc].
      * destruct (A2 c Hc) as [->|(x & Hx & H)]; [left; left; auto|]. right. exists x. split; [apply in_or_app; auto|auto].
      * destruct (IH3 c Hc) as [H|(x & Hx & H)]; [left; right; auto|]. right. exists x. split; [apply in_or_app; auto|auto].
Qed.

(** A new tree beside an existing well linked heap. *)
Lemma beside_well_linked h h' i t ids : well_linked h -> (forall j, j < nxt h -> hp h' j = hp h j) ->
  holds h' None i t ids -> NoDup ids -> (forall j, In j ids <-> nxt h <= j < nxt h') ->
  (forall j, nxt h' <= j -> hp h' j = None) -> no_twice h' -> well_linked h'.
Proof.
  intros (Hb & Hl & Ht & Hall) Hsame Hh Hnd Hids Hfree Hnt. destruct (proj1 (holds_links h') _ _ _ _ Hh) as [L1 L2].
  assert (Hroot : parent_is h' i None) by (destruct (holds_obj _ _ _ _ _ Hh) as (o & Ho & Hp); exists o; auto).
  assert (Hcase : forall j o, hp h' j = Some o -> (j < nxt h /\ hp h j = Some o) \/ In j ids).
  { intros j o Hj. destruct (Nat.lt_ge_cases j (nxt h)); [left; split; auto; rewrite <- Hsame; auto|]. right. apply Hids. split; auto.
    destruct (Nat.lt_ge_cases j (nxt h')); auto. rewrite Hfree in Hj by auto. discriminate. }
  assert (Hin : nxt h <= nxt h').
  { pose proof (holds_head _ _ _ _ _ Hh) as Hi. apply Hids in Hi. lia. }
  assert (Hlow : forall p c, p < nxt h -> (child h' p c <-> child h p c)).
  { intros p c Hp. unfold child. rewrite Hsame by auto. tauto. }
  assert (Hlowp : forall c p, c < nxt h -> (parent_is h' c p <-> parent_is h c p)).
  { intros c p Hp. unfold parent_is. rewrite Hsame by auto. tauto. }
  apply well_linked_intro.
  - intros j o Hj. destruct (Hcase j o Hj) as [[H _]|H]; [lia|]. apply Hids in H. lia.
  - intros p c. split.
    + intros Hc. pose proof Hc as (o & Ho & _). destruct (Hcase _ _ Ho) as [[H _]|H].
      * apply Hlow in Hc; auto. apply Hl in Hc. pose proof Hc as (oc & Hoc & _). apply Hlowp; auto. eapply Hb; eauto.
      * apply L1; auto.
    + intros Hc. pose proof Hc as (o & Ho & Hp). destruct (Hcase _ _ Ho) as [[H _]|H].
      * apply Hlowp in Hc; auto. apply Hl in Hc. pose proof Hc as (oc & Hoc & _). apply Hlow; auto. eapply Hb; eauto.
      * destruct (L2 c H) as [->|(x & Hx & (o2 & Ho2 & Hp2) & Hxc)].
        -- destruct Hroot as (o2 & Ho2 & Hp2). congruence.
        -- assert (x = p) by congruence. subst; auto.
  - exact Hnt.
  - intros j o Hj. destruct (Hcase _ _ Hj) as [[H Hj']|H].
    + destruct (Hall _ _ Hj') as (t' & ids' & Hh' & _). exists t', ids'. eapply (proj1 (holds_same h h')); [exact Hh'|]. intros x Hx. apply Hsame.
      destruct (proj1 (holds_live h) _ _ _ _ Hh' x Hx) as (ox & Hox). eapply Hb; eauto.
    + destruct (proj1 (holds_sub h') _ _ _ _ Hh j H) as (p' & t' & ids' & H3 & _). destruct (holds_obj _ _ _ _ _ H3) as (o2 & Ho2 & <-).
      rewrite Hj in Ho2. inversion Ho2; subst. eauto.
Qed.

(** ** Statements for Prop_Tree *)
Lemma insert_elem_at h self n a ks p i index : hp h self = Some (OElem n a ks p) -> is_elem h i -> i <> self ->
  exists h', xml_insert h self (ARef i) index = EOk h' /\
    hp h' self = Some (OElem n a (firstn (position index (length ks)) ks ++ i :: skipn (position index (length ks)) ks) p) /\
    (forall o, hp h i = Some o -> hp h' i = Some (set_parent o (Some self))) /\
    (forall j, j <> self -> j <> i -> hp h' j = hp h j).
Proof.
  intros Hs Hi Hn. assert (H : exists h', xml_insert h self (ARef i) index = EOk h').
  { unfold xml_insert. rewrite Hs. destruct Hi as (n1 & a1 & k1 & p1 & Hi). rewrite Hi. unfold place_kid. rewrite hp_upd_other, Hs by auto. eauto. }
  destruct H as (h' & H). exists h'. split; [exact H|]. destruct (insert_elem_eq _ _ _ _ _ _ _ _ _ Hs Hi H) as (_ & H1 & _ & H3).
  rewrite <- kids_insert_split. destruct (H1 Hn). auto.
Qed.
Lemma insert_text_at h self n a ks p c s index : hp h self = Some (OElem n a ks p) -> allocated h ->
  (c = AStr s \/ exists i, c = ARef i /\ is_text h i s) ->
  exists h', xml_insert h self c index = EOk h' /\
    hp h' self = Some (OElem n a (firstn (position index (length ks)) ks ++ nxt h :: skipn (position index (length ks)) ks) p) /\
    hp h (nxt h) = None /\ hp h' (nxt h) = Some (OText s (Some self)) /\
    (forall j, j <> self -> j <> nxt h -> hp h' j = hp h j).
Proof.
  intros Hs Hal Hc. pose proof (Hal _ _ Hs) as Hl. assert (H : exists h', xml_insert h self c index = EOk h').
  { unfold xml_insert. rewrite Hs. destruct Hc as [->|(i & -> & q & Hi)]; [|rewrite Hi]; cbn [alloc]; unfold place_kid; cbn [hp];
      destruct (Nat.eqb_spec self (nxt h)); try lia; rewrite Hs; eauto. }
  destruct H as (h' & H). exists h'. split; [exact H|]. destruct (insert_text_eq _ _ _ _ _ _ _ _ _ _ Hs Hl Hc H) as (_ & H1 & H2 & H3).
  rewrite <- kids_insert_split. split; [exact H1|]. split; [|auto]. destruct (hp h (nxt h)) eqn:E; auto. apply Hal in E. lia.
Qed.
Lemma position_cases index len : (0 <= index -> Z.of_nat (position index len) = Z.min index (Z.of_nat len))%Z /\
  (index < -1 -> Z.of_nat (position index len) = Z.max 0 (index + Z.of_nat len))%Z.
Proof. unfold position. split; intros H; destruct (Z.eqb_spec index (-1)); try lia; destruct (Z.ltb_spec index 0); lia. Qed.

Lemma remove_elem_at h self n a k1 i k2 p : hp h self = Some (OElem n a (k1 ++ i :: k2) p) -> is_elem h i -> i <> self -> ~ In i k1 ->
  exists h', xml_remove h self (ARef i) = EOk h' /\ hp h' self = Some (OElem n a (k1 ++ k2) p) /\
    (forall o, hp h i = Some o -> hp h' i = Some (set_parent o None)) /\
    (forall j, j <> self -> j <> i -> hp h' j = hp h j).
Proof.
  intros Hs Hi Hn Hk. destruct (remove_elem_cases _ _ _ _ _ _ _ Hs Hi Hn) as [(Hin & h2 & H2 & Hnx & Hself & Hi' & Hoth)|[Hx _]].
  - exists h2. split; [exact H2|]. split; [|auto]. rewrite Hself. do 2 f_equal. unfold without. clear - Hk.
    induction k1 as [|x k1 IH]; cbn [app remove_first]; [rewrite Nat.eqb_refl; reflexivity|].
    destruct (Nat.eqb_spec x i); [subst; exfalso; apply Hk; left; auto|]. f_equal. apply IH. intros H; apply Hk; right; auto.
  - exfalso. apply Hx, in_or_app. right; left; auto.
Qed.
Lemma remove_elem_error h self n a ks p i : hp h self = Some (OElem n a ks p) -> is_elem h i -> ~ In i ks ->
  xml_remove h self (ARef i) = EExn h ValueErr_.
Proof.
  intros Hs Hi Hn. unfold xml_remove. rewrite Hs. rewrite (existsb_ext _ (fun x => Nat.eqb x i)) by (intros x; apply node_eqb_elem; auto).
  destruct (existsb (fun x => Nat.eqb x i) ks) eqn:E; [|reflexivity]. apply existsb_eqb in E. contradiction.
Qed.
Lemma insert_remove h self n a ks p i index h1 : hp h self = Some (OElem n a ks p) -> is_elem h i -> i <> self -> ~ In i ks ->
  xml_insert h self (ARef i) index = EOk h1 ->
  exists h2, xml_remove h1 self (ARef i) = EOk h2 /\ hp h2 self = hp h self /\ (forall j, j <> i -> hp h2 j = hp h j).
Proof.
  intros Hs Hi Hn Hk H. destruct (insert_elem_at h self n a ks p i index Hs Hi Hn) as (h' & H' & A1 & A2 & A3).
  rewrite H in H'. inversion H'; subst h'. set (m := position index (length ks)) in *.
  assert (Hi1 : is_elem h1 i).
  { destruct Hi as (n1 & a1 & k1 & p1 & Hi). specialize (A2 _ Hi). do 4 eexists. exact A2. }
  destruct (remove_elem_at h1 self n a _ i _ p A1 Hi1 Hn) as (h2 & B0 & B1 & B2 & B3).
  { intros Hin. apply Hk. rewrite <- (firstn_skipn m ks). apply in_or_app; auto. }
  rewrite firstn_skipn in B1. exists h2. split; [exact B0|]. split; [congruence|]. intros j Hj.
  destruct (Nat.eq_dec j self) as [->|Hjs]; [congruence|]. rewrite B3, A3 by auto. reflexivity.
Qed.
Lemma insert_text_copy h self n a ks p i s index : hp h self = Some (OElem n a ks p) -> allocated h -> is_text h i s ->
  exists h', xml_insert h self (ARef i) index = EOk h' /\ hp h' i = hp h i /\ hp h (nxt h) = None /\ child h' self (nxt h) /\
    parent_is h' (nxt h) (Some self) /\ (child h' self i <-> child h self i).
Proof.
  intros Hs Hal Hi. destruct (insert_text_at h self n a ks p (ARef i) s index Hs Hal) as (h' & H & A1 & A2 & A3 & A4).
  { right. exists i. auto. }
  pose proof Hi as (q & Hi'). pose proof (Hal _ _ Hi') as Hlt. assert (Hne : i <> self) by congruence.
  exists h'. split; [exact H|]. split; [apply A4; auto; lia|]. split; [exact A2|].
  split; [eexists; split; [exact A1|]; apply in_or_app; right; left; auto|]. split; [eexists; split; [exact A3|reflexivity]|].
  assert (Hin : i <> nxt h) by lia. set (m := position index (length ks)) in *. split.
  - intros (o & Ho & Hk). rewrite A1 in Ho. inversion Ho; subst o. cbn in Hk. eexists. split; [exact Hs|]. cbn.
    rewrite <- (firstn_skipn m ks). apply in_app_or in Hk as [Hk|[Hk|Hk]]; [apply in_or_app; auto|congruence|apply in_or_app; auto].
  - intros (o & Ho & Hk). rewrite Hs in Ho. inversion Ho; subst o. cbn in Hk. eexists. split; [exact A1|]. cbn.
    rewrite <- (firstn_skipn m ks) in Hk. apply in_app_or in Hk as [Hk|Hk]; apply in_or_app; [auto|right; right; auto].
Qed.
Lemma orphan_no_parent h i : well_linked h -> (exists o, hp h i = Some o) -> (forall p, ~ child h p i) -> parent_is h i None.
Proof.
  intros (_ & Hl & _) (o & Ho) Hn. exists o. split; auto. destruct (oparent o) as [p|] eqn:E; auto. exfalso. apply (Hn p), Hl. exists o; auto.
Qed.
