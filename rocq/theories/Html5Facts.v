(** Proofs about html5.py. *)
From Verif Require Import PyStr Parser XTree ParserInv ParserClass Heap Builder HeapSpec HeapFacts Html5 Html5Spec.
From Coq Require Import Lia Bool.

Lemma str_eqb_spec s t : str_eqb s t = true <-> s = t.
Proof. apply str_eqb_eq. Qed.

Lemma harg_eqb_equals h x i : (exists o, hp h i = Some o) -> harg_eqb h x i = true <-> equals h x i.
Proof.
  intros (o & Ho). destruct x as [j|s|d]; cbn [harg_eqb equals].
  - unfold node_eqb. rewrite orb_true_iff, Nat.eqb_eq. split.
    + intros [H|H]; [left; exact H|right]. rewrite Ho in H. destruct o as [|s p]; [discriminate|].
      destruct (hp h j) as [[|t q]|] eqn:Ej; try discriminate. apply str_eqb_spec in H. subst t. exists s. split; eexists; eauto.
    + intros [H|(s & (p & H1) & (q & H2))]; [left; exact H|right]. rewrite H1, H2. apply str_eqb_spec. reflexivity.
  - unfold node_str_eqb. rewrite Ho. split.
    + destruct o as [|t p]; [discriminate|]. intros H. apply str_eqb_spec in H. subst. exists p. exact Ho.
    + intros (p & H). rewrite Ho in H. inversion H; subst. apply str_eqb_spec. reflexivity.
  - unfold node_str_eqb. rewrite Ho. split.
    + destruct o as [|t p]; [discriminate|]. intros H. apply str_eqb_spec in H. subst. exists p. exact Ho.
    + intros (p & H). rewrite Ho in H. inversion H; subst. apply str_eqb_spec. reflexivity.
Qed.
(** Without assuming that the items are live, one direction still holds. *)
Lemma equals_live h x i : equals h x i -> harg_eqb h x i = true.
Proof.
  destruct x as [j|s|d]; cbn [harg_eqb equals].
  - unfold node_eqb. intros [H|(s & (p & H1) & (q & H2))]; [subst; rewrite Nat.eqb_refl; reflexivity|].
    rewrite H1, H2. apply orb_true_iff. right. apply str_eqb_spec. reflexivity.
  - intros (p & H). unfold node_str_eqb. rewrite H. apply str_eqb_spec. reflexivity.
  - intros (p & H). unfold node_str_eqb. rewrite H. apply str_eqb_spec. reflexivity.
Qed.
Lemma live_equals h x i : harg_eqb h x i = true -> equals h x i.
Proof.
  destruct x as [j|s|d]; cbn [harg_eqb equals].
  - unfold node_eqb. rewrite orb_true_iff, Nat.eqb_eq. intros [H|H]; [left; exact H|right].
    destruct (hp h i) as [[|s p]|] eqn:Ei; try discriminate. destruct (hp h j) as [[|t q]|] eqn:Ej; try discriminate.
    apply str_eqb_spec in H. subst t. exists s. split; eexists; eauto.
  - unfold node_str_eqb. destruct (hp h i) as [[|t p]|] eqn:Ei; try discriminate. intros H. apply str_eqb_spec in H. subst. exists p. exact Ei.
  - unfold node_str_eqb. destruct (hp h i) as [[|t p]|] eqn:Ei; try discriminate. intros H. apply str_eqb_spec in H. subst. exists p. exact Ei.
Qed.
Lemma not_equals h x i : ~ equals h x i -> harg_eqb h x i = false.
Proof. intros H. destruct (harg_eqb h x i) eqn:E; [|reflexivity]. apply live_equals in E. contradiction. Qed.

Lemma find_index_split {A} (p : A -> bool) a x b : p x = true -> (forall y, In y a -> p y = false) -> find_index p (a ++ x :: b) = Some (length a).
Proof.
  intros Hx. induction a as [|y a IH]; intros Ha; cbn [app find_index length].
  - rewrite Hx. reflexivity.
  - rewrite (Ha y (or_introl eq_refl)), IH; [reflexivity|]. intros z Hz. apply Ha. right; exact Hz.
Qed.
Lemma find_index_none {A} (p : A -> bool) l : (forall y, In y l -> p y = false) -> find_index p l = None.
Proof.
  induction l as [|y l IH]; intros Ha; cbn [find_index]; [reflexivity|].
  rewrite (Ha y (or_introl eq_refl)), IH; [reflexivity|]. intros z Hz. apply Ha. right; exact Hz.
Qed.
Lemma remove_first_split {A} (p : A -> bool) a x b : p x = true -> (forall y, In y a -> p y = false) -> remove_first p (a ++ x :: b) = a ++ b.
Proof.
  intros Hx. induction a as [|y a IH]; intros Ha; cbn [app remove_first].
  - rewrite Hx. reflexivity.
  - rewrite (Ha y (or_introl eq_refl)), IH; [reflexivity|]. intros z Hz. apply Ha. right; exact Hz.
Qed.
Lemma existsb_split {A} (p : A -> bool) a x b : p x = true -> existsb p (a ++ x :: b) = true.
Proof. intros Hx. apply existsb_exists. exists x. split; [apply in_or_app; right; left; reflexivity|exact Hx]. Qed.
Lemma existsb_none {A} (p : A -> bool) l : (forall y, In y l -> p y = false) -> existsb p l = false.
Proof.
  intros H. destruct (existsb p l) eqn:E; [|reflexivity]. apply existsb_exists in E as (x & Hx & Ex). rewrite (H x Hx) in Ex. discriminate.
Qed.

Lemma Forall2_in_r {A B} (R : A -> B -> Prop) l l' : Forall2 R l l' -> forall y, In y l' -> exists x, In x l /\ R x y.
Proof.
  induction 1 as [|x y l l' Hxy H IH]; intros z []; [subst; exists x; split; [left; reflexivity|exact Hxy]|].
  destruct (IH z H0) as (w & H1 & H2). exists w. split; [right; exact H1|exact H2].
Qed.
Lemma Forall2_impl_in {A B} (R S : A -> B -> Prop) l l' : (forall x y, In x l -> In y l' -> R x y -> S x y) -> Forall2 R l l' -> Forall2 S l l'.
Proof.
  intros Hi H. induction H as [|x y l l' Hxy H IH]; constructor; [apply Hi; [left|left|]; auto|]. apply IH. intros; apply Hi; [right|right|]; auto.
Qed.
(** ** Insertion *)
Lemma placed_insert h self n a ks p x index : hp h self = Some (OElem n a ks p) -> allocated h -> usable h self x ->
  exists h' j, xml_insert h self (insert_arg x) index = EOk h' /\ placed h h' self x j /\
    hp h' self = Some (OElem n a (firstn (position index (length ks)) ks ++ j :: skipn (position index (length ks)) ks) p) /\
    (forall k, k <> self -> k <> j -> hp h' k = hp h k) /\ nxt h <= nxt h' /\ j < nxt h' /\ (hp h j = None -> j = nxt h /\ nxt h' = S (nxt h)) /\
    j <> self /\ allocated h'.
Proof.
  intros Hs Hal Hu.
  assert (Htext : forall c s, insert_arg x = c -> (c = AStr s \/ exists i, c = ARef i /\ is_text h i s) ->
    exists h', xml_insert h self (insert_arg x) index = EOk h' /\ hp h (nxt h) = None /\ hp h' (nxt h) = Some (OText s (Some self)) /\
    hp h' self = Some (OElem n a (firstn (position index (length ks)) ks ++ nxt h :: skipn (position index (length ks)) ks) p) /\
    (forall k, k <> self -> k <> nxt h -> hp h' k = hp h k) /\ nxt h' = S (nxt h) /\ nxt h <> self /\ allocated h').
  { intros c s -> Hc. destruct (insert_text_at h self n a ks p c s index Hs Hal Hc) as (h' & H1 & H2 & H3 & H4 & H5).
    pose proof (Hal _ _ Hs) as Hl.
    destruct (insert_text_eq h self c s index h' n a ks p Hs Hl Hc H1) as (Hn & _).
    exists h'. do 6 (split; [assumption|]). split; [lia|]. intros j o Ho. rewrite Hn.
    destruct (Nat.eq_dec j self) as [->|Hj]; [lia|]. destruct (Nat.eq_dec j (nxt h)) as [->|Hj2]; [lia|].
    rewrite H5 in Ho by auto. apply Hal in Ho. lia. }
  destruct x as [i|s|d].
  - destruct Hu as (Hne & [n1 a1 k1 p1|s1 p1] & Hi).
    + assert (He : is_elem h i) by (do 4 eexists; exact Hi).
      destruct (insert_elem_at h self n a ks p i index Hs He Hne) as (h' & H1 & H2 & H3 & H4).
      destruct (insert_elem_eq h self i index h' n a ks p Hs He H1) as (Hn & _).
      exists h', i. split; [exact H1|]. split; [econstructor; [exact Hi|]; rewrite (H3 _ Hi); reflexivity|].
      split; [exact H2|]. split; [exact H4|]. rewrite Hn. split; [lia|]. split; [apply (Hal _ _ Hi)|].
      split; [rewrite Hi; discriminate|]. split; [exact Hne|].
      intros j o Ho. rewrite Hn. destruct (Nat.eq_dec j self) as [->|Hj]; [apply (Hal _ _ Hs)|].
      destruct (Nat.eq_dec j i) as [->|Hj2]; [apply (Hal _ _ Hi)|]. rewrite H4 in Ho by auto. apply (Hal _ _ Ho).
    + destruct (Htext (ARef i) s1 eq_refl) as (h' & H1 & H2 & H3 & H4 & H5 & H6 & H7 & H8); [right; exists i; split; [reflexivity|]; exists p1; exact Hi|].
      exists h', (nxt h). split; [exact H1|]. split; [econstructor 2; eauto|]. split; [exact H4|]. split; [exact H5|].
      rewrite H6. split; [lia|]. split; [lia|]. split; [auto|]. split; assumption.
  - destruct (Htext (AStr s) s eq_refl) as (h' & H1 & H2 & H3 & H4 & H5 & H6 & H7 & H8); [left; reflexivity|].
    exists h', (nxt h). split; [exact H1|]. split; [constructor; auto|]. split; [exact H4|]. split; [exact H5|].
    rewrite H6. split; [lia|]. split; [lia|]. split; [auto|]. split; assumption.
  - destruct (Htext (AStr []) [] eq_refl) as (h' & H1 & H2 & H3 & H4 & H5 & H6 & H7 & H8); [left; reflexivity|].
    exists h', (nxt h). split; [exact H1|]. split; [constructor; auto|]. split; [exact H4|]. split; [exact H5|].
    rewrite H6. split; [lia|]. split; [lia|]. split; [auto|]. split; assumption.
Qed.

Lemma append_child h self n a ks p x : hp h self = Some (OElem n a ks p) -> allocated h -> usable h self x ->
  exists h' j, h_appendChild h self x = EOk h' /\ placed h h' self x j /\
    hp h' self = Some (OElem n a (ks ++ [j]) p) /\ (forall k, k <> self -> k <> j -> hp h' k = hp h k).
Proof.
  intros Hs Hal Hu. destruct (placed_insert h self n a ks p x (-1) Hs Hal Hu) as (h' & j & H1 & H2 & H3 & H4 & _).
  exists h', j. split; [exact H1|]. split; [exact H2|]. split; [|exact H4]. rewrite H3. unfold position. cbn [Z.eqb Pos.eqb].
  rewrite firstn_all, skipn_all. reflexivity.
Qed.

Lemma insert_before h self n a k1 r k2 p x y : hp h self = Some (OElem n a (k1 ++ r :: k2) p) -> allocated h -> usable h self x ->
  equals h y r -> Forall (fun k => ~ equals h y k) k1 ->
  exists h' j, h_insertBefore h self x y = EOk h' /\ placed h h' self x j /\
    hp h' self = Some (OElem n a (k1 ++ j :: r :: k2) p) /\ (forall k, k <> self -> k <> j -> hp h' k = hp h k).
Proof.
  intros Hs Hal Hu Hy Hk. destruct (placed_insert h self n a _ p x (Z.of_nat (length k1)) Hs Hal Hu) as (h' & j & H1 & H2 & H3 & H4 & _).
  exists h', j. split.
  { unfold h_insertBefore. rewrite Hs. rewrite (find_index_split _ k1 r k2); [exact H1| |].
    - apply equals_live. exact Hy.
    - intros z Hz. apply not_equals. rewrite Forall_forall in Hk. auto. }
  split; [exact H2|]. split; [|exact H4]. rewrite H3.
  assert (Hp : position (Z.of_nat (length k1)) (length (k1 ++ r :: k2)) = length k1).
  { unfold position. destruct (Z.eqb_spec (Z.of_nat (length k1)) (-1)); [lia|]. destruct (Z.ltb_spec (Z.of_nat (length k1)) 0); [lia|].
    rewrite Nat2Z.id, app_length. lia. }
  rewrite Hp, firstn_app, Nat.sub_diag, firstn_all, skipn_app, Nat.sub_diag, skipn_all. cbn [firstn skipn app]. rewrite app_nil_r. reflexivity.
Qed.
Lemma insert_before_missing h self n a ks p x y : hp h self = Some (OElem n a ks p) -> Forall (fun k => ~ equals h y k) ks ->
  h_insertBefore h self x y = EExn h ValueErr_.
Proof.
  intros Hs Hk. unfold h_insertBefore. rewrite Hs, find_index_none; [reflexivity|]. intros z Hz. apply not_equals.
  rewrite Forall_forall in Hk. auto.
Qed.
Lemma elem_equals h i r : is_elem h i -> equals h (HRef i) r <-> r = i.
Proof.
  intros (n & a & ks & p & Hi). cbn [equals]. split.
  - intros [H|(s & _ & (q & H))]; [exact H|congruence].
  - auto.
Qed.

Lemma insert_before_elem h self n a k1 i k2 p x : hp h self = Some (OElem n a (k1 ++ i :: k2) p) -> allocated h -> usable h self x ->
  is_elem h i -> ~ In i k1 ->
  exists h' j, h_insertBefore h self x (HRef i) = EOk h' /\ placed h h' self x j /\
    hp h' self = Some (OElem n a (k1 ++ j :: i :: k2) p) /\ (forall k, k <> self -> k <> j -> hp h' k = hp h k).
Proof.
  intros Hs Hal Hu Hi Hn. apply insert_before; auto; [left; reflexivity|]. apply Forall_forall. intros k Hk He.
  apply (elem_equals _ _ _ Hi) in He. subst. contradiction.
Qed.

(** ** insertText *)
Lemma insert_text_end h self n a ks p s : hp h self = Some (OElem n a ks p) -> allocated h ->
  exists h' j, h_insertText h self s None = EOk h' /\ hp h j = None /\ hp h' j = Some (OText s (Some self)) /\
    hp h' self = Some (OElem n a (ks ++ [j]) p) /\ (forall k, k <> self -> k <> j -> hp h' k = hp h k).
Proof.
  intros Hs Hal. destruct (append_child h self n a ks p (HStr s) Hs Hal I) as (h' & j & H1 & H2 & H3 & H4).
  exists h', j. inversion H2; subst. auto.
Qed.
Lemma insert_text_elem h self n a k1 i k2 p s : hp h self = Some (OElem n a (k1 ++ i :: k2) p) -> allocated h -> is_elem h i -> ~ In i k1 ->
  exists h' j, h_insertText h self s (Some (HRef i)) = EOk h' /\ hp h j = None /\ hp h' j = Some (OText s (Some self)) /\
    hp h' self = Some (OElem n a (k1 ++ j :: i :: k2) p) /\ (forall k, k <> self -> k <> j -> hp h' k = hp h k).
Proof.
  intros Hs Hal Hi Hn. destruct (insert_before_elem h self n a k1 i k2 p (HStr s) Hs Hal I Hi Hn) as (h' & j & H1 & H2 & H3 & H4).
  exists h', j. unfold h_insertText, harg_truthy. pose proof Hi as (n1 & a1 & ks1 & p1 & Hi'). rewrite Hi'. inversion H2; subst. auto.
Qed.
Lemma insert_text_empty h self n a ks p i s : hp h self = Some (OElem n a ks p) -> allocated h -> is_text h i [] ->
  h_insertText h self s (Some (HRef i)) = h_insertText h self s None.
Proof. intros Hs Hal (q & Hi). unfold h_insertText, harg_truthy. rewrite Hi. reflexivity. Qed.

(** ** removeChild *)
Lemma remove_child h self n a k1 r k2 p y : hp h self = Some (OElem n a (k1 ++ r :: k2) p) ->
  equals h y r -> Forall (fun k => ~ equals h y k) k1 ->
  exists h', h_removeChild h self y = EOk h' /\ nxt h' = nxt h /\ hp h' self = Some (OElem n a (k1 ++ k2) p) /\ (forall k, k <> self -> hp h' k = hp h k).
Proof.
  intros Hs Hy Hk. unfold h_removeChild. rewrite Hs. apply equals_live in Hy.
  assert (Hk' : forall z, In z k1 -> harg_eqb h y z = false) by (intros z Hz; apply not_equals; rewrite Forall_forall in Hk; auto).
  rewrite existsb_split by exact Hy. rewrite remove_first_split by assumption. eexists. split; [reflexivity|]. split; [reflexivity|].
  split; [apply hp_upd_same|]. intros k Hne. apply hp_upd_other. exact Hne.
Qed.
Lemma remove_child_missing h self n a ks p y : hp h self = Some (OElem n a ks p) -> Forall (fun k => ~ equals h y k) ks ->
  h_removeChild h self y = EExn h ValueErr_.
Proof.
  intros Hs Hk. unfold h_removeChild. rewrite Hs, existsb_none; [reflexivity|]. intros z Hz. apply not_equals.
  rewrite Forall_forall in Hk. auto.
Qed.
(** The removed element still names the old parent. *)
Lemma remove_child_stale h self i : well_linked h -> is_elem h i -> child h self i ->
  exists h', h_removeChild h self (HRef i) = EOk h' /\ ~ child h' self i /\ xml_parent h' i = Some self /\ ~ well_linked h'.
Proof.
  intros (Hb & Hl & Hd & Hall) Hi (o & Ho & Hin).
  destruct o as [n a ks p|s p]; [|destruct Hin]. cbn [okids] in Hin.
  assert (Hnd : NoDup ks) by (apply (Hd self _ Ho)).
  apply in_split in Hin as (k1 & k2 & ->).
  assert (Hn1 : ~ In i k1 /\ ~ In i k2).
  { apply NoDup_remove_2 in Hnd. split; intros H; apply Hnd, in_or_app; auto. }
  destruct (remove_child h self n a k1 i k2 p (HRef i) Ho (or_introl eq_refl)) as (h' & H1 & H2 & H3 & H4).
  { apply Forall_forall. intros k Hk He. apply (elem_equals _ _ _ Hi) in He. subst. tauto. }
  exists h'. split; [exact H1|].
  assert (Hc : ~ child h' self i).
  { intros (o' & Ho' & Hin'). rewrite H3 in Ho'. inversion Ho'; subst. cbn [okids] in Hin'. apply in_app_or in Hin'. tauto. }
  split; [exact Hc|].
  assert (Hpar : parent_is h i (Some self)). { apply Hl. eexists. split; [exact Ho|]. cbn. apply in_or_app. right; left; reflexivity. }
  assert (His : i <> self).
  { intros ->. destruct (Hall _ _ Ho) as (t & ids & Ht & Hnn). inversion Ht as [q i0 n0 a0 is ks0 idss E1 E2|]; subst; [|congruence].
    rewrite Ho in E1. inversion E1; subst. apply NoDup_cons_iff in Hnn as [Hnn _]. apply Hnn.
    clear - E2. remember (k1 ++ self :: k2) as is eqn:E. assert (Hin : In self is) by (subst; apply in_or_app; right; left; reflexivity). clear E.
    induction E2 as [|q i is t ts ids idss E1 E2 IH]; [destruct Hin|]. apply in_or_app. destruct Hin as [->|Hin]; [left|right; auto].
    inversion E1; subst; left; reflexivity. }
  assert (Hpar' : parent_is h' i (Some self)) by (destruct Hpar as (oi & E1 & E2); exists oi; rewrite H4 by exact His; auto).
  split.
  - destruct Hpar' as (oi & E1 & E2). unfold xml_parent. rewrite E1, E2, H3. reflexivity.
  - intros (_ & Hl' & _). apply Hc, Hl', Hpar'.
Qed.

(** Heaps that show the same objects. *)
Definition heap_eq (h h' : heap) : Prop := nxt h = nxt h' /\ forall j, hp h j = hp h' j.
Lemma heap_eq_child h h' p i : heap_eq h h' -> child h p i -> child h' p i.
Proof. intros (_ & He) (o & H1 & H2). exists o. rewrite <- He. auto. Qed.
Lemma heap_eq_sym h h' : heap_eq h h' -> heap_eq h' h.
Proof. intros (H1 & H2). split; auto. Qed.
Lemma heap_eq_parent h h' i p : heap_eq h h' -> parent_is h i p -> parent_is h' i p.
Proof. intros (_ & He) (o & H1 & H2). exists o. rewrite <- He. auto. Qed.
Lemma heap_eq_linked h h' : heap_eq h h' -> well_linked h -> well_linked h'.
Proof.
  intros He (Hb & Hl & Hd & Hall). pose proof He as (Hn & Hh). split; [|split; [|split]].
  - intros i o Ho. rewrite <- Hn. rewrite <- Hh in Ho. eauto.
  - intros p i. split; intros H.
    + apply (heap_eq_parent h); [exact He|]. apply Hl. apply (heap_eq_child h'); [apply heap_eq_sym; exact He|exact H].
    + apply (heap_eq_child h); [exact He|]. apply Hl. apply (heap_eq_parent h'); [apply heap_eq_sym; exact He|exact H].
  - intros i o Ho. rewrite <- Hh in Ho. eauto.
  - intros i o Ho. rewrite <- Hh in Ho. destruct (Hall _ _ Ho) as (t & ids & Ht & Hd'). exists t, ids. split; [|exact Hd'].
    apply (proj1 (holds_same h h')); [exact Ht|]. intros; symmetry; apply Hh.
Qed.

(** Moving an element with removeChild and appendChild or insertBefore keeps the tree consistent. *)
Lemma below_mono h h' i x : (forall p j, child h p j -> child h' p j) -> below h i x -> below h' i x.
Proof. intros Hc H. induction H as [|p j k H IH Hk]; [constructor|]. econstructor 2; [exact IH|]. apply Hc, Hk. Qed.

Lemma move_linked h self q i index h1 h2 : well_linked h -> is_elem h i -> child h self i -> ~ below h i q -> 
  h_removeChild h self (HRef i) = EOk h1 -> xml_insert h1 q (ARef i) index = EOk h2 -> well_linked h2.
Proof.
  intros Hw Hi Hc Hnb H1 H2. pose proof Hw as (Hb & Hl & Hd & Hall). pose proof Hc as (o & Ho & Hin).
  destruct o as [n a ks p|s p]; [|destruct Hin]. cbn [okids] in Hin.
  assert (Hsi : i <> self).
  { destruct (remove_child_stale h self i Hw Hi Hc) as (h' & A1 & A2 & A3 & A4). intros ->. apply A2.
    exfalso. destruct (Hall _ _ Ho) as (t & ids & Ht & Hnn). inversion Ht as [z i0 n0 a0 is ks0 idss E1 E2|]; subst; [|congruence].
    rewrite Ho in E1. inversion E1; subst. apply NoDup_cons_iff in Hnn as [Hnn _]. apply Hnn.
    clear - E2 Hin. induction E2 as [|q i is t ts ids idss E1 E2 IH]; [destruct Hin|]. apply in_or_app. destruct Hin as [->|Hin]; [left|right; auto].
    inversion E1; subst; left; reflexivity. }
  destruct (remove_elem_cases h self i n a ks p Ho Hi Hsi) as [(_ & h1' & B1 & B2 & B3 & B4 & B5)|(Hx & _)]; [|contradiction].
  assert (Hw1 : well_linked h1') by (eapply remove_elem_well_linked; eauto).
  pose proof Hi as (n1 & a1 & c1 & p1 & Hi').
  (* the two heaps after removal differ in the parent of [i] only *)
  assert (Hd1 : nxt h1 = nxt h /\ hp h1 self = Some (OElem n a (without i ks) p) /\ forall k, k <> self -> hp h1 k = hp h k).
  { pose proof (Hd self _ Ho) as Hnd. cbn [okids] in Hnd. destruct (without_split i ks Hin) as (k1 & k2 & -> & -> & Hk1).
    destruct (remove_child h self n a k1 i k2 p (HRef i) Ho (or_introl eq_refl)) as (h1'' & C1 & C2 & C3 & C4).
    { apply Forall_forall. intros k Hk He. apply (elem_equals _ _ _ Hi) in He. subst. tauto. }
    rewrite H1 in C1. inversion C1; subst. auto. }
  destruct Hd1 as (D1 & D2 & D3).
  assert (Hi1 : is_elem h1' i) by (do 4 eexists; rewrite (B4 _ Hi'); reflexivity).
  assert (Hi2 : is_elem h1 i) by (do 4 eexists; rewrite D3 by exact Hsi; exact Hi').
  assert (Hqi : q <> i) by (intros ->; apply Hnb; constructor).
  assert (Hq : exists nq aq kq pq, hp h1 q = Some (OElem nq aq kq pq)).
  { unfold xml_insert in H2. destruct (hp h1 q) as [[nq aq kq pq|]|] eqn:E; try discriminate. do 4 eexists; reflexivity. }
  destruct Hq as (nq & aq & kq & pq & Hq).
  assert (Hq' : hp h1' q = Some (OElem nq aq kq pq)).
  { destruct (Nat.eq_dec q self) as [->|Hqs]; [congruence|]. rewrite B5 by auto. rewrite <- D3 by auto. exact Hq. }
  destruct (insert_elem_at h1' q nq aq kq pq i index Hq' Hi1 (not_eq_sym Hqi)) as (h2' & E1 & E2 & E3 & E4).
  destruct (insert_elem_at h1 q nq aq kq pq i index Hq Hi2 (not_eq_sym Hqi)) as (h2'' & F1 & F2 & F3 & F4).
  rewrite H2 in F1. inversion F1; subst h2''.
  destruct (insert_elem_eq h1' q i index h2' nq aq kq pq Hq' Hi1 E1) as (G1 & _).
  destruct (insert_elem_eq h1 q i index h2 nq aq kq pq Hq Hi2 H2) as (G2 & _).
  assert (Hw2 : well_linked h2').
  { eapply (insert_elem_well_linked h1' q i index h2'); [exact Hw1|exact Hi1| | |exact E1].
    - eexists. split; [apply (B4 _ Hi')|reflexivity].
    - intros Hbl. apply Hnb. eapply below_mono; [|exact Hbl]. intros z j (oz & Z1 & Z2).
      destruct (Nat.eq_dec z self) as [->|Hzs].
      + rewrite B3 in Z1. inversion Z1; subst. cbn [okids] in Z2. exists (OElem n a ks p). split; [exact Ho|]. cbn [okids].
        destruct (without_split i ks Hin) as (k1 & k2 & -> & Hwo & _). rewrite Hwo in Z2. apply in_or_app. apply in_app_or in Z2 as [Z2|Z2]; [left|right; right]; exact Z2.
      + destruct (Nat.eq_dec z i) as [->|Hzi].
        * rewrite (B4 _ Hi') in Z1. inversion Z1; subst. cbn [okids set_parent] in Z2. eexists. split; [exact Hi'|exact Z2].
        * rewrite B5 in Z1 by auto. exists oz. auto. }
  eapply heap_eq_linked; [|exact Hw2]. split; [congruence|]. intros j.
  destruct (Nat.eq_dec j q) as [->|Hjq]; [congruence|]. destruct (Nat.eq_dec j i) as [->|Hji].
  - pose proof (B4 _ Hi') as B4'. rewrite (E3 _ B4'). rewrite (F3 (OElem n1 a1 c1 p1)) by (rewrite D3 by auto; exact Hi'). reflexivity.
  - rewrite E4, F4 by auto. destruct (Nat.eq_dec j self) as [->|Hjs]; [congruence|]. rewrite B5, D3 by auto. reflexivity.
Qed.

(** ** cloneNode, hasContent *)
Lemma clone_node h self n a ks p : hp h self = Some (OElem n a ks p) -> allocated h ->
  exists h' j, h_cloneNode h self = Some (h', j) /\ hp h j = None /\ hp h' j = Some (OElem n a [] None) /\ (forall k, k <> j -> hp h' k = hp h k).
Proof.
  intros Hs Hal. unfold h_cloneNode. rewrite Hs. do 2 eexists. split; [reflexivity|]. cbn [hp].
  split; [destruct (hp h (nxt h)) eqn:E; [apply Hal in E; lia|reflexivity]|]. rewrite Nat.eqb_refl. split; [reflexivity|].
  intros k Hk. destruct (Nat.eqb_spec k (nxt h)); [contradiction|reflexivity].
Qed.
Lemma clone_linked h self h' j : well_linked h -> h_cloneNode h self = Some (h', j) -> well_linked h'.
Proof.
  intros (Hb & Hl & Hd & Hall) H. unfold h_cloneNode in H. destruct (hp h self) as [[n a ks p|]|] eqn:Hs; try discriminate. inversion H; subst.
  assert (Hf : hp h (nxt h) = None) by (destruct (hp h (nxt h)) eqn:E; [apply Hb in E; lia|reflexivity]).
  assert (Ho : forall k, k <> nxt h -> (if Nat.eqb k (nxt h) then Some (OElem n a [] None) else hp h k) = hp h k).
  { intros k Hk. destruct (Nat.eqb_spec k (nxt h)); [contradiction|reflexivity]. }
  split; [|split; [|split]].
  - cbn [hp nxt]. intros i o Hi. destruct (Nat.eqb_spec i (nxt h)); [lia|]. apply Hb in Hi. lia.
  - intros q i. unfold child, parent_is. cbn [hp]. split.
    + intros (o & H1 & H2). destruct (Nat.eqb_spec q (nxt h)).
      * inversion H1; subst. destruct H2.
      * assert (Hp : parent_is h i (Some q)) by (apply Hl; exists o; auto). destruct Hp as (oi & P1 & P2). exists oi. rewrite Ho; [auto|].
        intros ->. congruence.
    + intros (o & H1 & H2). destruct (Nat.eqb_spec i (nxt h)).
      * inversion H1; subst. discriminate.
      * assert (Hp : child h q i) by (apply Hl; exists o; auto). destruct Hp as (oi & P1 & P2). exists oi. rewrite Ho; [auto|].
        intros ->. congruence.
  - intros i o Hi. cbn [hp] in Hi. destruct (Nat.eqb_spec i (nxt h)); [inversion Hi; constructor|]. eauto.
  - intros i o Hi. cbn [hp] in Hi. destruct (Nat.eqb_spec i (nxt h)).
    + subst. inversion Hi; subst. exists (XE n a []), [nxt h]. split; [|constructor; [intros []|constructor]].
      econstructor; [cbn [hp]; rewrite Nat.eqb_refl; reflexivity|constructor].
    + destruct (Hall _ _ Hi) as (t & ids & Ht & Hnd). exists t, ids. split; [|exact Hnd].
      apply (proj1 (holds_same h _)); [exact Ht|]. intros k Hk. cbn [hp]. apply Ho. intros ->.
      destruct (proj1 (holds_live h) _ _ _ _ Ht _ Hk) as (ok & Hok). congruence.
Qed.
Lemma has_content h self o : hp h self = Some o -> h_hasContent h self = true <-> exists i, child h self i.
Proof.
  intros Ho. unfold h_hasContent. rewrite Ho. split.
  - destruct (okids o) as [|k ks] eqn:E; [discriminate|]. intros _. exists k, o. split; [exact Ho|]. rewrite E. left; reflexivity.
  - intros (i & o' & H1 & H2). rewrite Ho in H1. inversion H1; subst. destruct (okids o') as [|k ks]; [destruct H2|reflexivity].
Qed.

(** ** childNodes *)
Definition fresh_in (h : heap) (j : ref) : bool := match hp h j with None => true | Some _ => false end.
Lemma fresh_alloc h j : allocated h -> nxt h <= j -> hp h j = None.
Proof. intros Hal Hj. destruct (hp h j) eqn:E; [|reflexivity]. apply Hal in E. lia. Qed.

Lemma append_all_placed l : forall h self n a ks p, hp h self = Some (OElem n a ks p) -> allocated h -> Forall (usable h self) l ->
  exists h' js, append_all h self l = EOk h' /\ Forall2 (placed h h' self) l js /\ hp h' self = Some (OElem n a (ks ++ js) p) /\
    NoDup (filter (fresh_in h) js) /\ (forall j, In j js -> hp h j = None -> nxt h <= j) /\
    (forall k, k <> self -> ~ In k js -> hp h' k = hp h k) /\ ~ In self js.
Proof.
  induction l as [|x l IH]; intros h self n a ks p Hs Hal Hu.
  - exists h, []. split; [reflexivity|]. split; [constructor|]. rewrite app_nil_r. split; [exact Hs|]. split; [constructor|].
    split; [intros j []|]. split; [auto|intros []].
  - pose proof (Forall_inv Hu) as Hux. apply Forall_inv_tail in Hu.
    destruct (placed_insert h self n a ks p x (-1) Hs Hal Hux) as (h1 & j & H1 & H2 & H3 & H4 & H5 & H6 & H7 & H8 & H9).
    unfold position in H3. cbn [Z.eqb Pos.eqb] in H3. rewrite firstn_all, skipn_all in H3.
    assert (Hkeep : forall i o, hp h i = Some o -> exists o', hp h1 i = Some o').
    { intros i o Hi. destruct (Nat.eq_dec i self) as [->|His]; [eauto|]. destruct (Nat.eq_dec i j) as [->|Hij].
      - inversion H2; subst; try congruence; eauto.
      - rewrite H4 by auto. eauto. }
    assert (Hu1 : Forall (usable h1 self) l).
    { eapply Forall_impl; [|exact Hu]. intros [i|s|d]; cbn [usable]; auto. intros (Hi & o & Ho). split; [exact Hi|]. eauto. }
    destruct (IH h1 self n a (ks ++ [j]) p H3 H9 Hu1) as (h' & js & J1 & J2 & J3 & J4 & J5 & J6 & J7).
    assert (Hfr : forall z, In z js -> hp h1 z = None -> hp h z = None /\ z <> j).
    { intros z Hz Hz1. pose proof (J5 z Hz Hz1) as Hge. split; [apply fresh_alloc; [exact Hal|lia]|lia]. }
    (* new nodes of the rest are not old, except those already there *)
    assert (Hold : forall z, In z js -> z <> j -> hp h z = None -> hp h1 z = None).
    { intros z Hz Hzj Hz0. rewrite H4; auto. intros ->. congruence. }
    exists h', (j :: js). split; [|split; [|split; [|split; [|split; [|split]]]]].
    + cbn [append_all]. unfold xml_append. rewrite H1. exact J1.
    + constructor.
      * assert (Hj' : hp h1 j = hp h' j \/ In j js) by (destruct (in_dec Nat.eq_dec j js) as [Hi|Hi]; [right; exact Hi|left; symmetry; apply J6; auto]).
        assert (Hstay : forall o, hp h1 j = Some o -> oparent o = Some self -> hp h' j = Some o).
        { intros o Ho Hp. destruct Hj' as [E|Hin]; [congruence|]. destruct (Forall2_in_r _ _ _ J2 _ Hin) as (y & Hy & Hpl).
          inversion Hpl; subst; try congruence. rewrite Ho in H. inversion H; subst. cbn [oparent] in Hp. subst. exact H0. }
        inversion H2; subst; [econstructor 1|econstructor 2|econstructor 3|econstructor 4]; eauto.
      * eapply Forall2_impl_in; [|exact J2]. intros y z Hy Hz Hpl.
        assert (Huy : usable h self y) by (rewrite Forall_forall in Hu; auto).
        assert (Hfresh : hp h1 z = None -> hp h z = None) by (intros E; apply (Hfr z Hz E)).
        inversion Hpl as [i n1 a1 k1 p1 E1 E2|i s1 p1 j1 E1 E2 E3|s1 j1 E1 E2|d1 j1 E1 E2]; subst.
        -- destruct Huy as (Hne & oz & Hoz). destruct (Nat.eq_dec z j) as [->|Hzj].
           ++ inversion H2 as [i2 n2 a2 k2 p2 F1 F2|i2 s2 p2 j2 F1 F2 F3|s2 j2 F1 F2|d2 j2 F1 F2]; subst; try congruence.
              rewrite F2 in E1. inversion E1; subst. econstructor; [exact F1|exact E2].
           ++ rewrite H4 in E1 by auto. econstructor; eauto.
        -- destruct Huy as (Hne & oz & Hoz). assert (Hij : i <> j).
           { intros ->. inversion H2; subst; congruence. }
           rewrite H4 in E1 by auto. econstructor 2; eauto.
        -- constructor; auto.
        -- constructor; auto.
    + rewrite J3, <- app_assoc. reflexivity.
    + cbn [filter]. assert (Hsub : NoDup (filter (fresh_in h) js) /\ (fresh_in h j = true -> ~ In j js)).
      { split.
        - assert (Heq : filter (fresh_in h) js = filter (fresh_in h1) js \/ exists z, In z js /\ fresh_in h z <> fresh_in h1 z).
          { clear - js. induction js as [|z js IHj]; [left; reflexivity|]. destruct (bool_dec (fresh_in h z) (fresh_in h1 z)) as [E|E].
            - cbn [filter]. rewrite E. destruct IHj as [-> | (y & Hy & Hy')]; [left; reflexivity|right; exists y; split; [right; exact Hy|exact Hy']].
            - right. exists z. split; [left; reflexivity|exact E]. }
          destruct Heq as [-> |(z & Hz & Hne)]; [exact J4|exfalso]. apply Hne. unfold fresh_in.
          destruct (hp h1 z) as [oz|] eqn:E1.
          + destruct (hp h z) eqn:E0; [reflexivity|]. exfalso. destruct (Nat.eq_dec z j) as [->|Hzj]; [|rewrite (Hold z Hz Hzj E0) in E1; discriminate].
            destruct (Forall2_in_r _ _ _ J2 _ Hz) as (y & Hy & Hpl). rewrite Forall_forall in Hu. specialize (Hu y Hy).
            inversion Hpl; subst; try congruence. destruct Hu as (_ & oz' & Hoz'). congruence.
          + destruct (Hfr z Hz E1) as (-> & _). reflexivity.
        - unfold fresh_in. destruct (hp h j) eqn:E0; [discriminate|]. intros _ Hz.
          destruct (Forall2_in_r _ _ _ J2 _ Hz) as (y & Hy & Hpl). rewrite Forall_forall in Hu. specialize (Hu y Hy).
          assert (Hj1 : exists oj, hp h1 j = Some oj) by (inversion H2; subst; eauto). destruct Hj1 as (oj & Hj1).
          inversion Hpl; subst; try congruence. destruct Hu as (_ & oz' & Hoz'). congruence. }
      destruct Hsub as (Hs1 & Hs2). destruct (fresh_in h j) eqn:E; [|exact Hs1]. constructor; [|exact Hs1].
      intros Hin. apply filter_In in Hin as (Hin & _). apply (Hs2 eq_refl Hin).
    + intros z [->|Hz] E; [destruct (H7 E); lia|]. destruct (Nat.eq_dec z j) as [->|Hzj]; [destruct (H7 E); lia|].
      pose proof (J5 z Hz (Hold z Hz Hzj E)). lia.
    + intros k Hk Hn. rewrite J6, H4; auto; intros Hx; apply Hn; [left; auto|right; auto].
    + intros [Hx|Hx]; [congruence|contradiction].
Qed.
Lemma set_child_nodes h self n a ks p l : hp h self = Some (OElem n a ks p) -> allocated h -> Forall (usable h self) l ->
  exists h' js, h_set_childNodes h self l = EOk h' /\ Forall2 (placed h h' self) l js /\ hp h' self = Some (OElem n a js p) /\
    (forall a b j, nth_error js a = Some j -> nth_error js b = Some j -> hp h j = None -> a = b) /\
    (forall k, k <> self -> ~ In k js -> hp h' k = hp h k).
Proof.
  intros Hs Hal Hu. unfold h_set_childNodes. rewrite Hs. set (h1 := upd h self (OElem n a [] p)).
  assert (Hs1 : hp h1 self = Some (OElem n a [] p)) by apply hp_upd_same.
  assert (Ho : forall k, k <> self -> hp h1 k = hp h k) by (intros k Hk; apply hp_upd_other; exact Hk).
  assert (Hal1 : allocated h1).
  { intros j o Hj. cbn [h1 upd nxt]. destruct (Nat.eq_dec j self) as [->|Hjs]; [apply (Hal _ _ Hs)|]. rewrite Ho in Hj by auto. apply (Hal _ _ Hj). }
  assert (Hu1 : Forall (usable h1 self) l).
  { eapply Forall_impl; [|exact Hu]. intros [i|s|d]; cbn [usable]; auto. intros (Hi & o & Hoi). split; [exact Hi|]. rewrite Ho by auto. eauto. }
  destruct (append_all_placed l h1 self n a [] p Hs1 Hal1 Hu1) as (h' & js & J1 & J2 & J3 & J4 & J5 & J6 & J7).
  exists h', js. split; [exact J1|]. split; [|split; [exact J3|split]].
  - eapply Forall2_impl_in; [|exact J2]. intros y z Hy Hz Hpl. rewrite Forall_forall in Hu. specialize (Hu y Hy).
    assert (Hzs : z <> self) by (intros ->; contradiction).
    inversion Hpl as [i n1 a1 k1 p1 E1 E2|i s1 p1 j1 E1 E2 E3|s1 j1 E1 E2|d1 j1 E1 E2]; subst.
    + rewrite Ho in E1 by auto. econstructor; eauto.
    + destruct Hu as (Hne & _). rewrite Ho in E1 by auto. rewrite Ho in E2 by auto. econstructor 2; eauto.
    + rewrite Ho in E1 by auto. constructor; auto.
    + rewrite Ho in E1 by auto. constructor; auto.
  - assert (Hfr : forall j, In j js -> hp h j = None -> fresh_in h1 j = true).
    { intros j Hj Hn. unfold fresh_in. rewrite Ho, Hn; [reflexivity|]. intros ->. contradiction. }
    clear - J4 Hfr. induction js as [|z js IH]; intros x y j Hx Hy Hn; [destruct x; discriminate|].
    assert (Hz : forall w, nth_error js w = Some z -> hp h z = None -> False).
    { intros w Hw Hnz. cbn [filter] in J4. rewrite (Hfr z (or_introl eq_refl) Hnz) in J4. apply NoDup_cons_iff in J4 as (J4 & _).
      apply J4. apply filter_In. split; [eapply nth_error_In; exact Hw|apply Hfr; [left; reflexivity|exact Hnz]]. }
    destruct x as [|x], y as [|y]; cbn [nth_error] in Hx, Hy.
    + reflexivity.
    + inversion Hx; subst. exfalso. eauto.
    + inversion Hy; subst. exfalso. eauto.
    + f_equal. eapply IH; eauto.
      * cbn [filter] in J4. destruct (fresh_in h1 z); [apply NoDup_cons_iff in J4; tauto|exact J4].
      * intros w Hw. apply Hfr. right; exact Hw.
  - intros k Hk Hn. rewrite J6 by auto. apply Ho. exact Hk.
Qed.

(** ** Attributes and names *)
Lemma after_colon_app s : forall w, ~ In 58%N s -> after_colon w s = rev w ++ s.
Proof.
  induction s as [|c s IH]; intros w Hn; cbn [after_colon]; [rewrite app_nil_r; reflexivity|].
  destruct (N.eqb_spec c 58); [subst; exfalso; apply Hn; left; reflexivity|]. rewrite IH; [|intros H; apply Hn; right; exact H].
  cbn [rev]. rewrite <- app_assoc. reflexivity.
Qed.
Lemma after_colon_split pre : forall w s, ~ In 58%N s -> after_colon w (pre ++ 58%N :: s) = s.
Proof.
  induction pre as [|c pre IH]; intros w s Hn; cbn [app after_colon].
  - cbn [N.eqb Pos.eqb]. rewrite after_colon_app by exact Hn. reflexivity.
  - destruct (N.eqb c 58); apply IH; exact Hn.
Qed.
Lemma after_colon_none s : forall w, ~ In 58%N w -> ~ In 58%N (after_colon w s).
Proof.
  induction s as [|c s IH]; intros w Hw; cbn [after_colon].
  - rewrite <- in_rev. exact Hw.
  - destruct (N.eqb_spec c 58); apply IH; [intros []|]. intros [H|H]; auto.
Qed.
Lemma last_colon (s : str) : In 58%N s -> exists pre loc, s = pre ++ 58%N :: loc /\ ~ In 58%N loc.
Proof.
  induction s as [|c s IH]; [intros []|]. intros H. destruct (in_dec N.eq_dec 58%N s) as [Hi|Hi].
  - destruct (IH Hi) as (pre & loc & -> & Hn). exists (c :: pre), loc. split; [reflexivity|exact Hn].
  - destruct H as [->|H]; [|contradiction]. exists [], s. split; [reflexivity|exact Hi].
Qed.
Lemma local_spec k name : qname_to_local k = name <-> (~ In 58%N k /\ name = k) \/ exists pre, k = pre ++ 58%N :: name /\ ~ In 58%N name.
Proof.
  unfold qname_to_local. split.
  - intros <-. destruct (in_dec N.eq_dec 58%N k) as [Hi|Hi].
    + right. destruct (last_colon k Hi) as (pre & loc & -> & Hn). exists pre. rewrite after_colon_split by exact Hn. auto.
    + left. split; [exact Hi|]. rewrite after_colon_app by exact Hi. reflexivity.
  - intros [(Hn & ->)|(pre & -> & Hn)]; [apply (after_colon_app k [] Hn)|apply after_colon_split; exact Hn].
Qed.
Lemma starts_with_spec p s : starts_with p s = true <-> exists r, s = p ++ r.
Proof.
  revert s. induction p as [|c p IH]; intros s; cbn [starts_with app]; [split; [intros _; exists s; reflexivity|reflexivity]|].
  destruct s as [|d s]; [split; [discriminate|intros (r & H); discriminate]|]. rewrite andb_true_iff, N.eqb_eq, IH. split.
  - intros (-> & r & ->). exists r. reflexivity.
  - intros (r & H). inversion H; subst. split; [reflexivity|]. exists r. reflexivity.
Qed.

(** One step of the assignment. *)
Lemma set_attributes_app a l1 : forall l2, set_attributes a (l1 ++ l2) = set_attributes (set_attributes a l1) l2.
Proof.
  revert a. induction l1 as [|[k v] l1 IH]; intros a l2; [reflexivity|]. cbn [app set_attributes]. destruct k as [s|pf s ns].
  - destruct (starts_with (lit "xmlns") s); apply IH.
  - apply IH.
Qed.
Lemma set_attr_hit a k v name : attr_of k name -> dict_get (set_attributes a [(k, v)]) name = Some v.
Proof.
  destruct k as [s|pf s ns]; cbn [attr_of set_attributes].
  - intros (-> & Hx). destruct (starts_with (lit "xmlns") name) eqn:E; [apply starts_with_spec in E; contradiction|].
    rewrite dict_get_set, str_eqb_refl. reflexivity.
  - intros H. apply local_spec in H. rewrite H, dict_get_set, str_eqb_refl. reflexivity.
Qed.
Lemma set_attr_miss a k v name : ~ attr_of k name -> dict_get (set_attributes a [(k, v)]) name = dict_get a name.
Proof.
  destruct k as [s|pf s ns]; cbn [attr_of set_attributes].
  - intros Hn. destruct (starts_with (lit "xmlns") s) eqn:E; [reflexivity|]. rewrite dict_get_set.
    destruct (str_eqb s name) eqn:E2; [|reflexivity]. apply str_eqb_eq in E2. exfalso. apply Hn. split; [exact E2|].
    intros Hr. apply starts_with_spec in Hr. congruence.
  - intros Hn. rewrite dict_get_set. destruct (str_eqb (qname_to_local s) name) eqn:E2; [|reflexivity]. apply str_eqb_eq in E2. exfalso.
    apply Hn, local_spec, E2.
Qed.
Lemma set_attrs_miss l name : Forall (fun kv => ~ attr_of (fst kv) name) l -> forall a, dict_get (set_attributes a l) name = dict_get a name.
Proof.
  induction 1 as [|[k v] l Hk _ IH]; intros a; [reflexivity|]. change ((k, v) :: l) with ([(k, v)] ++ l). rewrite set_attributes_app, IH.
  apply set_attr_miss. exact Hk.
Qed.
Lemma set_attrs_hit l1 k v l2 name a : attr_of k name -> Forall (fun kv => ~ attr_of (fst kv) name) l2 ->
  dict_get (set_attributes a (l1 ++ (k, v) :: l2)) name = Some v.
Proof.
  intros Hk H2. change (l1 ++ (k, v) :: l2) with (l1 ++ [(k, v)] ++ l2). rewrite !set_attributes_app, set_attrs_miss by exact H2.
  apply set_attr_hit. exact Hk.
Qed.
Lemma set_attributes_heap h self n a ks p l : hp h self = Some (OElem n a ks p) ->
  exists h' a', h_set_attributes h self l = EOk h' /\ hp h' self = Some (OElem n a' ks p) /\ (forall k, k <> self -> hp h' k = hp h k) /\
    (forall name, Forall (fun kv => ~ attr_of (fst kv) name) l -> dict_get a' name = dict_get a name) /\
    (forall l1 k v l2 name, l = l1 ++ (k, v) :: l2 -> attr_of k name -> Forall (fun kv => ~ attr_of (fst kv) name) l2 -> dict_get a' name = Some v).
Proof.
  intros Hs. unfold h_set_attributes. rewrite Hs. do 2 eexists. split; [reflexivity|]. split; [apply hp_upd_same|].
  split; [intros k Hk; apply hp_upd_other; exact Hk|]. split; [intros name Hn; apply set_attrs_miss; exact Hn|].
  intros l1 k v l2 name -> Hk H2. apply set_attrs_hit; assumption.
Qed.

(** ** Element classes *)
Lemma char_in_In c s : char_in c s = true <-> In c s.
Proof.
  unfold char_in. rewrite existsb_exists. split.
  - intros (x & H & E). apply N.eqb_eq in E. subst. exact H.
  - intros H. exists c. split; [exact H|apply N.eqb_refl].
Qed.
Lemma no_colon_unnamed : ~ In 58%N unnamed.
Proof. rewrite <- char_in_In. vm_compute. discriminate. Qed.
Lemma qname_plain s : ~ In 58%N s -> qname_to_local s = s.
Proof. intros H. apply local_spec. left. auto. Qed.

Lemma opt_str_eqb_spec a b : opt_str_eqb a b = true <-> a = b.
Proof.
  destruct a as [a|], b as [b|]; cbn [opt_str_eqb]; try (split; [discriminate|congruence]); [|split; reflexivity].
  rewrite str_eqb_eq. split; congruence.
Qed.

Lemma eclass_no_colon u name ns : ~ In 58%N (x_name (eclass u name ns)).
Proof. unfold eclass. cbn [x_name]. apply after_colon_none. intros []. Qed.
Lemma eclass_plain u name ns : name <> [] -> ~ In 58%N name -> x_name (eclass u (Some name) ns) = name.
Proof. intros Hne Hn. destruct name as [|c r]; [congruence|]. unfold eclass. cbn [x_name]. apply qname_plain. exact Hn. Qed.
Lemma eclass_colon u pre loc ns : ~ In 58%N loc -> x_name (eclass u (Some (pre ++ 58%N :: loc)) ns) = loc.
Proof.
  intros Hn. unfold eclass. cbn [x_name]. assert (H : match pre ++ 58%N :: loc with [] => unnamed | c :: r => c :: r end = pre ++ 58%N :: loc) by (destruct pre; reflexivity).
  rewrite H. apply local_spec. right. exists pre. auto.
Qed.
Lemma eclass_unnamed u name ns : name = None \/ name = Some [] -> x_name (eclass u name ns) = unnamed /\ he_name (eclass u name ns) = name.
Proof. intros [-> | ->]; unfold eclass, he_name; cbn [x_name lib_name opt_truthy truthy_str]; split; try reflexivity; apply qname_plain, no_colon_unnamed. Qed.

Lemma eclass_name u name ns : he_name (eclass u name ns) = name <-> (forall s, name = Some s -> ~ In 58%N s).
Proof.
  destruct name as [[|c r]|].
  - split; [intros _ s Hs; inversion Hs; intros []|]. intros _. apply eclass_unnamed. auto.
  - unfold eclass, he_name. cbn [lib_name x_name opt_truthy truthy_str]. split.
    + intros H s Hs. inversion Hs; subst. inversion H as [H1]. rewrite <- H1. apply after_colon_none. intros [].
    + intros H. f_equal. apply qname_plain. apply H. reflexivity.
  - split; [intros _ s Hs; discriminate|]. intros _. apply eclass_unnamed. auto.
Qed.
Lemma eclass_tuple u name ns : he_nameTuple (eclass u name ns) = (ns, name) <->
  (forall s, name = Some s -> ~ In 58%N s) /\ (ns = None \/ (u = false /\ ns = Some xhtml_ns)).
Proof.
  unfold he_nameTuple. split.
  - intros H. assert (H1 : he_name (eclass u name ns) = name) by congruence. assert (H2 : he_namespace (eclass u name ns) = ns) by congruence.
    pose proof (proj1 (eclass_name u name ns) H1) as H3. clear H1. rename H3 into H1. split; [exact H1|]. unfold eclass, he_namespace in H2. cbn [lib_ns] in H2.
    assert (Hc : char_in 58%N match name with Some (c :: r) => c :: r | _ => unnamed end = false).
    { apply not_true_is_false. rewrite char_in_In. destruct name as [[|c r]|]; try apply no_colon_unnamed. apply H1. reflexivity. }
    rewrite Hc in H2. cbn [andb] in H2. destruct (negb u && opt_str_eqb ns (Some xhtml_ns)) eqn:E; [|left; congruence].
    apply andb_true_iff in E as (E1 & E2). apply opt_str_eqb_spec in E2. right. split; [destruct u; [discriminate|reflexivity]|exact E2].
  - intros (H1 & H2). f_equal; [|apply eclass_name; exact H1]. unfold eclass, he_namespace. cbn [lib_ns].
    assert (Hc : char_in 58%N match name with Some (c :: r) => c :: r | _ => unnamed end = false).
    { apply not_true_is_false. rewrite char_in_In. destruct name as [[|c r]|]; try apply no_colon_unnamed. apply H1. reflexivity. }
    rewrite Hc. cbn [andb]. destruct H2 as [-> |(-> & ->)]; cbn [opt_str_eqb negb].
    + rewrite andb_false_r. reflexivity.
    + assert (E : str_eqb xhtml_ns xhtml_ns = true) by apply str_eqb_refl. rewrite E. reflexivity.
Qed.
Lemma clone_tuple e : he_nameTuple (c_clone e) = (None, Some (x_name e)).
Proof. reflexivity. Qed.

(** ** parse and parse_lax_xml *)
Lemma first_element_spec l i : first_element l = Some i <-> exists a b, l = a ++ RElement i :: b /\ forall j, ~ In (RElement j) a.
Proof.
  split.
  - induction l as [|x l IH]; [discriminate|]. cbn [first_element]. destruct x as [k| |d].
    + intros H. inversion H; subst. exists [], l. split; [reflexivity|]. intros j [].
    + intros H. destruct (IH H) as (a & b & -> & Hn). exists (RDoctype :: a), b. split; [reflexivity|]. intros j [Hx|Hx]; [discriminate|]. apply (Hn j Hx).
    + intros H. destruct (IH H) as (a & b & -> & Hn). exists (RComment d :: a), b. split; [reflexivity|]. intros j [Hx|Hx]; [discriminate|]. apply (Hn j Hx).
  - intros (a & b & -> & Hn). induction a as [|x a IH]; [reflexivity|]. cbn [app first_element]. destruct x as [k| |d].
    + exfalso. apply (Hn k). left; reflexivity.
    + apply IH. intros j Hj. apply (Hn j). right; exact Hj.
    + apply IH. intros j Hj. apply (Hn j). right; exact Hj.
Qed.
Lemma first_element_none l : first_element l = None <-> forall j, ~ In (RElement j) l.
Proof.
  split.
  - intros H j Hj. apply in_split in Hj as (a & b & ->). induction a as [|x a IH]; [discriminate|]. destruct x; [discriminate| |]; apply IH; exact H.
  - intros H. induction l as [|x l IH]; [reflexivity|]. destruct x as [k| |d]; cbn [first_element].
    + exfalso. apply (H k). left; reflexivity.
    + apply IH. intros j Hj. apply (H j). right; exact Hj.
    + apply IH. intros j Hj. apply (H j). right; exact Hj.
Qed.

Lemma parse_lax_ok h t nt at_ head body rest pt nb ab top ks pb : 
  hp h t = Some (OElem nt at_ (head :: body :: rest) pt) -> hp h body = Some (OElem nb ab (top :: ks) pb) -> is_elem h top -> top <> body ->
  exists h', parse_lax h (Some t) = LaxOk h' top /\ hp h' body = Some (OElem nb ab ks pb) /\
    (forall o, hp h top = Some o -> hp h' top = Some (set_parent o None)) /\ (forall k, k <> body -> k <> top -> hp h' k = hp h k).
Proof.
  intros Ht Hb Hi Hne. destruct (remove_elem_at h body nb ab [] top ks pb Hb Hi Hne) as (h' & H1 & H2 & H3 & H4); [intros []|].
  exists h'. split; [|auto]. unfold parse_lax. rewrite Ht. cbn [okids nth_error]. rewrite Hb. cbn [okids nth_error]. rewrite H1. reflexivity.
Qed.
Lemma parse_lax_linked h t h' top : well_linked h -> is_elem h top -> parse_lax h t = LaxOk h' top -> well_linked h'.
Proof.
  intros Hw Hi H. unfold parse_lax in H. destruct t as [t|]; [|discriminate]. destruct (hp h t) as [o|] eqn:Ht; [|discriminate].
  destruct (nth_error (okids o) 1) as [body|] eqn:E1; [|discriminate]. destruct (hp h body) as [ob|] eqn:Hb; [|discriminate].
  destruct (nth_error (okids ob) 0) as [top'|] eqn:E2; [|discriminate]. destruct (xml_remove h body (ARef top')) as [h1|h1 e] eqn:E3; [|discriminate].
  inversion H; subst. eapply remove_elem_well_linked; eauto.
Qed.
Lemma parse_lax_empty h t nt at_ head body rest pt nb ab pb :
  hp h t = Some (OElem nt at_ (head :: body :: rest) pt) -> hp h body = Some (OElem nb ab [] pb) -> parse_lax h (Some t) = LaxIndexError.
Proof. intros Ht Hb. unfold parse_lax. rewrite Ht. cbn [okids nth_error]. rewrite Hb. reflexivity. Qed.
