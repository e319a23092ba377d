(** What holds of the numbers throughout a history. *)
From Verif Require Import PyStr Parser XTree Heap Builder HeapSpec BuilderFacts HeapFacts BuilderMore RootCache RootSpec RootFacts DocOrder DocOrderSpec DocOrderFacts.

Record inv (h : heap) (v : numbers) : Prop := mkInv {
  i_linked : well_linked h;
  i_elem : forall i, en v i <> None -> is_elem h i \/ loose_text h i;
  i_same : forall i j, is_elem h i -> is_elem h j -> same_tree h i j -> en v i <> None -> en v j <> None;
  i_less : forall i j a b, is_elem h i -> is_elem h j -> comes_before h i j -> en v i = Some a -> en v j = Some b -> a < b;
  i_root : forall q k, rn v q = Some k -> k = 0 /\ en v (docelem q) <> None }.

Lemma same_sym h i j : same_tree h i j -> same_tree h j i.
Proof. intros (r & A & B). exists r. auto. Qed.
Lemma within_dec h r j : well_linked h -> is_elem h r -> within h r j \/ ~ within h r j.
Proof.
  intros W E. destruct (tree_list h r W E) as (p & t & ids & H & _ & _ & M). destruct (in_dec Nat.eq_dec j ids) as [K|K].
  - destruct (elemb h j) eqn:X.
    + left. split; [apply M; auto|apply elemb_iff; auto].
    + right. intros [_ Q]. apply elemb_iff in Q. congruence.
  - right. intros [Q _]. apply K, M, Q.
Qed.
Lemma elem_live h i : well_linked h -> is_elem h i -> i < nxt h.
Proof. intros (A & _) (n & a & ks & p & H). eapply A; eauto. Qed.

Lemma start_inv h : well_linked h -> inv h no_numbers.
Proof. intros W. constructor; cbn [en rn no_numbers]; [auto|congruence|congruence|discriminate|discriminate]. Qed.

Lemma prepare_cases h v c r : well_linked h -> tree_of h c r ->
  (exists k, number_of v c = Some k /\ prepare h v c = v) \/
  (number_of v c = None /\ exists v', prepare h v c = v' /\ same_or_new h v v' r /\
     (forall q, rn v' q = if match c with DRoot q' => root_eqb q q' | _ => false end then Some 0 else rn v q)).
Proof.
  intros W H. unfold prepare. destruct (number_of v c) as [k|] eqn:E; [left; eauto|right]. split; [reflexivity|]. apply index_ok; auto.
Qed.
Lemma union_inv h v c r : inv h v -> tree_of h c r -> inv h (prepare h v c).
Proof.
  intros I H. pose proof (i_linked h v I) as W. destruct (tree_of_top h c r H) as [E P]. destruct (prepare_cases h v c r W H) as [(k & _ & ->)|(_ & v' & -> & (S1 & S2 & S3) & R)]; [exact I|]. cbn [fst].
  assert (Mono : forall j, en v j <> None -> en v' j <> None).
  { intros j Hj. destruct (within_dec h r j W E) as [K|K]; [apply S2; auto|rewrite S1; auto]. }
  assert (Both : forall i j, is_elem h i -> is_elem h j -> same_tree h i j -> within h r i -> within h r j).
  { intros i j Ei Ej T [B _]. split; [eapply top_covers; eauto|auto]. }
  constructor.
  - exact W.
  - intros i Hi. destruct (within_dec h r i W E) as [K|K]; [left; apply K|]. rewrite S1 in Hi by auto. eapply i_elem; eauto.
  - intros i j Ei Ej T Hi. destruct (within_dec h r i W E) as [K|K].
    + apply S2. exact (Both i j Ei Ej T K).
    + apply Mono. rewrite S1 in Hi by auto. exact (i_same h v I i j Ei Ej T Hi).
  - intros i j a b Ei Ej C. pose proof (before_same h i j C) as T. destruct (within_dec h r i W E) as [K|K].
    + apply S3; auto. exact (Both i j Ei Ej T K).
    + rewrite (S1 i K), (S1 j); [exact (i_less h v I i j a b Ei Ej C)|]. intros Q; apply K; exact (Both j i Ej Ei (same_sym _ _ _ T) Q).
  - intros q k Hq. rewrite R in Hq. destruct (match c with DRoot q' => root_eqb q q' | _ => false end) eqn:X.
    + injection Hq as <-. split; [reflexivity|]. destruct c as [i|i|q']; try discriminate X. apply root_eqb_eq in X. subst q'. destruct H as (-> & _). apply S2. split; [constructor|auto].
    + destruct (i_root h v I q k Hq). auto.
Qed.

(** At a text node without parent only that node is numbered. *)
Lemma rise_top n h i : parent_is h i None -> rise n h i = i.
Proof. intros (o & E & Ep). destruct n; cbn [rise]; [reflexivity|]. unfold xml_parent. rewrite E, Ep. reflexivity. Qed.
Lemma loose_index h v i : loose_text h i -> rn (prepare h v (DNode i)) = rn v /\ en (prepare h v (DNode i)) i <> None /\ forall j, j <> i -> en (prepare h v (DNode i)) j = en v j.
Proof.
  intros (s & (p & E) & P). unfold prepare. cbn [number_of]. destruct (en v i) as [k|] eqn:Ek; [split; [reflexivity|]; split; [congruence|auto]|].
  unfold index_docorder. cbn [topmost]. rewrite (rise_top _ _ _ P). cbn [dkids]. rewrite E. split; [reflexivity|].
  assert (Q : descend (nxt h) h [] = []) by (destruct (nxt h); reflexivity). rewrite Q. cbn [assign number en]. unfold set_en. split; [rewrite Nat.eqb_refl; discriminate|].
  intros j Hj. destruct (Nat.eqb_spec j i); [contradiction|reflexivity].
Qed.
Lemma loose_inv h v i : inv h v -> loose_text h i -> inv h (prepare h v (DNode i)).
Proof.
  intros I L. destruct (loose_index h v i L) as (R & S & O). destruct L as (s & (p & T) & P).
  assert (N : forall x, is_elem h x -> en (prepare h v (DNode i)) x = en v x) by (intros x (n & a & ks & q & E); apply O; intros ->; congruence).
  constructor.
  - apply I.
  - intros j Hj. destruct (Nat.eq_dec j i) as [->|Hn]; [right; exists s; split; [exists p; exact T|exact P]|]. rewrite O in Hj by exact Hn. eapply i_elem; eauto.
  - intros x y Ex Ey. rewrite !N by assumption. apply I; assumption.
  - intros x y a b Ex Ey. rewrite !N by assumption. apply I; assumption.
  - intros q k. rewrite R. intros Hq. destruct (i_root h v I q k Hq) as [-> K]. split; [reflexivity|]. destruct (Nat.eq_dec (docelem q) i) as [->|Hn]; [exact S|]. rewrite O by exact Hn. exact K.
Qed.

(** ** Edits *)
Lemma below_up h h' (S : ref -> Prop) : (forall p x, child h' p x -> (S p <-> S x)) ->
  (forall p x, S p -> is_elem h' x -> child h' p x -> child h p x) -> (forall p x, child h' p x -> is_elem h' p) ->
  forall r x, below h' r x -> S x -> is_elem h' x -> below h r x /\ S r.
Proof.
  intros H1 H2 H3 r x B. induction B as [x|r y x B IH C]; intros Sx Ex; [split; [constructor|auto]|].
  assert (Sy : S y) by (apply (H1 y x C); auto). destruct (IH Sy (H3 y x C)) as [K1 K2]. split; [|auto]. eapply be_kid; [exact K1|]. apply H2; auto.
Qed.
Lemma below_set h' (S : ref -> Prop) : (forall p x, child h' p x -> (S p <-> S x)) -> forall r x, below h' r x -> (S r <-> S x).
Proof. intros H r x B. induction B as [x|r y x B IH C]; [reflexivity|]. rewrite IH. apply H; auto. Qed.
Lemma child_elem h p x : child h p x -> is_elem h p.
Proof. intros (o & Ho & Hx). destruct o as [n a ks q|s q]; [repeat eexists; eauto|destruct Hx]. Qed.
Lemma edit_inv h h' v (S : ref -> Prop) : inv h v -> well_linked h' -> (forall x, is_elem h x -> is_elem h' x) -> (forall x s, is_text h x s -> hp h' x = hp h x) ->
  (forall p x, child h' p x -> (S p <-> S x)) ->
  (forall x, S x -> is_elem h' x -> is_elem h x) ->
  (forall p x, S p -> is_elem h' x -> child h' p x -> child h p x) ->
  (forall p o' x y, S p -> is_elem h' x -> is_elem h' y -> hp h' p = Some o' -> left_of (okids o') x y -> exists o, hp h p = Some o /\ left_of (okids o) x y) ->
  (forall x, is_elem h' x -> en v x <> None -> S x) ->
  inv h' v.
Proof.
  intros I W Hn Ht C1 C2 C3 C4 C5. pose proof (below_up h h' S C1 C3 (child_elem h')) as Up. pose proof (below_set h' S C1) as Set_.
  constructor.
  - exact W.
  - intros i Hi. destruct (i_elem h v I i Hi) as [E|(s & T & P)]; [left; apply Hn; exact E|right]. exists s. pose proof (Ht i s T) as Q. unfold is_text, parent_is in *. rewrite Q. split; [exact T|exact P].
  - intros i j Ei Ej (r & Bi & Bj) Hi. pose proof (C5 i Ei Hi) as Si. pose proof (proj1 (Set_ r j Bj) (proj2 (Set_ r i Bi) Si)) as Sj.
    apply (i_same h v I i j); auto. exists r. split; [apply (Up r i Bi Si Ei)|apply (Up r j Bj Sj Ej)].
  - intros i j a b Ei Ej C Ha Hb. assert (Si : S i) by (apply C5; congruence). assert (Sj : S j) by (apply C5; congruence).
    apply (i_less h v I i j a b); auto. destruct C as [[Hne B]|(p & o & x & y & Ho & Hl & Bx & By)].
    + left. split; [auto|]. apply (Up i j B Sj Ej).
    + right. destruct (Up x i Bx Si Ei) as [Gx Sx]. destruct (Up y j By Sj Ej) as [Gy Sy]. pose proof (left_mem _ _ _ Hl) as [Mx My].
      assert (Ex : is_elem h' x) by (inversion Bx as [|? z ? B' C']; subst; [auto|]; revert B' C' ; intros B' C'; clear - Ei Bx; induction Bx as [|? ? ? ? IH K]; [auto|apply IH; eapply child_elem; eauto]).
      assert (Ey : is_elem h' y) by (clear - Ej By; induction By as [|? ? ? ? IH K]; [auto|apply IH; eapply child_elem; eauto]).
      destruct (C4 p o x y) as (o2 & Ho2 & Hl2); auto; [apply (C1 p x); [exists o; auto|auto]|]. exists p, o2, x, y. auto.
  - exact (i_root h v I).
Qed.

(** New objects beside the old ones. *)
Lemma grow_inv h h' v : inv h v -> well_linked h' -> (forall j, j < nxt h -> hp h' j = hp h j) -> inv h' v.
Proof.
  intros I W Hs. pose proof (i_linked h v I) as W0. pose proof W0 as (A0 & L0 & _ & T0).
  assert (Old : forall p x, p < nxt h -> child h' p x -> child h p x).
  { intros p x Hp (o & Ho & Hx). exists o. rewrite <- Hs by auto. auto. }
  assert (Live : forall p x, child h p x -> x < nxt h).
  { intros p x C. apply L0 in C. destruct C as (o & Ho & _). eapply A0; eauto. }
  apply (edit_inv h h' v (fun x => x < nxt h)); auto.
  - intros x Ex. pose proof (elem_live h x W0 Ex) as Hx. destruct Ex as (n & a & ks & p & H). rewrite <- Hs in H by auto. repeat eexists; eauto.
  - intros x s (p & T). apply Hs. eapply A0; eauto.
  - intros p x C. split; intros K; [eapply Live; eapply Old; eauto|]. destruct W as (_ & L & _). apply L in C. destruct C as (o & Ho & E). rewrite Hs in Ho by auto.
    assert (Q : child h p x) by (apply L0; exists o; auto). destruct Q as (op & Hop & _). eapply A0; eauto.
  - intros x Hx (n & a & ks & p & H). rewrite Hs in H by auto. repeat eexists; eauto.
  - intros p o' x y Hp _ _ Ho' Hl. exists o'. rewrite <- Hs by auto. auto.
  - intros x _ Hx. destruct (i_elem h v I x Hx) as [E|(s & (p & T) & _)]; [eapply elem_live; eauto|eapply A0; eauto].
Qed.

Lemma left_without i l x y : left_of (without i l) x y -> left_of l x y.
Proof.
  destruct (in_dec Nat.eq_dec i l) as [Hi|Hi].
  - destruct (without_split i l Hi) as (a & b & -> & -> & _). intros (l1 & l2 & l3 & E).
    clear Hi. revert b l1 E. induction a as [|k a IH]; intros b l1 E; cbn [app] in *.
    + exists (i :: l1), l2, l3. rewrite E. reflexivity.
    + destruct l1 as [|k1 l1]; cbn [app] in E; injection E as -> E.
      * assert (Hy : In y (a ++ i :: b)) by (assert (In y (a ++ b)) by (rewrite E; apply in_or_app; right; left; auto); rewrite in_app_iff in *; cbn [In]; tauto).
        destruct (in_split _ _ Hy) as (u & w & ->). exists [], u, w. reflexivity.
      * apply left_cons. eapply IH; eauto.
  - unfold without. assert (E : remove_first (fun x => Nat.eqb x i) l = l); [|rewrite E; auto].
    clear x y. induction l as [|k l IH]; [reflexivity|]. cbn [remove_first]. destruct (Nat.eqb_spec k i) as [->|]; [destruct Hi; left; auto|]. f_equal. apply IH. intros K; apply Hi; right; auto.
Qed.
Lemma remove_inv h self i h' v : inv h v -> well_linked h' -> is_elem h i -> xml_remove h self (ARef i) = EOk h' -> inv h' v.
Proof.
  intros I W Ei H. pose proof (i_linked h v I) as W0. pose proof W0 as (A0 & L0 & N0 & T0). destruct (hp h self) as [[n a ks p|s p]|] eqn:Hs; [|unfold xml_remove in H; rewrite Hs in H; discriminate H|unfold xml_remove in H; rewrite Hs in H; discriminate H].
  destruct (Nat.eq_dec i self) as [->|Hne].
  { exfalso. assert (K : child h self self).
    { unfold xml_remove in H. rewrite Hs in H. destruct (existsb (fun x => node_eqb h x self) ks) eqn:X; [|discriminate H].
      rewrite (existsb_ext _ (fun x => Nat.eqb x self)) in X by (intros x; apply node_eqb_elem; auto). apply existsb_eqb in X. exists (OElem n a ks p). auto. }
    destruct (T0 self _ Hs) as (t & ids & Hh & _). eapply no_cycle; eauto. constructor. }
  destruct (remove_elem_cases h self i n a ks p Hs Ei Hne) as [(Hin & h1 & E1 & E2 & E3 & E4 & E5)|(_ & E1)]; rewrite H in E1; [injection E1 as <-|discriminate E1].
  pose proof Ei as (ni & ai & ki & pi & Hi). specialize (E4 _ Hi). cbn [set_parent] in E4.
  assert (Kids : forall q o', hp h' q = Some o' -> exists o, hp h q = Some o /\ (okids o' = okids o \/ okids o' = without i (okids o)) /\ (is_elem h' q -> is_elem h q)).
  { intros q o' Hq. destruct (Nat.eq_dec q self) as [->|N1]; [|destruct (Nat.eq_dec q i) as [->|N2]].
    - rewrite E3 in Hq. injection Hq as <-. exists (OElem n a ks p). split; [auto|]. split; [right; reflexivity|]. intros _. repeat eexists; eauto.
    - rewrite E4 in Hq. injection Hq as <-. eexists. split; [exact Hi|]. split; [left; reflexivity|]. intros _. repeat eexists; eauto.
    - rewrite E5 in Hq by auto. exists o'. split; [auto|]. split; [left; auto|]. intros (n1 & a1 & k1 & p1 & K). rewrite E5 in K by auto. repeat eexists; eauto. }
  apply (edit_inv h h' v (fun _ => True)); auto.
  - intros x (n1 & a1 & k1 & p1 & K). destruct (Nat.eq_dec x self) as [->|N1]; [repeat eexists; eauto|]. destruct (Nat.eq_dec x i) as [->|N2]; [repeat eexists; eauto|]. rewrite <- E5 in K by auto. repeat eexists; eauto.
  - intros x s (q & T). apply E5; intros ->; congruence.
  - tauto.
  - intros x _ Ex. pose proof Ex as (n1 & a1 & k1 & p1 & K). destruct (Kids x _ K) as (o & _ & _ & G). auto.
  - intros q x _ _ (o' & Ho' & Hx). destruct (Kids q o' Ho') as (o & Ho & E & _). exists o. split; [auto|]. destruct E as [E|E]; rewrite E in Hx; [auto|].
    destruct (in_dec Nat.eq_dec i (okids o)) as [Y|Y].
    + destruct (without_split i _ Y) as (u & w & Eu & Ew & _). rewrite Ew in Hx. rewrite Eu. rewrite in_app_iff in *. cbn [In]. tauto.
    + assert (Q : without i (okids o) = okids o); [|rewrite Q in Hx; auto]. clear - Y. unfold without. induction (okids o) as [|k l IH]; [reflexivity|]. cbn [remove_first]. destruct (Nat.eqb_spec k i) as [->|]; [destruct Y; left; auto|]. f_equal. apply IH. intros K; apply Y; right; auto.
  - intros q o' x y _ _ _ Ho' Hl. destruct (Kids q o' Ho') as (o & Ho & E & _). exists o. split; [auto|]. destruct E as [E|E]; rewrite E in Hl; [auto|]. eapply left_without; eauto.
Qed.

Lemma left_other ks c a b x y : ks = a ++ b -> left_of (a ++ c :: b) x y -> x <> c -> y <> c -> left_of ks x y.
Proof.
  intros -> (l1 & l2 & l3 & E) Hx Hy. revert l1 E. induction a as [|k a IH]; intros l1 E; cbn [app] in *.
  - destruct l1 as [|k1 l1]; cbn [app] in E; injection E as -> E; [congruence|]. exists l1, l2, l3. auto.
  - destruct l1 as [|k1 l1]; cbn [app] in E; injection E as -> E; [|apply left_cons; eapply IH; eauto].
    assert (K : In y (a ++ b)) by (assert (In y (a ++ c :: b)) by (rewrite E; apply in_or_app; right; left; auto); rewrite in_app_iff in *; cbn [In] in *; destruct H as [H|[H|H]]; auto; congruence).
    destruct (in_split _ _ K) as (u & w & ->). exists [], u, w. reflexivity.
Qed.
Lemma kids_insert_parts ks index c : exists a b, ks = a ++ b /\ kids_insert ks index c = a ++ c :: b.
Proof. rewrite kids_insert_split. eexists _, _. split; [|reflexivity]. symmetry. apply firstn_skipn. Qed.

Lemma text_inv h self c s index h' v : inv h v -> well_linked h' -> (c = AStr s \/ exists i, c = ARef i /\ is_text h i s) ->
  xml_insert h self c index = EOk h' -> inv h' v.
Proof.
  intros I W Hc H. pose proof (i_linked h v I) as W0. pose proof W0 as (A0 & _). destruct (hp h self) as [[n a ks p|u p]|] eqn:Hs; [|unfold xml_insert in H; rewrite Hs in H; discriminate H|unfold xml_insert in H; rewrite Hs in H; discriminate H].
  destruct (insert_text_eq h self c s index h' n a ks p Hs (A0 _ _ Hs) Hc H) as (E1 & E2 & E3 & E4).
  assert (NT : forall x, is_elem h' x -> x <> nxt h) by (intros x (n1 & a1 & k1 & p1 & K) ->; rewrite E3 in K; discriminate K).
  assert (Hn : hp h (nxt h) = None) by (destruct (hp h (nxt h)) eqn:X; [apply A0 in X; lia|auto]).
  destruct (kids_insert_parts ks index (nxt h)) as (l1 & l2 & Ek & Ei).
  apply (edit_inv h h' v (fun _ => True)); auto.
  - intros x (n1 & a1 & k1 & p1 & K). destruct (Nat.eq_dec x self) as [->|N1]; [repeat eexists; eauto|]. rewrite <- E4 in K by (auto; intros ->; congruence). repeat eexists; eauto.
  - intros x s0 (q & T). apply E4; intros ->; congruence.
  - tauto.
  - intros x _ Ex. destruct (Nat.eq_dec x self) as [->|N1]; [repeat eexists; eauto|]. pose proof (NT x Ex) as N2. destruct Ex as (n1 & a1 & k1 & p1 & K). rewrite E4 in K by auto. repeat eexists; eauto.
  - intros q x _ Ex (o' & Ho' & Hx). pose proof (NT x Ex) as N2. destruct (Nat.eq_dec q self) as [->|N1].
    + rewrite E2 in Ho'. injection Ho' as <-. cbn [okids] in Hx. exists (OElem n a ks p). split; [auto|]. cbn [okids]. rewrite Ei in Hx. rewrite Ek. rewrite in_app_iff in *. cbn [In] in Hx. destruct Hx as [Hx|[Hx|Hx]]; auto; congruence.
    + destruct (Nat.eq_dec q (nxt h)) as [->|N3]; [rewrite E3 in Ho'; injection Ho' as <-; destruct Hx|]. rewrite E4 in Ho' by auto. exists o'. auto.
  - intros q o' x y _ Ex Ey Ho' Hl. destruct (Nat.eq_dec q self) as [->|N1].
    + rewrite E2 in Ho'. injection Ho' as <-. exists (OElem n a ks p). split; [auto|]. cbn [okids] in *. rewrite Ei in Hl. eapply left_other; eauto.
    + destruct (Nat.eq_dec q (nxt h)) as [->|N3]; [rewrite E3 in Ho'; injection Ho' as <-; destruct Hl as ([|? ?] & ? & ? & E); discriminate E|]. rewrite E4 in Ho' by auto. exists o'. auto.
Qed.

Lemma insert_inv h self i index h' v : inv h v -> well_linked h' -> is_elem h i -> ~ below h i self -> xml_insert h self (ARef i) index = EOk h' ->
  unnumbered h v self -> unnumbered h v i -> inv h' v.
Proof.
  intros I W Ei Hb H U1 U2. pose proof (i_linked h v I) as W0. pose proof W0 as (A0 & L0 & _). destruct (hp h self) as [[n a ks p|u p]|] eqn:Hs; [|unfold xml_insert in H; rewrite Hs in H; discriminate H|unfold xml_insert in H; rewrite Hs in H; discriminate H].
  assert (Hne : i <> self) by (intros ->; apply Hb; constructor).
  destruct (insert_elem_eq h self i index h' n a ks p Hs Ei H) as (E1 & E2 & _ & E4). destruct (E2 Hne) as [E2' E3]. clear E2.
  pose proof Ei as (ni & ai & ki & pi & Hi). specialize (E3 _ Hi). cbn [set_parent] in E3.
  destruct (kids_insert_parts ks index i) as (l1 & l2 & Ek & Eki).
  set (S := fun x => ~ same_tree h self x /\ ~ same_tree h i x).
  assert (Tr : forall a b c, same_tree h a b -> child h b c -> same_tree h a c) by (intros x y z (r & B1 & B2) C; exists r; split; [auto|eapply be_kid; eauto]).
  assert (Tr' : forall a b c, same_tree h a c -> child h b c -> same_tree h a b).
  { intros x y z (r & B1 & B2) C. destruct (below_strict h y z L0) with (a := r) as [->|K]; [apply L0; auto|auto| |exists r; auto].
    exists y. split; [eapply below_child; eauto|constructor]. }
  assert (Ss : ~ S self) by (intros [K _]; apply K; exists self; split; constructor).
  assert (Si : ~ S i) by (intros [_ K]; apply K; exists i; split; constructor).
  assert (Sc : forall q x, child h q x -> (S q <-> S x)).
  { intros q x C. unfold S. split; intros [K1 K2]; split; intros Q; [apply K1|apply K2|apply K1|apply K2]; eauto. }
  assert (Kc : forall q x, child h' q x -> child h q x \/ (q = self /\ x = i)).
  { intros q x (o' & Ho' & Hx). destruct (Nat.eq_dec q self) as [->|N1]; [|destruct (Nat.eq_dec q i) as [->|N2]].
    - rewrite E2' in Ho'. injection Ho' as <-. cbn [okids] in Hx. rewrite Eki in Hx. rewrite in_app_iff in Hx. cbn [In] in Hx.
      destruct Hx as [Hx|[Hx|Hx]]; [left|right; auto|left]; exists (OElem n a ks p); (split; [auto|]); cbn [okids]; rewrite Ek, in_app_iff; auto.
    - rewrite E3 in Ho'. injection Ho' as <-. left. eexists. split; [exact Hi|exact Hx].
    - rewrite E4 in Ho' by auto. left. exists o'. auto. }
  assert (Same : forall q, S q -> hp h' q = hp h q) by (intros q Q; apply E4; intros ->; auto).
  apply (edit_inv h h' v S); auto.
  - intros x (n1 & a1 & k1 & p1 & K). destruct (Nat.eq_dec x self) as [->|N1]; [repeat eexists; eauto|]. destruct (Nat.eq_dec x i) as [->|N2]; [repeat eexists; eauto|]. rewrite <- E4 in K by auto. repeat eexists; eauto.
  - intros x s (q & T). apply E4; intros ->; congruence.
  - intros q x C. destruct (Kc q x C) as [K|[-> ->]]; [apply Sc; auto|tauto].
  - intros x Sx (n1 & a1 & k1 & p1 & K). rewrite Same in K by auto. repeat eexists; eauto.
  - intros q x Sq _ C. destruct (Kc q x C) as [K|[-> ->]]; [auto|destruct (Ss Sq)].
  - intros q o' x y Sq _ _ Ho' Hl. exists o'. rewrite <- Same by auto. auto.
  - intros x Ex Hx. split; intros (r & B1 & B2); apply Hx; [eapply U1; eauto|eapply U2; eauto].
Qed.

Lemma quiet_edit h h' : quiet h h' -> edit h h'.
Proof.
  intros [h1 n a|h1 s|h1 self c s index h2 Hk H|h1 self i h2 Ei H|s text s' r Hp Hs]; [constructor|constructor|eapply ed_insert_text; eauto|eapply ed_remove_elem; eauto|eapply ed_parse; eauto].
Qed.
Lemma numbered_inv h v : numbered h v -> inv h v.
Proof.
  induction 1 as [h W|h v c r _ IH H|h v i _ IH H|h v h' _ IH H|h v self i index h' _ IH Ei Pi Bi H U1 U2]; [apply start_inv; auto|eapply union_inv; eauto|apply loose_inv; auto| |].
  - pose proof (i_linked h v IH) as W. pose proof (edit_well_linked h h' W (quiet_edit h h' H)) as W'. destruct H as [h n a|h s|h self c s index h' Hk H|h self i h' Ei H|s text s' r Hp Hs].
    + apply (grow_inv h); auto. intros j Hj. apply hp_alloc_other. lia.
    + apply (grow_inv h); auto. intros j Hj. apply hp_alloc_other. lia.
    + eapply text_inv; eauto.
    + eapply remove_inv; eauto.
    + apply (grow_inv (bheap s)); auto.
  - eapply insert_inv; eauto. apply (edit_well_linked h h' (i_linked h v IH)). eapply ed_insert_elem; eauto.
Qed.
