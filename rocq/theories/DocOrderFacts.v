(** Facts about the document order numbers. *)
From Verif Require Import PyStr Parser XTree Heap Builder HeapSpec BuilderFacts HeapFacts BuilderMore RootCache RootSpec RootFacts DocOrder DocOrderSpec.

(** ** Order in the list of all nodes *)
Lemma left_app1 l m x y : left_of l x y -> left_of (l ++ m) x y.
Proof. intros (a & b & c & ->). exists a, b, (c ++ m). rewrite <- !app_assoc. cbn [app]. rewrite <- app_assoc. reflexivity. Qed.
Lemma left_app2 l m x y : left_of m x y -> left_of (l ++ m) x y.
Proof. intros (a & b & c & ->). exists (l ++ a), b, c. rewrite <- app_assoc. reflexivity. Qed.
Lemma left_cons k l x y : left_of l x y -> left_of (k :: l) x y.
Proof. apply (left_app2 [k]). Qed.
Lemma left_in l m x y : In x l -> In y m -> left_of (l ++ m) x y.
Proof.
  intros Hx Hy. destruct (in_split _ _ Hx) as (a & b & ->), (in_split _ _ Hy) as (c & d & ->). exists a, (b ++ c), d. rewrite <- !app_assoc. reflexivity.
Qed.
Lemma left_mem l x y : left_of l x y -> In x l /\ In y l.
Proof. intros (a & b & c & ->). split; apply in_or_app; right; [left; auto|]. apply (in_or_app (x :: b) (y :: c)). right. left. auto. Qed.
Lemma left_filter p l x y : left_of l x y -> p x = true -> p y = true -> left_of (filter p l) x y.
Proof.
  intros (a & b & c & ->) Hx Hy. rewrite filter_app. cbn [filter]. rewrite Hx, filter_app. cbn [filter]. rewrite Hy. exists (filter p a), (filter p b), (filter p c). reflexivity.
Qed.

(** The nodes of a subtree are a segment of those of the tree. *)
Lemma holds_segment h :
  (forall p i t ids, holds h p i t ids -> forall k, In k ids -> exists p' t' idk l m, holds h p' k t' idk /\ ids = l ++ idk ++ m) /\
  (forall q is ts ids, holds_all h q is ts ids -> forall k, In k ids -> exists p' t' idk l m, holds h p' k t' idk /\ ids = l ++ idk ++ m).
Proof.
  apply holds_both.
  - intros p i n a is ks idss Hi Ha IH k [<-|Hk].
    + exists p, (XE n a ks), (i :: idss), [], []. split; [econstructor; eauto|]. rewrite app_nil_r. reflexivity.
    + destruct (IH k Hk) as (p' & t' & idk & l & m & H & ->). exists p', t', idk, (i :: l), m. split; [exact H|reflexivity].
  - intros p i s Hi k [<-|[]]. exists p, (XT s), [i], [], []. split; [constructor; auto|reflexivity].
  - intros q k [].
  - intros q i is t ts ids idss _ IH1 _ IH2 k Hk. apply in_app_or in Hk as [Hk|Hk].
    + destruct (IH1 k Hk) as (p' & t' & idk & l & m & H & ->). exists p', t', idk, l, (m ++ idss). split; [exact H|]. rewrite <- !app_assoc. reflexivity.
    + destruct (IH2 k Hk) as (p' & t' & idk & l & m & H & ->). exists p', t', idk, (ids ++ l), m. split; [exact H|]. rewrite <- !app_assoc. reflexivity.
Qed.
Lemma holds_all_split h q l1 : forall k l2 ts ids, holds_all h q (l1 ++ k :: l2) ts ids ->
  exists t idk A B ts', holds h (Some q) k t idk /\ ids = A ++ idk ++ B /\ holds_all h q l2 ts' B.
Proof.
  induction l1 as [|x l1 IH]; intros k l2 ts ids H; inversion H as [|q' i' is' t' ts' ids' idss' H1 H2]; subst.
  - exists t', ids', [], idss', ts'. auto.
  - destruct (IH _ _ _ _ H2) as (t & idk & A & B & ts2 & G1 & -> & G2). exists t, idk, (ids' ++ A), B, ts2. split; [exact G1|]. split; [|exact G2]. rewrite <- app_assoc. reflexivity.
Qed.
Lemma before_left h r p t ids i j : holds h p r t ids -> (forall k, below h k i -> below h k j -> below h r k \/ below h k r) -> (forall k, child h k r -> False) ->
  comes_before h i j -> In i ids -> In j ids -> left_of ids i j.
Proof.
  intros Hh Hc Ht [[Hn Hb]|(q & o & x & y & Ho & Hl & Hx & Hy)] Hi Hj.
  - destruct (proj1 (holds_segment h) _ _ _ _ Hh i Hi) as (p' & t' & idk & l & m & H & ->). apply left_app2, left_app1.
    pose proof (below_holds _ _ _ Hb _ _ _ H) as Hj'. inversion H as [p0 i0 n a is ks idss Hio Ha|p0 i0 s Hio]; subst.
    + destruct Hj' as [->|Hj']; [congruence|]. apply (left_in [i] idss); [left; auto|auto].
    + destruct Hj' as [->|[]]; congruence.
  - assert (Kx : child h q x) by (exists o; split; [auto|]; apply left_mem in Hl; tauto).
    assert (Ky : child h q y) by (exists o; split; [auto|]; apply left_mem in Hl; tauto).
    assert (Hq : below h r q).
    { destruct (Hc q (below_child _ _ _ _ Kx Hx) (below_child _ _ _ _ Ky Hy)) as [?|K]; [auto|]. inversion K as [|? z ? _ Hz]; subst; [constructor|]. destruct (Ht z Hz). }
    pose proof (below_holds _ _ _ Hq _ _ _ Hh) as Hqi.
    destruct (proj1 (holds_segment h) _ _ _ _ Hh q Hqi) as (p' & t' & idk & l & m & H & ->). apply left_app2, left_app1.
    inversion H as [p0 i0 n a is ks idss Hio Ha|p0 i0 s Hio]; subst; rewrite Hio in Ho; injection Ho as <-; cbn [okids] in Hl.
    + apply left_cons. destruct Hl as (l1 & l2 & l3 & ->). destruct (holds_all_split _ _ _ _ _ _ _ Ha) as (tx & idx & A & B & ts' & Gx & -> & Ga).
      destruct (holds_all_split _ _ _ _ _ _ _ Ga) as (ty & idy & A' & B' & ts'' & Gy & -> & _).
      apply left_app2. apply left_in; [eapply below_holds; eauto|]. apply in_or_app. right. apply in_or_app. left. eapply below_holds; eauto.
    + destruct Hl as (l1 & l2 & l3 & E). destruct l1; discriminate E.
Qed.
Lemma left_before h :
  (forall p i t ids, holds h p i t ids -> forall x y, In x ids -> In y ids -> x <> y -> comes_before h x y \/ comes_before h y x) /\
  (forall q is ts ids, holds_all h q is ts ids -> forall x y, In x ids -> In y ids -> x <> y -> comes_before h x y \/ comes_before h y x \/
     exists k k', In k is /\ In k' is /\ (left_of is k k' \/ left_of is k' k) /\ below h k x /\ below h k' y).
Proof.
  apply holds_both.
  - intros p i n a is ks idss Hi Ha IH x y Hx Hy Hn.
    assert (B : forall z, In z idss -> below h i z).
    { intros z Hz. destruct (proj2 (holds_below h) _ _ _ _ Ha z Hz) as (k & Hk & Hb). eapply below_child; [|exact Hb]. eexists. split; [exact Hi|exact Hk]. }
    destruct Hx as [<-|Hx].
    + destruct Hy as [<-|Hy]; [congruence|]. left. left. split; [auto|apply B; auto].
    + destruct Hy as [<-|Hy]; [right; left; split; [auto|apply B; auto]|].
      destruct (IH x y Hx Hy Hn) as [?|[?|(k & k' & Hk & Hk' & [Hl|Hl] & Hbx & Hby)]]; [auto|auto| |].
      * left. right. exists i, (OElem n a is p), k, k'. auto.
      * right. right. exists i, (OElem n a is p), k', k. auto.
  - intros p i s Hi x y [<-|[]] [<-|[]] Hn. congruence.
  - intros q x y [].
  - intros q i is t ts ids idss Hh IH1 Ha IH2 x y Hx Hy Hn. apply in_app_or in Hx, Hy. destruct Hx as [Hx|Hx], Hy as [Hy|Hy].
    + destruct (IH1 x y Hx Hy Hn); auto.
    + destruct (proj2 (holds_below h) _ _ _ _ Ha y Hy) as (k & Hk & Hb). right. right. exists i, k. split; [left; auto|]. split; [right; auto|].
      split; [left; apply (left_in [i] is); [left; auto|auto]|]. split; [eapply (proj1 (holds_below h)); eauto|auto].
    + destruct (proj2 (holds_below h) _ _ _ _ Ha x Hx) as (k & Hk & Hb). right. right. exists k, i. split; [right; auto|]. split; [left; auto|].
      split; [right; apply (left_in [i] is); [left; auto|auto]|]. split; [auto|eapply (proj1 (holds_below h)); eauto].
    + destruct (IH2 x y Hx Hy Hn) as [?|[?|(k & k' & Hk & Hk' & Hl & Hb)]]; [auto|auto|]. right. right. exists k, k'. split; [right; auto|]. split; [right; auto|].
      split; [destruct Hl as [Hl|Hl]; [left|right]; apply left_cons; exact Hl|exact Hb].
Qed.

(** ** The topmost node and its elements *)
Lemma rise_top h : well_linked h -> forall fuel i t ids p, holds h p i t ids -> nxt h < fuel + tree_size t -> top_of h i (rise fuel h i).
Proof.
  intros W. induction fuel as [|n IH]; intros i t ids p H Hf; [pose proof (size_bound h p i t ids W H); lia|]. cbn [rise].
  destruct (holds_obj h p i t ids H) as (o & Ho & E). destruct (xml_parent h i) as [q|] eqn:X.
  - apply xml_parent_some in X. apply (top_step h i q _ W X). destruct (parent_live h i q W X) as (_ & (m & a & ks & pq & Hq) & Hc).
    destruct W as (A & L & N & T). destruct (T q _ Hq) as (tq & idq & Hh & _). assert (Ep : p = Some q) by (destruct X as (o' & Ho' & E'); congruence). rewrite Ep in H.
    pose proof (parent_bigger h i q t ids _ _ _ H Hc Hh). eapply IH; [exact Hh|]. lia.
  - assert (P : parent_is h i None) by (eapply xml_parent_none; eauto). split; [constructor|exact P].
Qed.
Lemma rise_ok h i o : well_linked h -> hp h i = Some o -> top_of h i (rise (nxt h) h i).
Proof. intros W Ho. pose proof W as (_ & _ & _ & T). destruct (T i o Ho) as (t & ids & H & _). eapply rise_top; eauto. pose proof (size_pos t). lia. Qed.

Definition elemb (h : heap) (i : ref) : bool := match hp h i with Some (OElem _ _ _ _) => true | _ => false end.
Lemma elemb_iff h i : elemb h i = true <-> is_elem h i.
Proof.
  unfold elemb, is_elem. destruct (hp h i) as [[n a ks p|s p]|]; split; try discriminate; intros H; try reflexivity; [repeat eexists|destruct H as (? & ? & ? & ? & H); discriminate H|destruct H as (? & ? & ? & ? & H); discriminate H].
Qed.
Lemma descend_app n h a b : descend n h (a ++ b) = descend n h a ++ descend n h b.
Proof. destruct n; [reflexivity|]. cbn [descend]. apply flat_map_app. Qed.
Lemma descend_ok h :
  (forall p i t ids, holds h p i t ids -> forall fuel, tree_size t <= fuel -> descend fuel h [i] = filter (elemb h) ids) /\
  (forall q is ts ids, holds_all h q is ts ids -> forall fuel, (forall t, In t ts -> tree_size t <= fuel) -> descend fuel h is = filter (elemb h) ids).
Proof.
  apply holds_both.
  - intros p i n a is ks idss Hi Ha IH fuel Hf. cbn [tree_size] in Hf. destruct fuel as [|m]; [lia|]. cbn [descend flat_map]. rewrite Hi, app_nil_r. cbn [filter]. unfold elemb at 1. rewrite Hi. f_equal.
    apply IH. intros t Ht. apply size_in in Ht. lia.
  - intros p i s Hi fuel Hf. cbn [tree_size] in Hf. destruct fuel as [|m]; [lia|]. cbn [descend flat_map filter]. unfold elemb. rewrite Hi. reflexivity.
  - intros q fuel _. destruct fuel; reflexivity.
  - intros q i is t ts ids idss _ IH1 _ IH2 fuel Hf. change (i :: is) with ([i] ++ is). rewrite descend_app, filter_app. f_equal; [apply IH1; apply Hf; left; auto|apply IH2; intros x Hx; apply Hf; right; auto].
Qed.

(** ** Assigning the numbers *)
Lemma assign_out l : forall n f i, ~ In i l -> assign n l f i = f i.
Proof.
  induction l as [|k l IH]; intros n f i H; [reflexivity|]. cbn [assign]. rewrite IH by (intros K; apply H; right; auto). unfold set_en. destruct (Nat.eqb_spec i k); [|reflexivity]. destruct H. left; auto.
Qed.
Lemma assign_at l1 i l2 : forall n f, ~ In i l2 -> assign n (l1 ++ i :: l2) f i = Some (n + length l1).
Proof.
  induction l1 as [|k l1 IH]; intros n f H; cbn [app assign].
  - rewrite assign_out by auto. unfold set_en. rewrite Nat.eqb_refl. cbn [length]. f_equal. lia.
  - rewrite IH by auto. cbn [length]. f_equal. lia.
Qed.
Lemma assign_in l n f i : NoDup l -> In i l -> exists k, assign n l f i = Some k /\ n <= k.
Proof.
  intros Hn Hi. destruct (in_split _ _ Hi) as (a & b & ->). apply NoDup_remove_2 in Hn. rewrite assign_at by (intros K; apply Hn; apply in_or_app; auto). eexists. split; [reflexivity|]. lia.
Qed.
Lemma assign_left l n f i j : NoDup l -> left_of l i j -> exists a b, assign n l f i = Some a /\ assign n l f j = Some b /\ a < b.
Proof.
  intros Hn (l1 & l2 & l3 & ->). assert (Hi : ~ In i (l2 ++ j :: l3)) by (apply NoDup_remove_2 in Hn; intros K; apply Hn; apply in_or_app; auto).
  rewrite (assign_at l1 i (l2 ++ j :: l3)) by auto. change (l1 ++ i :: l2 ++ j :: l3) with (l1 ++ (i :: l2) ++ j :: l3) in *. rewrite app_assoc in *.
  apply NoDup_remove_2 in Hn. rewrite assign_at by (intros K; apply Hn; apply in_or_app; auto). do 2 eexists. split; [reflexivity|]. split; [reflexivity|]. rewrite app_length. cbn [length]. lia.
Qed.

(** ** Sorting *)
Lemma put_perm x l : Permutation (put x l) (x :: l).
Proof. induction l as [|y l IH]; cbn [put]; [auto|]. destruct (Nat.leb (fst x) (fst y)); [auto|]. rewrite IH. apply perm_swap. Qed.
Definition le_key (x y : nat * ditem) : Prop := fst x <= fst y.
Lemma put_sorted x l : StronglySorted le_key l -> StronglySorted le_key (put x l).
Proof.
  induction 1 as [|y l Hl IH Hy]; cbn [put]; [repeat constructor|]. destruct (Nat.leb_spec (fst x) (fst y)) as [E|E].
  - constructor; [constructor; auto|]. constructor; [exact E|]. eapply Forall_impl; [|exact Hy]. unfold le_key. intros; lia.
  - constructor; [exact IH|]. rewrite Forall_forall in *. intros z Hz. apply (Permutation_in _ (put_perm x l)) in Hz. destruct Hz as [<-|Hz]; [unfold le_key; lia|auto].
Qed.
Lemma sort_perm l : Permutation (fold_right put [] l) l.
Proof. induction l as [|x l IH]; cbn [fold_right]; [auto|]. rewrite put_perm. auto. Qed.
Lemma sort_sorted l : StronglySorted le_key (fold_right put [] l).
Proof. induction l as [|x l IH]; cbn [fold_right]; [constructor|]. apply put_sorted; auto. Qed.
Lemma keys_ok v l : (forall x, In x l -> number_of v x <> None) -> exists ks, keys v l = Some ks /\ map snd ks = l /\ forall k x, In (k, x) ks -> number_of v x = Some k.
Proof.
  induction l as [|x l IH]; intros H; [exists []; split; [reflexivity|]; split; [reflexivity|]; intros k x []|]. cbn [keys]. destruct (number_of v x) as [k|] eqn:E; [|destruct (H x (or_introl eq_refl) E)].
  destruct IH as (ks & -> & <- & G); [intros y Hy; apply H; right; auto|]. exists ((k, x) :: ks). split; [reflexivity|]. split; [reflexivity|]. intros k' x' [K|K]; [|eauto]. injection K as <- <-. exact E.
Qed.
Lemma keys_fail v l x : In x l -> number_of v x = None -> keys v l = None.
Proof.
  induction l as [|y l IH]; [intros []|]. intros [->|H] E; cbn [keys]; [rewrite E; reflexivity|]. rewrite (IH H E). destruct (number_of v y); reflexivity.
Qed.
Lemma sorted_map (R : ditem -> ditem -> Prop) l : (forall x y, In x l -> In y l -> le_key x y -> R (snd x) (snd y)) -> StronglySorted le_key l -> StronglySorted R (map snd l).
Proof.
  intros H S. induction S as [|x l Hl IH Hx]; [constructor|]. cbn [map]. constructor.
  - apply IH. intros a b Ha Hb. apply H; right; auto.
  - rewrite Forall_forall in *. intros y Hy. apply in_map_iff in Hy as (z & <- & Hz). apply H; [left; auto|right; auto|auto].
Qed.
Lemma arrange_ok v sel (R : ditem -> ditem -> Prop) : (forall x, In x sel -> number_of v x <> None) ->
  (forall x y a b, In x sel -> In y sel -> number_of v x = Some a -> number_of v y = Some b -> a <= b -> R x y) ->
  exists out, arrange v sel = Some out /\ Permutation sel out /\ StronglySorted R out.
Proof.
  intros H G. destruct (keys_ok v sel H) as (ks & E & M & K). exists (map snd (fold_right put [] ks)). unfold arrange. rewrite E. split; [reflexivity|].
  split; [rewrite <- M; apply Permutation_map; symmetry; apply sort_perm|]. apply sorted_map; [|apply sort_sorted].
  intros [a x] [b y] Hx Hy L. apply (Permutation_in _ (sort_perm ks)) in Hx, Hy. cbn [snd]. unfold le_key in L. cbn [fst] in L.
  apply (G x y a b); eauto; rewrite <- M; [apply (in_map snd _ _ Hx)|apply (in_map snd _ _ Hy)].
Qed.
Lemma arrange_fails v sel x : In x sel -> number_of v x = None -> arrange v sel = None.
Proof. intros H E. unfold arrange. rewrite (keys_fail v sel x H E). reflexivity. Qed.

(** ** Trees *)
Definition same_tree (h : heap) (i j : ref) : Prop := exists r, below h r i /\ below h r j.
Lemma tree_list h r : well_linked h -> is_elem h r -> exists p t ids, holds h p r t ids /\ NoDup ids /\ tree_size t <= nxt h /\ (forall j, In j ids <-> below h r j).
Proof.
  intros W (n & a & ks & p & Ho). pose proof W as (_ & _ & _ & T). destruct (T r _ Ho) as (t & ids & H & Hn). exists (oparent (OElem n a ks p)), t, ids.
  split; [exact H|]. split; [exact Hn|]. split; [eapply size_bound; eauto|]. intros j. split; [eapply (proj1 (holds_below h)); eauto|intros B; eapply below_holds; eauto].
Qed.
Lemma before_total h r i j : well_linked h -> within h r i -> within h r j -> i <> j -> comes_before h i j \/ comes_before h j i.
Proof.
  intros W [Bi Ei] [Bj Ej] Hn. assert (Er : is_elem h r).
  { clear - Ei Bi. induction Bi as [i|p j i B IH (oj & Hj & Hk)]; [auto|]. apply IH. destruct oj as [n a ks q|]; [repeat eexists; eauto|destruct Hk]. }
  destruct (tree_list h r W Er) as (p & t & ids & H & _ & _ & M). apply (proj1 (left_before h) _ _ _ _ H); [apply M; auto|apply M; auto|auto].
Qed.
Lemma no_child_top h r k : well_linked h -> parent_is h r None -> child h k r -> False.
Proof. intros (_ & L & _) (o & Ho & E) C. apply L in C. destruct C as (o' & Ho' & E'). congruence. Qed.
Lemma before_same h i j : comes_before h i j -> same_tree h i j.
Proof.
  intros [[_ B]|(p & o & x & y & Ho & Hl & Hx & Hy)]; [exists i; split; [constructor|auto]|].
  apply left_mem in Hl as [Lx Ly]. exists p. split; [apply (below_child h p x i); [exists o; auto|auto]|apply (below_child h p y j); [exists o; auto|auto]].
Qed.
Lemma top_covers h r i j : well_linked h -> parent_is h r None -> same_tree h i j -> below h r i -> below h r j.
Proof.
  intros W P (k & Bi & Bj) B. destruct (below_comparable h i (proj1 (proj2 W)) r k B Bi) as [K|K]; [eapply below_trans; eauto|].
  inversion K as [|? z ? _ Hz]; subst; [auto|]. destruct (no_child_top h r z W P Hz).
Qed.
(** The elements of a whole document, as they are numbered. *)
Lemma listed h r : well_linked h -> is_elem h r -> parent_is h r None -> exists L, (forall fuel, nxt h <= fuel -> descend fuel h [r] = L) /\ NoDup L /\
  (forall j, In j L <-> within h r j) /\ (forall i j, within h r i -> within h r j -> comes_before h i j -> left_of L i j).
Proof.
  intros W E P. destruct (tree_list h r W E) as (p & t & ids & H & Hn & Hs & M). exists (filter (elemb h) ids). split; [|split; [|split]].
  - intros fuel Hf. apply (proj1 (descend_ok h) _ _ _ _ H). lia.
  - apply NoDup_filter; auto.
  - intros j. rewrite filter_In, M, elemb_iff. reflexivity.
  - intros i j [Bi Ei] [Bj Ej] C. apply left_filter; [|apply elemb_iff; auto|apply elemb_iff; auto].
    eapply before_left; eauto; [| |apply M; auto|apply M; auto].
    + intros k Bk _. destruct (below_comparable h i (proj1 (proj2 W)) k r Bk Bi); auto.
    + intros k. apply no_child_top; auto.
Qed.

(** ** What numbering does *)
Definition same_or_new (h : heap) (v v' : numbers) (r : ref) : Prop :=
  (forall j, ~ within h r j -> en v' j = en v j) /\
  (forall j, within h r j -> en v' j <> None) /\
  (forall i j a b, within h r i -> within h r j -> comes_before h i j -> en v' i = Some a -> en v' j = Some b -> a < b).
Lemma root_eqb_eq a b : root_eqb a b = true <-> a = b.
Proof.
  destruct a as [i d], b as [j e]. unfold root_eqb. cbn [rid docelem]. rewrite Bool.andb_true_iff, !Nat.eqb_eq. split; [intros [-> ->]; reflexivity|intros H; injection H as -> ->; auto].
Qed.
Lemma tree_of_top h c r : tree_of h c r -> is_elem h r /\ parent_is h r None.
Proof. destruct c as [i|i|q]; cbn [tree_of]; [intros [[_ P] E]|intros [[_ P] E]|intros (_ & E & P)]; auto. Qed.
Lemma live_of_below h r i o : well_linked h -> hp h r = Some o -> below h r i -> exists o', hp h i = Some o'.
Proof.
  intros W Ho B. pose proof W as (_ & _ & _ & T). destruct (T r o Ho) as (t & ids & H & _). eapply (proj1 (holds_live h)); eauto. eapply below_holds; eauto.
Qed.
Lemma index_ok h v c r : well_linked h -> tree_of h c r -> exists v', index_docorder h v c = v' /\ same_or_new h v v' r /\
  (forall q, rn v' q = if match c with DRoot q' => root_eqb q q' | _ => false end then Some 0 else rn v q).
Proof.
  intros W H. destruct (tree_of_top h c r H) as [E P]. destruct (listed h r W E P) as (L & HL & Hn & HM & HO).
  assert (G : forall n f f', (forall j, ~ within h r j -> f j = en v j) -> (forall j, assign n L f j = f' j) -> forall g, same_or_new h v (mkNum f' g) r).
  { intros n f f' Hf Hf' g. split; [|split]; cbn [en].
    - intros j Hj. rewrite <- Hf'. rewrite assign_out by (rewrite HM; auto). auto.
    - intros j Hj. rewrite <- Hf'. destruct (assign_in L n f j Hn) as (k & -> & _); [apply HM; auto|discriminate].
    - intros i j a b Hi Hj C. rewrite <- !Hf'. destruct (assign_left L n f i j Hn (HO i j Hi Hj C)) as (a' & b' & -> & -> & Hl). intros Ea Eb. injection Ea as <-. injection Eb as <-. exact Hl. }
  pose proof E as (n & a & ks & p & Ho).
  assert (N : forall i, top_of h i r -> exists v', index_docorder h v (DNode i) = v' /\ same_or_new h v v' r /\ rn v' = rn v).
  { intros i Hi. destruct (live_of_below h r i _ W Ho (proj1 Hi)) as (o & Hio). pose proof (rise_ok h i o W Hio) as Ht. rewrite (top_unique h i r _ W Hi Ht) in *.
    unfold index_docorder. cbn [topmost]. cbn [dkids]. rewrite Ho. eexists. split; [reflexivity|]. cbn [number]. split; [|reflexivity].
    apply (G 0 (en v)); [auto|]. intros j. rewrite <- (HL (S (nxt h))) by lia. cbn [descend flat_map]. rewrite Ho, app_nil_r. cbn [assign en]. reflexivity. }
  destruct c as [i|i|q]; cbn [tree_of] in H.
  - destruct (N i (proj1 H)) as (v' & I1 & I2 & I3). exists v'. split; [exact I1|]. split; [exact I2|]. intros q. rewrite I3. reflexivity.
  - destruct (N i (proj1 H)) as (v' & I1 & I2 & I3). exists v'. split; [exact I1|]. split; [exact I2|]. intros q. rewrite I3. reflexivity.
  - destruct H as (Eq & _). unfold index_docorder. cbn [topmost dkids number en rn]. rewrite Eq. eexists. split; [reflexivity|]. split; [|reflexivity]. apply (G 1 (en v)); [auto|]. intros j. rewrite HL by lia. reflexivity.
Qed.
