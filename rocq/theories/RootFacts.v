(** Facts about the cache of root nodes. *)
From Verif Require Import PyStr Parser XTree Heap Builder HeapSpec BuilderFacts HeapFacts RootCache RootSpec.

Lemma parent_live h i p : well_linked h -> parent_is h i (Some p) -> xml_parent h i = Some p /\ is_elem h p /\ child h p i.
Proof.
  intros (_ & L & _) H. pose proof (proj2 (L p i) H) as (o & Ho & Hi). destruct H as (o' & Ho' & E). unfold xml_parent. rewrite Ho', E, Ho. split; [reflexivity|].
  split; [|exists o; auto]. destruct o as [n a ks q|s q]; [repeat eexists; eauto|destruct Hi].
Qed.
Lemma xml_parent_some h i p : xml_parent h i = Some p -> parent_is h i (Some p).
Proof.
  unfold xml_parent. destruct (hp h i) as [o|] eqn:E; [|discriminate]. destruct (oparent o) as [q|] eqn:F; [|discriminate]. destruct (hp h q); [|discriminate]. intros H. inversion H; subst. exists o. auto.
Qed.
Lemma xml_parent_none h i o : well_linked h -> hp h i = Some o -> xml_parent h i = None -> parent_is h i None.
Proof.
  intros W Ho H. exists o. split; [auto|]. destruct (oparent o) as [p|] eqn:E; [|reflexivity]. destruct (parent_live h i p W) as (K & _); [exists o; auto|]. congruence.
Qed.
Lemma top_step h i p r : well_linked h -> parent_is h i (Some p) -> (top_of h i r <-> top_of h p r).
Proof.
  intros W H. pose proof (parent_live h i p W H) as (_ & _ & Hc). destruct W as (_ & L & _). split; intros [H1 H2]; split; auto.
  - destruct (below_strict h p i L H r H1) as [->|]; [|auto]. destruct H as (o & E1 & E2), H2 as (o' & E3 & E4). congruence.
  - eapply be_kid; eauto.
Qed.
Lemma top_here h i r : well_linked h -> parent_is h i None -> (top_of h i r <-> r = i).
Proof.
  intros (_ & L & _) H. split.
  - intros [H1 H2]. inversion H1 as [|p j i' H3 H4]; subst; [auto|]. apply L in H4. destruct H as (o & E1 & E2), H4 as (o' & E3 & E4). congruence.
  - intros ->. split; [constructor|auto].
Qed.
Lemma below_live h r i o : hp h i = Some o -> below h r i -> exists o', hp h r = Some o'.
Proof.
  intros H B. revert o H. induction B as [i|p j i B IH (oj & Hj & Hi)]; intros o H; [eauto|]. eapply IH; eauto.
Qed.
Lemma top_elem h i r : well_linked h -> is_elem h i -> top_of h i r -> is_elem h r.
Proof.
  intros W Hi [B _]. clear - Hi B. induction B as [i|p j i B IH (oj & Hj & Hk)]; [auto|]. apply IH. destruct oj as [n a ks q|]; [repeat eexists; eauto|destruct Hk].
Qed.

(** The fuel suffices. *)
Lemma NoDup_bound (l : list nat) m : NoDup l -> (forall x, In x l -> x < m) -> length l <= m.
Proof.
  intros Hn Hb. rewrite <- (seq_length m 0). apply NoDup_incl_length; [auto|]. intros x Hx. apply in_seq. specialize (Hb x Hx). lia.
Qed.
Lemma holds_size h : (forall p i t ids, holds h p i t ids -> length ids = tree_size t) /\
  (forall q is ts ids, holds_all h q is ts ids -> length ids = fold_right (fun k n => tree_size k + n) 0 ts).
Proof.
  apply holds_both.
  - intros p i n a is ks idss _ _ IH. cbn [length tree_size]. congruence.
  - reflexivity.
  - reflexivity.
  - intros q i is t ts ids idss _ IH1 _ IH2. rewrite app_length. cbn [fold_right]. congruence.
Qed.
Lemma size_bound h p i t ids : well_linked h -> holds h p i t ids -> tree_size t <= nxt h.
Proof.
  intros (A & L & N & T) H. destruct (holds_obj h p i t ids H) as (o & Ho & E). destruct (T i o Ho) as (t' & ids' & H' & Hn).
  rewrite <- (proj1 (holds_det h) _ _ _ _ H _ _ _ H'), <- (proj1 (holds_size h) _ _ _ _ H'). apply NoDup_bound; [auto|].
  intros x Hx. destruct (proj1 (holds_live h) _ _ _ _ H' x Hx) as (ox & Hox). eapply A; eauto.
Qed.
Lemma parent_bigger h i p t ids q t' ids' : holds h (Some p) i t ids -> child h p i -> holds h q p t' ids' -> tree_size t < tree_size t'.
Proof.
  intros H (o & Ho & Hi) H'. inversion H' as [q' p' n a is ks idss E1 E2|q' p' s E]; subst.
  - rewrite Ho in E1. inversion E1; subst. cbn in Hi. destruct (holds_all_in h p is ks idss E2 i Hi) as (t2 & ids2 & H2 & Hin & _).
    rewrite (proj1 (holds_det h) _ _ _ _ H2 _ _ _ H). apply size_in in Hin. cbn [tree_size]. lia.
  - rewrite Ho in E. inversion E; subst. destruct Hi.
Qed.

Definition cache_ok (h : heap) (c : rcache) : Prop := forall i r, lookup (entries c) i = Some r -> is_elem h i /\ top_of h i (docelem r).
Lemma climb_ok h c : well_linked h -> cache_ok h c -> forall fuel i t ids p, is_elem h i -> holds h p i t ids -> nxt h < fuel + tree_size t ->
  exists x, climb fuel h c i (xml_parent h i) = Some x /\ match x with inl r => top_of h i (docelem r) | inr top => top_of h i top end.
Proof.
  intros W C. induction fuel as [|n IH]; intros i t ids p Hi H Hf.
  - pose proof (size_bound h p i t ids W H). lia.
  - destruct (xml_parent h i) as [q|] eqn:E; cbn [climb].
    + pose proof (xml_parent_some h i q E) as Hq. destruct (parent_live h i q W Hq) as (_ & Eq & Hc).
      assert (Top : forall r, top_of h q r -> top_of h i r) by (intros r; apply (top_step h i q r W Hq)).
      destruct (xml_parent h q) as [g|] eqn:G.
      * pose proof (xml_parent_some h q g G) as Hg. destruct (lookup (entries c) g) as [r|] eqn:Lk.
        { exists (inl r). split; [reflexivity|]. apply Top. apply (top_step h q g _ W Hg). apply (C g r Lk). }
        destruct Eq as (nq & aq & kq & pq & Ho). destruct W as (A & L & N & T). destruct (T q _ Ho) as (t' & ids' & H' & _).
        assert (tree_size t < tree_size t').
        { destruct (holds_obj h p i t ids H) as (oi & Hoi & Epi). destruct Hq as (oi' & Hoi' & Epi'). assert (p = Some q) as -> by congruence. eapply parent_bigger; eauto. }
        destruct (IH q t' ids' _ ltac:(repeat eexists; eauto) H' ltac:(lia)) as (x & Ex & Hx). rewrite G in Ex. exists x. split; [exact Ex|]. destruct x; apply Top; auto.
      * destruct n as [|n'].
        { exists (inr q). split; [reflexivity|]. apply Top. destruct Eq as (nq & aq & kq & pq & Ho). apply top_here; auto. eapply xml_parent_none; eauto. }
        exists (inr q). split; [reflexivity|]. apply Top. destruct Eq as (nq & aq & kq & pq & Ho). apply top_here; auto. eapply xml_parent_none; eauto.
    + exists (inr i). split; [reflexivity|]. destruct Hi as (ni & ai & ki & pi & Ho). apply top_here; auto. eapply xml_parent_none; eauto.
Qed.
Lemma get_ok h c i : well_linked h -> cache_ok h c -> is_elem h i ->
  exists c' r, get h c (RNode i) = Some (RGot c' r) /\ top_of h i (docelem r) /\ cache_ok h c'.
Proof.
  intros W C Hi. unfold get. destruct (lookup (entries c) i) as [r|] eqn:E; [exists c, r; split; [reflexivity|]; split; [apply (C i r E)|auto]|].
  pose proof Hi as (n & a & ks & p & Ho). rewrite Ho. pose proof W as (_ & _ & _ & T). destruct (T i _ Ho) as (t & ids & H & _).
  destruct (climb_ok h c W C (nxt h) i t ids _ Hi H) as (x & -> & Hx).
  { destruct t; cbn [tree_size]; lia. }
  destruct x as [r|top]; [exists c, r; auto|]. eexists _, _. split; [reflexivity|]. split; [exact Hx|].
  intros j r. cbn [entries lookup]. destruct (Nat.eqb_spec i j) as [->|]; [|apply C]. intros K. inversion K; subst. split; auto.
Qed.
Lemma get_cache h c i c' r : well_linked h -> cache_ok h c -> get h c (RNode i) = Some (RGot c' r) -> cache_ok h c'.
Proof.
  intros W C G. destruct (hp h i) as [[n a ks p|s p]|] eqn:E.
  - destruct (get_ok h c i W C) as (c2 & r2 & G2 & _ & C2); [repeat eexists; eauto|]. rewrite G in G2. inversion G2; subst; auto.
  - unfold get in G. destruct (lookup (entries c) i) as [r'|] eqn:F; [inversion G; subst; auto|]. rewrite E in G. discriminate.
  - unfold get in G. destruct (lookup (entries c) i) as [r'|] eqn:F; [inversion G; subst; auto|]. rewrite E in G. discriminate.
Qed.
Lemma top_more h h' i r : (forall j o, hp h j = Some o -> hp h' j = Some o) -> top_of h i r -> top_of h' i r.
Proof.
  intros K [B (o & H1 & H2)]. split; [|exists o; auto]. clear - K B. induction B as [i|p j i B IH (oj & Hj & Hi)]; [constructor|]. eapply be_kid; [exact IH|]. exists oj. auto.
Qed.
Lemma history_ok h c : history h c -> well_linked h /\ cache_ok h c.
Proof.
  induction 1 as [h W|h c i c' r H [W C] G|h c h' H [W C] W' K].
  - split; [auto|]. intros i r E. discriminate.
  - split; [auto|]. eapply get_cache; eauto.
  - split; [auto|]. intros i r E. destruct (C i r E) as [(n & a & ks & p & Ho) Ht]. split; [repeat eexists; eauto|]. eapply top_more; eauto.
Qed.
Lemma history_get h c i : history h c -> is_elem h i -> exists c' r, get h c (RNode i) = Some (RGot c' r) /\ top_of h i (docelem r).
Proof. intros H Hi. apply history_ok in H as [W C]. destruct (get_ok h c i W C Hi) as (c' & r & G & T & _). eauto. Qed.
Lemma top_unique h i r r' : well_linked h -> top_of h i r -> top_of h i r' -> r = r'.
Proof.
  intros (A & L & N & T) [B1 P1] [B2 P2]. destruct (below_comparable h i L r r' B1 B2) as [B|B]; inversion B as [|p j k B3 B4]; subst; auto.
  - apply L in B4. destruct P2 as (o & E1 & E2), B4 as (o' & E3 & E4). congruence.
  - apply L in B4. destruct P1 as (o & E1 & E2), B4 as (o' & E3 & E4). congruence.
Qed.
(** Text nodes *)
Lemma history_text h c i s : history h c -> is_text h i s -> get h c (RNode i) = Some RAssertion.
Proof.
  intros H (p & E). apply history_ok in H as [W C]. unfold get. destruct (lookup (entries c) i) as [r|] eqn:F; [|rewrite E; reflexivity].
  destruct (C i r F) as [(n & a & ks & q & Ho) _]. congruence.
Qed.
(** Stale after moving a document element *)
Lemma insert_links h self i index h' : is_elem h i -> i <> self -> xml_insert h self (ARef i) index = EOk h' -> parent_is h' i (Some self).
Proof.
  intros (n & a & ks & p & Hi) Hne E. unfold xml_insert in E. destruct (hp h self) as [[ns as_ kss ps|]|] eqn:Es; try discriminate. rewrite Hi in E. unfold place_kid in E.
  rewrite hp_upd_other in E by auto. rewrite Es in E. inversion E; subst. exists (OElem n a ks (Some self)). split; [|reflexivity].
  rewrite hp_upd_other by auto. apply hp_upd_same.
Qed.
Lemma stale h c i c' r self index h' : history h c -> is_elem h i -> parent_is h i None -> ~ below h i self ->
  get h c (RNode i) = Some (RGot c' r) -> lookup (entries c') i = Some r -> xml_insert h self (ARef i) index = EOk h' ->
  get h' c' (RNode i) = Some (RGot c' r) /\ forall top, top_of h' i top -> docelem r <> top.
Proof.
  intros H Hi Hp Hb G Lk E. pose proof (history_ok h c H) as [W C]. split; [unfold get; rewrite Lk; reflexivity|].
  destruct (get_ok h c i W C Hi) as (c2 & r2 & G2 & T & _). rewrite G in G2. inversion G2; subst c2 r2. apply (top_here h i _ W Hp) in T. rewrite T.
  intros top [_ P] ->. assert (top <> self) by (intros ->; apply Hb; constructor).
  pose proof (insert_links h self top index h' Hi ltac:(auto) E) as (o & E1 & E2). destruct P as (o' & E3 & E4). congruence.
Qed.
(** A document element is always found under its own key. *)
Lemma own_entry h c i c' r : history h c -> is_elem h i -> parent_is h i None -> get h c (RNode i) = Some (RGot c' r) -> lookup (entries c') i = Some r.
Proof.
  intros H (n & a & ks & p & Ho) (o & E1 & E2) G. rewrite Ho in E1. inversion E1; subst. cbn in E2. subst p. unfold get in G. destruct (lookup (entries c) i) as [r'|] eqn:F; [inversion G; subst; auto|].
  rewrite Ho in G. assert (xml_parent h i = None) as X by (unfold xml_parent; rewrite Ho; reflexivity). rewrite X in G.
  assert (forall k, climb k h c i None = Some (inr i)) as Y by (intros []; reflexivity). rewrite Y in G. inversion G; subst. cbn [entries lookup]. rewrite Nat.eqb_refl. reflexivity.
Qed.

(** ** Which root node *)
Lemma get_entries h c i c' r : get h c (RNode i) = Some (RGot c' r) ->
  c' = c \/ (lookup (entries c) i = None /\ entries c' = (i, r) :: entries c).
Proof.
  unfold get. destruct (lookup (entries c) i) as [r0|] eqn:L; [intros K; injection K as <- <-; auto|]. destruct (hp h i) as [[n a ks p|s p]|]; try discriminate.
  destruct (climb (nxt h) h c i (xml_parent h i)) as [[r0|top]|]; [intros K; injection K as <- <-; auto|intros K; injection K as <- <-; auto|discriminate].
Qed.
Lemma lookup_stays h c i c' r j r' : get h c (RNode i) = Some (RGot c' r) -> lookup (entries c) j = Some r' -> lookup (entries c') j = Some r'.
Proof.
  intros G L. apply get_entries in G as [->|[N E]]; auto. rewrite E. cbn [lookup]. destruct (Nat.eqb_spec i j) as [->|]; [congruence|auto].
Qed.
Lemma lookup_later h c h2 c2 : later h c h2 c2 -> forall j r, lookup (entries c) j = Some r -> lookup (entries c2) j = Some r.
Proof. induction 1 as [h c|h c h1 c1 i c2 r H IH G|h c h1 c1 h2 H IH W M]; intros j r0 L; auto. eapply lookup_stays; eauto. Qed.
Lemma get_known h c i r : lookup (entries c) i = Some r -> get h c (RNode i) = Some (RGot c r).
Proof. intros L. unfold get. rewrite L. reflexivity. Qed.
Lemma get_again h c i c' r : get h c (RNode i) = Some (RGot c' r) -> get h c' (RNode i) = Some (RGot c' r).
Proof.
  intros G. pose proof G as G0. apply get_entries in G as [->|[N E]]; auto. apply get_known. rewrite E. cbn [lookup]. rewrite Nat.eqb_refl. reflexivity.
Qed.
Lemma get_kept h c i c1 r h2 c2 : get h c (RNode i) = Some (RGot c1 r) -> c1 <> c -> later h c1 h2 c2 -> get h2 c2 (RNode i) = Some (RGot c2 r).
Proof.
  intros G N L. apply get_known, (lookup_later _ _ _ _ L). apply get_entries in G as [->|[_ E]]; [congruence|]. rewrite E. cbn [lookup]. rewrite Nat.eqb_refl. reflexivity.
Qed.
