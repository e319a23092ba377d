From Verif Require Import PyStr Parser XTree Path TreeUtil TreeUtilSpec Heap Builder HeapSpec HeapFacts PrettyHeap PrettyHeapSpec.

Lemma same_but_kids_refl o : same_but_kids o o. Proof. destruct o; cbn; auto. Qed.
Lemma same_but_kids_trans a b c : same_but_kids a b -> same_but_kids b c -> same_but_kids a c.
Proof. destruct a, b, c; cbn; intuition congruence. Qed.
Lemma kept_refl h : kept h h. Proof. intros j o H. exists o. split; [auto|apply same_but_kids_refl]. Qed.
Lemma kept_trans a b c : kept a b -> kept b c -> kept a c.
Proof. intros H1 H2 j o H. destruct (H1 j o H) as (o1 & E1 & S1). destruct (H2 j o1 E1) as (o2 & E2 & S2). exists o2. split; [auto|]. eapply same_but_kids_trans; eauto. Qed.
Lemma kept_stays h h' j o : kept h h' -> hp h j = Some o -> stays h' j = stays h j.
Proof.
  intros K H. destruct (K j o H) as (o' & E & S). unfold stays. rewrite H, E. destruct o, o'; cbn in S; try contradiction; [reflexivity|]. destruct S as [-> _]. reflexivity.
Qed.
Lemma alloc_kept h o : allocated h -> kept h (fst (alloc h o)).
Proof. intros A j o' H. exists o'. rewrite hp_alloc_other by (intros ->; apply A in H; lia). split; [auto|apply same_but_kids_refl]. Qed.
Lemma alloc_allocated h o : allocated h -> allocated (fst (alloc h o)).
Proof. intros A j o'. rewrite hp_alloc. cbn [alloc fst nxt]. destruct (Nat.eqb_spec j (nxt h)); [lia|]. intros H. apply A in H. lia. Qed.

(** What a call, or the loop, does: [ids] are the objects of the subtrees before it, [ids'] after it. *)
Record effect (h h' : heap) (ids ids' : list ref) : Prop := mkE {
  ef_alloc : allocated h';
  ef_nxt : nxt h <= nxt h';
  ef_frame : forall j, j < nxt h -> ~ In j ids -> hp h' j = hp h j;
  ef_kept : kept h h';
  ef_nodup : NoDup ids';
  ef_new : forall j, nxt h <= j < nxt h' -> In j ids';
  ef_low : filter (fun j => j <? nxt h) ids' = filter (stays h) ids;
  ef_high : forall j, In j ids' -> j < nxt h' }.

Lemma ef_in h h' ids ids' j : effect h h' ids ids' -> In j ids' -> In j ids \/ nxt h <= j < nxt h'.
Proof.
  intros E H. destruct (Nat.lt_ge_cases j (nxt h)) as [L|L]; [left|right; split; [auto|eapply ef_high; eauto]].
  assert (K : In j (filter (fun j => j <? nxt h) ids')) by (apply filter_In; split; [auto|apply Nat.ltb_lt; auto]).
  rewrite (ef_low _ _ _ _ E) in K. apply filter_In in K. tauto.
Qed.
Lemma ids_low h : allocated h -> (forall p i t ids, holds h p i t ids -> forall j, In j ids -> j < nxt h) /\
  (forall q is ts ids, holds_all h q is ts ids -> forall j, In j ids -> j < nxt h).
Proof.
  intros A. split; intros p i t ids H j Hj; [destruct (proj1 (holds_live h) _ _ _ _ H j Hj) as (o & Ho)|destruct (proj2 (holds_live h) _ _ _ _ H j Hj) as (o & Ho)]; eapply A; eauto.
Qed.
Lemma filter_true {A} (f : A -> bool) l : (forall x, In x l -> f x = true) -> filter f l = l.
Proof. induction l as [|x l IH]; intros H; cbn [filter]; [reflexivity|]. rewrite H by (left; auto). rewrite IH by (intros; apply H; right; auto). reflexivity. Qed.
Lemma filter_false {A} (f : A -> bool) l : (forall x, In x l -> f x = false) -> filter f l = [].
Proof. induction l as [|x l IH]; intros H; cbn [filter]; [reflexivity|]. rewrite H by (left; auto). apply IH. intros; apply H; right; auto. Qed.
Lemma NoDup_app_inv {A} (l m : list A) : NoDup (l ++ m) -> NoDup l /\ NoDup m /\ forall x, In x l -> ~ In x m.
Proof.
  induction l as [|x l IH]; cbn [app]; intros H; [repeat split; auto; constructor|]. inversion H as [|? ? N D]; subst. destruct (IH D) as (I1 & I2 & I3).
  split; [constructor; [intros K; apply N; apply in_or_app; auto|auto]|]. split; [auto|]. intros y [<-|Hy]; [intros K; apply N; apply in_or_app; auto|auto].
Qed.

Lemma filter_narrow (m n : nat) l : m <= n -> filter (fun j => j <? m) (filter (fun j => j <? n) l) = filter (fun j => j <? m) l.
Proof.
  intros L. induction l as [|x l IH]; cbn [filter]; [reflexivity|]. destruct (Nat.ltb_spec x n); cbn [filter]; [rewrite IH; reflexivity|].
  destruct (Nat.ltb_spec x m); [lia|]. exact IH.
Qed.
(** One after the other. *)
Lemma effect_seq h h1 h2 idsa idsb ids1 ids2 : effect h h1 idsa ids1 -> effect h1 h2 idsb ids2 ->
  NoDup (idsa ++ idsb) -> (forall j, In j (idsa ++ idsb) -> exists o, hp h j = Some o) -> allocated h -> effect h h2 (idsa ++ idsb) (ids1 ++ ids2).
Proof.
  intros E1 E2 N Lv A. destruct (NoDup_app_inv _ _ N) as (Na & Nb & Dis). pose proof (ef_nxt _ _ _ _ E1) as L1. pose proof (ef_nxt _ _ _ _ E2) as L2.
  assert (Low : forall j, In j (idsa ++ idsb) -> j < nxt h) by (intros j Hj; destruct (Lv j Hj) as (o & Ho); eapply A; eauto).
  constructor.
  - exact (ef_alloc _ _ _ _ E2).
  - lia.
  - intros j Hj Hn. rewrite in_app_iff in Hn. rewrite (ef_frame _ _ _ _ E2) by (try lia; tauto). apply (ef_frame _ _ _ _ E1); tauto.
  - exact (kept_trans _ _ _ (ef_kept _ _ _ _ E1) (ef_kept _ _ _ _ E2)).
  - apply NoDup_app_disjoint; [exact (ef_nodup _ _ _ _ E1)|exact (ef_nodup _ _ _ _ E2)|]. intros j H1 H2.
    destruct (ef_in _ _ _ _ j E1 H1) as [K1|K1], (ef_in _ _ _ _ j E2 H2) as [K2|K2].
    + exact (Dis j K1 K2).
    + specialize (Low j ltac:(apply in_or_app; auto)). lia.
    + specialize (Low j ltac:(apply in_or_app; auto)). lia.
    + lia.
  - intros j Hj. destruct (Nat.lt_ge_cases j (nxt h1)); apply in_or_app; [left; apply (ef_new _ _ _ _ E1); lia|right; apply (ef_new _ _ _ _ E2); lia].
  - rewrite !filter_app. f_equal; [exact (ef_low _ _ _ _ E1)|]. rewrite <- (filter_narrow (nxt h) (nxt h1)) by auto. rewrite (ef_low _ _ _ _ E2).
    rewrite (filter_true (fun j => j <? nxt h)) by (intros j Hj; apply filter_In in Hj as [Hj _]; apply Nat.ltb_lt, Low, in_or_app; auto).
    apply filter_ext_in. intros j Hj. destruct (Lv j ltac:(apply in_or_app; auto)) as (o & Ho). eapply kept_stays; [exact (ef_kept _ _ _ _ E1)|exact Ho].
  - intros j Hj. apply in_app_iff in Hj as [Hj|Hj]; [pose proof (ef_high _ _ _ _ E1 j Hj); lia|exact (ef_high _ _ _ _ E2 j Hj)].
Qed.
(** A new text, nothing lost. *)
Lemma effect_new h o : allocated h -> effect h (fst (alloc h o)) [] [nxt h].
Proof.
  intros A. constructor.
  - apply alloc_allocated; auto.
  - cbn. lia.
  - intros j Hj _. apply hp_alloc_other. lia.
  - apply alloc_kept; auto.
  - repeat constructor. intros [].
  - cbn. intros j Hj. left. lia.
  - cbn [filter]. rewrite Nat.ltb_irrefl. reflexivity.
  - cbn. intros j [<-|[]]. lia.
Qed.
(** A node that stays, and one that goes. *)
Lemma effect_stay h j o : allocated h -> hp h j = Some o -> stays h j = true -> effect h h [j] [j].
Proof.
  intros A H K. constructor; auto.
  - apply kept_refl.
  - repeat constructor. intros [].
  - intros; lia.
  - cbn [filter]. rewrite K. apply A in H. apply Nat.ltb_lt in H. rewrite H. reflexivity.
  - intros i [<-|[]]. eapply A; eauto.
Qed.
Lemma effect_go h j : allocated h -> stays h j = false -> effect h h [j] [].
Proof.
  intros A K. constructor; auto.
  - apply kept_refl.
  - constructor.
  - intros; lia.
  - cbn [filter]. rewrite K. reflexivity.
  - intros i [].
Qed.
Lemma effect_none h : allocated h -> effect h h [] [].
Proof. intros A. constructor; auto; [apply kept_refl|constructor|intros; lia|intros j []]. Qed.
Lemma effect_holds h h' ids ids' p i t idx : effect h h' ids ids' -> holds h p i t idx -> allocated h -> (forall j, In j idx -> ~ In j ids) -> holds h' p i t idx.
Proof.
  intros E H A D. eapply (proj1 (holds_same h h')); [exact H|]. intros j Hj. apply (ef_frame _ _ _ _ E); [|auto]. eapply (proj1 (ids_low h A)); eauto.
Qed.
Lemma effect_holds_all h h' ids ids' p i t idx : effect h h' ids ids' -> holds_all h p i t idx -> allocated h -> (forall j, In j idx -> ~ In j ids) -> holds_all h' p i t idx.
Proof.
  intros E H A D. eapply (proj2 (holds_same h h')); [exact H|]. intros j Hj. apply (ef_frame _ _ _ _ E); [|auto]. eapply (proj2 (ids_low h A)); eauto.
Qed.

Section Loop.
  Variable rec : heap -> ref -> option heap.
  Variable f : xtree -> xtree.
  Variable self : ref.
  Variable indent : str.
  Definition good (t : xtree) : Prop := is_element t -> forall h p i ids, holds h p i t ids -> NoDup ids -> allocated h ->
    exists h' ids', rec h i = Some h' /\ holds h' p i (f t) ids' /\ effect h h' ids ids'.
  Definition txt (depth : nat) : xtree := ind_text indent depth.

  Lemma loop_ok depth : forall ts, Forall good ts -> forall h ix is ids, holds_all h self is ts ids -> NoDup ids -> allocated h ->
    exists h' l ids', pretty_loop rec self indent depth ix h is = Some (h', l) /\
      holds_all h' self l (pretty_kids f indent depth ix ts) ids' /\ effect h h' ids ids'.
  Proof.
    induction 1 as [|t ts G Gs IH]; intros h ix is ids H N A; inversion H as [|q i is' t' ts' idi idss Hi Hs]; subst; cbn [pretty_loop pretty_kids].
    - destruct (Nat.even ix).
      + cbn [new_text alloc]. eexists _, _, _. split; [reflexivity|]. split; [|exact (effect_new h _ A)].
        assert (K : holds (fst (alloc h (OText (c_nl :: str_repeat indent (depth - 1)) (Some self)))) (Some self) (nxt h) (txt (depth - 1)) [nxt h])
          by (constructor; rewrite hp_alloc, Nat.eqb_refl; reflexivity).
        exact (ha_cons _ self _ _ _ _ _ _ K (ha_nil _ self)).
      + eexists _, _, _. split; [reflexivity|]. split; [constructor|apply effect_none; auto].
    - destruct (NoDup_app_inv _ _ N) as (Ni & Ns & Dis). assert (Lv : forall j, In j (idi ++ idss) -> exists o, hp h j = Some o) by (intros j Hj; exact (proj2 (holds_live h) _ _ _ _ H j Hj)).
      assert (Lows : forall j, In j idi \/ In j idss -> j < nxt h) by (intros j Hj; destruct (Lv j ltac:(apply in_or_app; auto)) as (o & Ho); eapply A; eauto).
      (* a new text, possibly for a text that goes *)
      assert (New : forall d idold, (idold = [] \/ exists j, idold = [j] /\ stays h j = false) -> let h0 := fst (new_text h self indent d) in
        effect h h0 idold [nxt h] /\ holds h0 (Some self) (nxt h) (txt d) [nxt h]).
      { intros d idold Ho h0. pose proof (effect_new h (OText (c_nl :: str_repeat indent d) (Some self)) A) as E0. split.
        - destruct Ho as [->|(j & -> & Hj)]; [exact E0|]. destruct E0 as [X1 X2 X3 X4 X5 X6 X7 X8]. constructor; [exact X1|exact X2|intros i0 Hi0 _; apply X3; auto|exact X4|exact X5|exact X6| |exact X8].
          rewrite X7. cbn [filter]. rewrite Hj. reflexivity.
        - constructor. unfold h0, new_text. rewrite hp_alloc, Nat.eqb_refl. reflexivity. }
      destruct t as [n a ks|s].
      + assert (Ek : exists is0, hp h i = Some (OElem n a is0 (Some self))) by (inversion Hi; subst; eauto). destruct Ek as (is0 & Ek). rewrite Ek.
        destruct (Nat.odd ix).
        * destruct (G (ex_intro _ n (ex_intro _ a (ex_intro _ ks eq_refl))) h (Some self) i idi Hi Ni A) as (h1 & ids1 & R1 & H1 & E1). rewrite R1. pose proof (ef_alloc _ _ _ _ E1) as A1.
          destruct (IH h1 (ix + 1) is' idss) as (h2 & l & ids2 & R2 & H2 & E2); [eapply effect_holds_all; eauto; intros j Hj Hk; exact (Dis j Hk Hj)|auto|auto|].
          rewrite R2. eexists _, _, _. split; [reflexivity|]. split; [|eapply effect_seq; eauto].
          constructor; [|exact H2]. eapply effect_holds; [exact E2|exact H1|exact A1|]. intros j Hj Hk.
          destruct (ef_in _ _ _ _ j E1 Hj) as [K|K]; [exact (Dis j K Hk)|]. specialize (Lows j ltac:(auto)). lia.
        * destruct (New depth [] (or_introl eq_refl)) as [E0 H0]. destruct (new_text h self indent depth) as [h0 t0] eqn:Et. assert (t0 = nxt h) as -> by (inversion Et; reflexivity). cbn [fst] in *. pose proof (ef_alloc _ _ _ _ E0) as A0.
          destruct (G (ex_intro _ n (ex_intro _ a (ex_intro _ ks eq_refl))) h0 (Some self) i idi) as (h1 & ids1 & R1 & H1 & E1); [eapply effect_holds; eauto|auto|auto|]. rewrite R1. pose proof (ef_alloc _ _ _ _ E1) as A1.
          assert (E01 : effect h h1 idi (nxt h :: ids1)).
          { change idi with ([] ++ idi). change (nxt h :: ids1) with ([nxt h] ++ ids1). eapply effect_seq; eauto. intros j Hj. apply Lv. apply in_or_app; auto. }
          destruct (IH h1 (ix + 2) is' idss) as (h2 & l & ids2 & R2 & H2 & E2); [eapply effect_holds_all; eauto; intros j Hj Hk; exact (Dis j Hk Hj)|auto|auto|].
          rewrite R2. eexists _, _, _. split; [reflexivity|]. split; [|eapply effect_seq; [exact E01|exact E2|auto|auto|auto]].
          cbn [app]. assert (Out : forall j, In j (nxt h :: ids1) -> ~ In j idss).
          { intros j Hj Hk. destruct (ef_in _ _ _ _ j E01 Hj) as [K|K]; [exact (Dis j K Hk)|]. specialize (Lows j ltac:(auto)). lia. }
          change (nxt h :: ids1 ++ ids2) with ([nxt h] ++ (ids1 ++ ids2)). constructor.
          -- eapply effect_holds; [exact E2| |exact A1|intros j [<-|[]]; apply Out; left; auto]. eapply effect_holds; [exact E1|exact H0|exact A0|].
             intros j [<-|[]] Hk. specialize (Lows (nxt h) ltac:(auto)). lia.
          -- constructor; [|exact H2]. eapply effect_holds; [exact E2|exact H1|exact A1|]. intros j Hj. apply Out. right; auto.
      + assert (Eids : hp h i = Some (OText s (Some self)) /\ idi = [i]) by (inversion Hi; subst; auto). destruct Eids as [Ei ->]. rewrite Ei.
        assert (Si : stays h i = negb (blankb s)) by (unfold stays; rewrite Ei; reflexivity). destruct (blankb s).
        * destruct (New depth [i] ltac:(right; eexists; split; [reflexivity|exact Si])) as [E0 H0].
          destruct (new_text h self indent depth) as [h0 t0] eqn:Et. assert (t0 = nxt h) as -> by (inversion Et; reflexivity). cbn [fst] in *. pose proof (ef_alloc _ _ _ _ E0) as A0.
          destruct (IH h0 (ix + 1) is' idss) as (h2 & l & ids2 & R2 & H2 & E2); [eapply effect_holds_all; eauto; intros j Hj [<-|[]]; exact (Dis i (or_introl eq_refl) Hj)|auto|auto|].
          rewrite R2. eexists _, _, _. split; [reflexivity|]. split; [|eapply effect_seq; [exact E0|exact E2|auto|auto|auto]].
          constructor; [|exact H2]. eapply effect_holds; [exact E2|exact H0|exact A0|]. intros j [<-|[]] Hk. specialize (Lows (nxt h) ltac:(auto)). lia.
        * pose proof (effect_stay h i _ A Ei Si) as E0.
          destruct (IH h (ix + 1) is' idss) as (h2 & l & ids2 & R2 & H2 & E2); [auto|auto|auto|].
          rewrite R2. eexists _, _, _. split; [reflexivity|]. split; [|eapply effect_seq; [exact E0|exact E2|auto|auto|auto]].
          constructor; [|exact H2]. eapply effect_holds; [exact E2|exact Hi|exact A|]. intros j [<-|[]] Hk. exact (Dis i (or_introl eq_refl) Hk).
  Qed.
End Loop.

Lemma pretty_ok t : is_element t -> forall fuel d ind h p i ids, tree_size t <= fuel -> holds h p i t ids -> NoDup ids -> allocated h ->
  exists h' ids', pretty fuel d ind h i = Some h' /\ holds h' p i (make_pretty d ind t) ids' /\ effect h h' ids ids'.
Proof.
  induction t as [n a ks IH|s] using xtree_ind'; intros El; [|destruct El as (? & ? & ? & El); discriminate]. intros fuel d ind h p i ids Hf H N A.
  destruct fuel as [|fuel]; [cbn [tree_size] in Hf; lia|]. cbn [pretty make_pretty]. inversion H as [p' i' n' a' is ks' idss Ho Ha|]; subst. rewrite Ho.
  inversion N as [|? ? Ni Ns]; subst.
  assert (G : Forall (good (pretty fuel (S d) default_indent) (make_pretty (S d) default_indent)) ks).
  { rewrite Forall_forall in *. intros k Hk Ek h0 p0 i0 ids0 H0 N0 A0. apply (IH k Hk Ek); auto. apply size_in in Hk. cbn [tree_size] in Hf. lia. }
  destruct (loop_ok _ _ i ind (S d) ks G h 0 is idss Ha Ns A) as (h1 & l & ids1 & R & H1 & E1). rewrite R.
  pose proof (A _ _ Ho) as Li. assert (Hi1 : hp h1 i = Some (OElem n a is p)) by (rewrite (ef_frame _ _ _ _ E1); auto).
  assert (Ni1 : ~ In i ids1) by (intros K; destruct (ef_in _ _ _ _ i E1 K); [auto|lia]).
  eexists _, (i :: ids1). split; [reflexivity|]. unfold set_kids. rewrite Hi1. split.
  - econstructor; [apply hp_upd_same|]. eapply (proj2 (holds_same h1 _)); [exact H1|]. intros j Hj. apply hp_upd_other. intros ->. auto.
  - destruct E1 as [X1 X2 X3 X4 X5 X6 X7 X8]. constructor.
    + intros j o. rewrite hp_upd. cbn [upd nxt]. destruct (Nat.eqb_spec j i) as [->|]; [intros _; lia|apply X1].
    + exact X2.
    + intros j Hj Hn. cbn [In] in Hn. rewrite hp_upd_other by (intros ->; tauto). apply X3; tauto.
    + intros j o Hj. rewrite hp_upd. destruct (Nat.eqb_spec j i) as [->|]; [|apply X4; auto]. assert (o = OElem n a is p) as -> by congruence. eexists. split; [reflexivity|]. cbn. auto.
    + constructor; auto.
    + intros j Hj. right. apply X6; auto.
    + cbn [filter]. apply Nat.ltb_lt in Li. rewrite Li. assert (Si : stays h i = true) by (unfold stays; rewrite Ho; reflexivity). rewrite Si. f_equal. exact X7.
    + intros j [<-|Hj]; [cbn [upd nxt]; lia|apply X8; auto].
Qed.

(** ** Links *)
Lemma holds_all_kids h q is ts ids : holds_all h q is ts ids -> NoDup ids -> NoDup is.
Proof.
  induction 1 as [|q i is t ts ids idss Hh Ha IH]; intros N; [constructor|]. destruct (NoDup_app_inv _ _ N) as (N1 & N2 & D). constructor; [|auto].
  intros K. apply (D i); [eapply holds_head; eauto|]. destruct (proj2 (proj2 (holds_links h) _ _ _ _ Ha)) as [H _]. apply H. exact K.
Qed.
Lemma holds_kids h : (forall p i t ids, holds h p i t ids -> NoDup ids -> forall j o, In j ids -> hp h j = Some o -> NoDup (okids o)) /\
  (forall q is ts ids, holds_all h q is ts ids -> NoDup ids -> forall j o, In j ids -> hp h j = Some o -> NoDup (okids o)).
Proof.
  apply holds_both.
  - intros p i n a is ks idss Hi Ha IH N j o [<-|Hj] Ho; inversion N; subst; [|eapply IH; eauto]. rewrite Hi in Ho. inversion Ho; subst. cbn [okids]. eapply holds_all_kids; eauto.
  - intros p i s Hi N j o [<-|[]] Ho. rewrite Hi in Ho. inversion Ho; subst. constructor.
  - intros q N j o [].
  - intros q i is t ts ids idss Hh IH1 Ha IH2 N j o Hj Ho. destruct (NoDup_app_inv _ _ N) as (N1 & N2 & D). apply in_app_iff in Hj as [Hj|Hj]; eauto.
Qed.
Lemma pretty_links h i t ids p h' ids' t' h'' : well_linked h -> holds h p i t ids -> holds h' p i t' ids' -> effect h h' ids ids' ->
  dropped h h' h'' i -> well_linked h''.
Proof.
  intros W H H' E (Dn & D1 & D2). pose proof W as (A & L & N & T).
  assert (Hb : forall j, In j ids <-> below h i j) by (intros j; split; [apply (proj1 (holds_below h) _ _ _ _ H)|intros B; exact (below_holds h i j B _ _ _ H)]).
  assert (Lv : forall j, In j ids -> exists o, hp h j = Some o) by (apply (proj1 (holds_live h) _ _ _ _ H)).
  (* what is in the new tree is not dropped *)
  assert (New : forall j, In j ids' -> ~ replaced h i j).
  { intros j Hj [B (s & (q & Ht) & Hs)]. pose proof (A j _ Ht) as Lj.
    assert (K : In j (filter (fun j => j <? nxt h) ids')) by (apply filter_In; split; [auto|apply Nat.ltb_lt; auto]).
    rewrite (ef_low _ _ _ _ E) in K. apply filter_In in K as [_ K]. unfold stays in K. rewrite Ht, Hs in K. discriminate. }
  assert (H2 : holds h'' p i t' ids') by (eapply (proj1 (holds_same h' h'')); [exact H'|]; intros j Hj; apply D2, New, Hj).
  (* outside nothing changes *)
  assert (Out : forall j, j < nxt h -> ~ In j ids -> hp h'' j = hp h j).
  { intros j Lj Hj. rewrite D2; [apply (ef_frame _ _ _ _ E); auto|]. intros [B _]. apply Hj, Hb, B. }
  assert (Case : forall j o, hp h'' j = Some o -> (j < nxt h /\ ~ In j ids /\ hp h j = Some o) \/ In j ids').
  { intros j o Hj. destruct (Nat.lt_ge_cases j (nxt h)) as [Lj|Lj].
    - destruct (in_dec Nat.eq_dec j ids) as [Hi|Hi]; [|left; split; [auto|]; split; [auto|]; rewrite <- Out; auto]. right.
      destruct (Lv j Hi) as (o0 & Ho0). destruct (stays h j) eqn:S.
      + assert (K : In j (filter (stays h) ids)) by (apply filter_In; auto). rewrite <- (ef_low _ _ _ _ E) in K. apply filter_In in K. tauto.
      + exfalso. rewrite D1 in Hj; [discriminate|]. split; [apply Hb; auto|]. unfold stays in S. rewrite Ho0 in S. destruct o0 as [|s q]; [discriminate|].
        exists s. split; [exists q; auto|]. destruct (blankb s); [reflexivity|discriminate].
    - right. apply (ef_new _ _ _ _ E). split; [auto|]. assert (K : ~ replaced h i j) by (intros [B _]; apply Hb, Lv in B as (o0 & Ho0); apply A in Ho0; lia).
      rewrite D2 in Hj by auto. apply (ef_alloc _ _ _ _ E) in Hj. exact Hj. }
  destruct (proj1 (holds_links h'') _ _ _ _ H2) as [L1 L2]. destruct (proj1 (holds_links h) _ _ _ _ H) as [K1 K2].
  assert (Hpar : parent_is h'' i p) by (destruct (holds_obj _ _ _ _ _ H2) as (o & Ho & Hp); exists o; auto).
  assert (Hpar0 : parent_is h i p) by (destruct (holds_obj _ _ _ _ _ H) as (o & Ho & Hp); exists o; auto).
  assert (In0 : In i ids) by (eapply holds_head; eauto). assert (In2 : In i ids') by (eapply holds_head; eauto).
  assert (Old : forall j, In j ids' -> j < nxt h -> In j ids) by (intros j Hj Lj; destruct (ef_in _ _ _ _ j E Hj); [auto|lia]).
  (* a parent outside *)
  assert (Up : forall q c, child h q c -> ~ In q ids -> c = i \/ ~ In c ids).
  { intros q c Hc Hq. destruct (in_dec Nat.eq_dec c ids) as [Hi|Hi]; [left|auto]. destruct (K2 c Hi) as [->|(x & Hx & (o & Ho & Hp) & _)]; [reflexivity|].
    exfalso. apply L in Hc as (o' & Ho' & Hp'). assert (x = q) as -> by congruence. auto. }
  apply well_linked_intro.
  - intros j o Hj. rewrite Dn. destruct (Case j o Hj) as [(Lj & _)|Hi]; [pose proof (ef_nxt _ _ _ _ E); lia|exact (ef_high _ _ _ _ E j Hi)].
  - intros q c. split.
    + intros Hc. pose proof Hc as (o & Ho & Hin). destruct (Case q o Ho) as [(Lq & Hq & Hoq)|Hq]; [|apply L1; auto].
      assert (Hc0 : child h q c) by (exists o; auto). pose proof (proj1 (L q c) Hc0) as Hp. destruct (Up q c Hc0 Hq) as [->|Hn].
      * assert (Ep : p = Some q) by (destruct Hp as (o1 & X1 & X2), Hpar0 as (o2 & X3 & X4); congruence). rewrite Ep in Hpar. exact Hpar.
      * destruct Hp as (oc & Hoc & Epc). exists oc. split; [|auto]. rewrite Out; eauto.
    + intros Hp. pose proof Hp as (oc & Hoc & Epc). destruct (Case c oc Hoc) as [(Lc & Hc & Hoc0)|Hc].
      * assert (Hc0 : child h q c) by (apply L; exists oc; auto). pose proof Hc0 as (oq & Hoq & Hin).
        destruct (in_dec Nat.eq_dec q ids) as [Hi|Hi]; [exfalso; apply Hc; apply (K1 q Hi c Hc0)|]. exists oq. split; [|auto]. rewrite Out; eauto.
      * destruct (L2 c Hc) as [->|(x & Hx & (o2 & Ho2 & Hp2) & Hxc)]; [|assert (x = q) as -> by congruence; exact Hxc].
        assert (Ep : p = Some q) by (destruct Hp as (o1 & X1 & X2), Hpar as (o2 & X3 & X4); congruence). subst p.
        assert (Hc0 : child h q i) by (apply L; exact Hpar0). pose proof Hc0 as (oq & Hoq & Hin).
        assert (Hq : ~ In q ids).
        { intros K. apply Hb in K. destruct (T q oq Hoq) as (tq & idq & Hhq & _). exact (no_cycle h _ q tq idq i Hhq Hc0 K). }
        exists oq. split; [|auto]. rewrite Out; eauto.
  - intros j o Hj. destruct (Case j o Hj) as [(_ & _ & Hj0)|Hi]; [exact (N j o Hj0)|]. exact (proj1 (holds_kids h'') _ _ _ _ H2 (ef_nodup _ _ _ _ E) j o Hi Hj).
  - assert (G : (forall q x u idx, holds h q x u idx -> ~ In x ids -> exists u' idx', holds h'' q x u' idx') /\
      (forall q is ts idx, holds_all h q is ts idx -> (forall k, In k is -> k = i \/ ~ In k ids) -> exists ts' idx', holds_all h'' q is ts' idx')).
    { apply holds_both.
      - intros q x n a is ks idss Hx Ha IH Hn. pose proof (A x _ Hx) as Lx. destruct IH as (ts' & idx' & IH).
        + intros k Hk. apply (Up x k); [exists (OElem n a is q); auto|auto].
        + do 2 eexists. econstructor; [|exact IH]. rewrite Out; eauto.
      - intros q x s Hx Hn. do 2 eexists. constructor. rewrite Out; eauto.
      - intros q _. do 2 eexists. constructor.
      - intros q x is u us idx idxs Hh IH1 Ha IH2 Hk. destruct IH2 as (ts' & idx2 & IH2); [intros k Hin; apply Hk; right; auto|].
        assert (Kx : exists u' idx', holds h'' (Some q) x u' idx').
        { destruct (Hk x (or_introl eq_refl)) as [->|Hn]; [|apply IH1; auto]. destruct (holds_obj _ _ _ _ _ Hh) as (o & Ho & Hpo).
          assert (Ep : p = Some q) by (destruct Hpar0 as (o2 & X3 & X4); congruence). rewrite <- Ep. eauto. }
        destruct Kx as (u' & idx' & Kx). do 2 eexists. constructor; eauto. }
    intros j o Hj. destruct (Case j o Hj) as [(Lj & Hn & Hj0)|Hi].
    + destruct (T j o Hj0) as (u & idx & Hu & _). exact (proj1 G _ _ _ _ Hu Hn).
    + destruct (proj1 (holds_sub h'') _ _ _ _ H2 j Hi) as (q & u & idx & Hu & _). destruct (holds_obj _ _ _ _ _ Hu) as (o2 & Ho2 & Ep).
      assert (o2 = o) as -> by congruence. rewrite Ep. eauto.
Qed.
Lemma holds_ids h :
  (forall p i t ids, holds h p i t ids -> forall p' t' ids', holds h p' i t' ids' -> ids' = ids) /\
  (forall q is ts ids, holds_all h q is ts ids -> forall q' ts' ids', holds_all h q' is ts' ids' -> ids' = ids).
Proof.
  apply holds_both.
  - intros p i n a is ks idss Hi Ha IH p' t' ids' H'. inversion H'; subst; [|congruence]. f_equal. assert (is0 = is) as -> by congruence. eauto.
  - intros p i s Hi p' t' ids' H'. inversion H'; subst; [congruence|reflexivity].
  - intros q q' ts' ids' H'. inversion H'; subst. reflexivity.
  - intros q i is t ts ids idss Hh IH1 Ha IH2 q' ts' ids' H'. inversion H'; subst. f_equal; eauto.
Qed.
Lemma linked_nodup h p i t ids : well_linked h -> holds h p i t ids -> NoDup ids.
Proof.
  intros (A & L & N & T) H. destruct (holds_obj _ _ _ _ _ H) as (o & Ho & Hp). destruct (T i o Ho) as (t' & ids' & H' & N'). rewrite Hp in H'.
  rewrite <- (proj1 (holds_ids h) _ _ _ _ H _ _ _ H'). exact N'.
Qed.
Lemma linked_allocated h : well_linked h -> allocated h. Proof. intros (A & _). exact A. Qed.
Lemma pretty_linked h p i t ids fuel d ind : well_linked h -> holds h p i t ids -> is_element t -> tree_size t <= fuel ->
  exists h' ids', pretty fuel d ind h i = Some h' /\ holds h' p i (make_pretty d ind t) ids' /\ effect h h' ids ids'.
Proof. intros W H El Hf. apply pretty_ok; auto; [eapply linked_nodup; eauto|apply linked_allocated; auto]. Qed.
Lemma replaced_dec h p i t ids : holds h p i t ids -> forall j, replaced h i j <-> In j ids /\ stays h j = false.
Proof.
  intros H j. split.
  - intros [B (s & (q & Hs) & Hb)]. split; [exact (below_holds h i j B _ _ _ H)|]. unfold stays. rewrite Hs, Hb. reflexivity.
  - intros [Hj S]. split; [apply (proj1 (holds_below h) _ _ _ _ H); auto|]. destruct (proj1 (holds_live h) _ _ _ _ H j Hj) as (o & Ho).
    unfold stays in S. rewrite Ho in S. destruct o as [|s q]; [discriminate|]. exists s. split; [exists q; auto|]. destruct (blankb s); [reflexivity|discriminate].
Qed.
Lemma dropped_exists h p i t ids h' : holds h p i t ids -> exists h'', dropped h h' h'' i.
Proof.
  intros H. exists (mkH (fun j => if in_dec Nat.eq_dec j ids then if stays h j then hp h' j else None else hp h' j) (nxt h')).
  split; [reflexivity|]. split; intros j Hj; rewrite (replaced_dec h p i t ids H) in Hj; cbn [hp].
  - destruct Hj as [Hj ->]. destruct (in_dec Nat.eq_dec j ids); tauto.
  - destruct (in_dec Nat.eq_dec j ids) as [K|K]; [|reflexivity]. destruct (stays h j); [reflexivity|]. exfalso. auto.
Qed.
Lemma orphan h p i t ids h' ids' t' j : allocated h -> is_element t -> holds h p i t ids -> holds h' p i t' ids' -> effect h h' ids ids' -> replaced h i j ->
  exists q, parent_is h' j (Some q) /\ ~ child h' q j.
Proof.
  intros A El H H' E R. pose proof (proj1 (replaced_dec h p i t ids H j) R) as [Hj S].
  destruct (proj2 (proj1 (holds_links h) _ _ _ _ H) j Hj) as [->|(q & Hq & (o & Ho & Hp) & Hc)].
  - exfalso. destruct El as (n & a & ks & ->). inversion H as [? ? ? ? ? ? ? Hi _ |]; subst. unfold stays in S. rewrite Hi in S. discriminate.
  - exists q. split; [destruct (ef_kept _ _ _ _ E j o Ho) as (o' & Ho' & K); exists o'; split; [auto|]; destruct o, o'; cbn in K, Hp |- *; intuition congruence|].
    intros C. assert (Hq' : In q ids').
    { assert (K : In q (filter (stays h) ids)). { apply filter_In. split; [auto|]. destruct Hc as (oq & Hoq & Hin). unfold stays. rewrite Hoq. destruct oq; [reflexivity|destruct Hin]. }
      rewrite <- (ef_low _ _ _ _ E) in K. apply filter_In in K. tauto. }
    pose proof (proj1 (proj1 (holds_links h') _ _ _ _ H') q Hq' j C) as [Hj' _]. assert (K : In j (filter (fun j => j <? nxt h) ids')).
    { apply filter_In. split; [auto|]. apply Nat.ltb_lt. eapply A; eauto. }
    rewrite (ef_low _ _ _ _ E) in K. apply filter_In in K as [_ K]. congruence.
Qed.
