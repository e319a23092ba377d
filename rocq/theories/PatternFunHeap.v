(** Several sinks: every subtree under construction is kept apart from the others and from what was sent. *)
From Verif Require Import PyStr Parser ParserM XTree ParserInv Heap Builder HeapSpec BuilderFacts HeapFacts BuilderMore Path Nodes.
From Verif Require Import Pattern PatternSpec PatternFacts TreeIter TreeIterSpec TreeIterFacts TreeIterMore TreeSinkFacts PatternFun PatternFunSpec PatternFunFacts.

(** ** Subtrees under construction, from the outermost open element to the innermost *)
Inductive opened (h : heap) : option ref -> ref -> list frame -> list ref -> ref -> Prop :=
| op_last p i n a is ks ids : hp h i = Some (OElem n a is p) -> holds_all h i is ks ids -> opened h p i [(n, a, ks)] (i :: ids) i
| op_in p i n a is ks ids j fs ids' c : hp h i = Some (OElem n a (is ++ [j]) p) -> holds_all h i is ks ids ->
    opened h (Some i) j fs ids' c -> opened h p i ((n, a, ks) :: fs) (i :: ids ++ ids') c.

Lemma opened_same h h' p i fs ids c : opened h p i fs ids c -> (forall j, In j ids -> hp h' j = hp h j) -> opened h' p i fs ids c.
Proof.
  intros H. induction H as [p i n a is ks ids H1 H2|p i n a is ks ids j fs ids' c H1 H2 H3 IH]; intros Hs.
  - econstructor; [rewrite Hs by (left; auto); exact H1|]. eapply (proj2 (holds_same h h')); [exact H2|]. intros; apply Hs; right; auto.
  - econstructor; [rewrite Hs by (left; auto); exact H1| |].
    + eapply (proj2 (holds_same h h')); [exact H2|]. intros; apply Hs; right; apply in_or_app; auto.
    + apply IH. intros; apply Hs; right; apply in_or_app; auto.
Qed.
Lemma below_reach h roots i j : reach h roots i -> below h i j -> reach h roots j.
Proof. intros Hr Hb. induction Hb as [|p j i Hb IH (o & Ho & Hi)]; auto. eapply re_kid; [apply IH; auto|exact Ho|exact Hi]. Qed.
Lemma holds_reach h roots p i t ids : holds h p i t ids -> reach h roots i -> forall j, In j ids -> reach h roots j.
Proof. intros H Hr j Hj. eapply below_reach; [exact Hr|]. eapply (proj1 (holds_below h)); eauto. Qed.
Lemma all_reach h roots q is ks ids : holds_all h q is ks ids -> (forall i, In i is -> reach h roots i) -> forall j, In j ids -> reach h roots j.
Proof. intros H Hr j Hj. destruct (proj2 (holds_below h) _ _ _ _ H j Hj) as (k & Hk & Hb). eapply below_reach; [apply Hr; exact Hk|exact Hb]. Qed.
Lemma opened_reach h roots p i fs ids c : opened h p i fs ids c -> reach h roots i -> forall j, In j ids -> reach h roots j.
Proof.
  intros H. induction H as [p i n a is ks ids H1 H2|p i n a is ks ids j fs ids' c H1 H2 H3 IH]; intros Hr x Hx.
  - destruct Hx as [<-|Hx]; auto. eapply all_reach; [exact H2| |exact Hx]. intros k Hk. eapply re_kid; [exact Hr|exact H1|exact Hk].
  - destruct Hx as [<-|Hx]; auto. apply in_app_or in Hx as [Hx|Hx].
    + eapply all_reach; [exact H2| |exact Hx]. intros k Hk. eapply re_kid; [exact Hr|exact H1|]. apply in_or_app; auto.
    + apply IH; auto. eapply re_kid; [exact Hr|exact H1|]. apply in_or_app; right; left; auto.
Qed.
Lemma opened_live h p i fs ids c : opened h p i fs ids c -> forall j, In j ids -> exists o, hp h j = Some o.
Proof.
  intros H. induction H as [p i n a is ks ids H1 H2|p i n a is ks ids j fs ids' c H1 H2 H3 IH]; intros x [<-|Hx]; eauto.
  - eapply (proj2 (holds_live h)); eauto.
  - apply in_app_or in Hx as [Hx|Hx]; auto. eapply (proj2 (holds_live h)); eauto.
Qed.
Lemma opened_cur h p i fs ids c : opened h p i fs ids c -> In c ids.
Proof. intros H. induction H; [left; auto|right; apply in_or_app; auto]. Qed.
Lemma all_snoc h q is ks ids i t l : holds_all h q is ks ids -> holds h (Some q) i t l -> holds_all h q (is ++ [i]) (ks ++ [t]) (ids ++ l).
Proof.
  intros H Hi. induction H as [q|q j is k ks ids ids' Hj H IH]; cbn [app].
  - rewrite <- (app_nil_r l). constructor; [exact Hi|constructor].
  - rewrite <- app_assoc. constructor; auto.
Qed.

(** A new child of the innermost open element *)
Lemma opened_push h p i fs ids c e n a : opened h p i fs ids c -> NoDup ids -> ~ In e ids -> hp h e = Some (OElem n a [] (Some c)) ->
  opened (append_kid h c e) p i (fs ++ [(n, a, [])]) (ids ++ [e]) e.
Proof.
  intros H. induction H as [p i n0 a0 is ks ids H1 H2|p i n0 a0 is ks ids j fs ids' c H1 H2 H3 IH]; intros Nd He Ho; cbn [app].
  - inversion Nd as [|x l Hni Nd']; subst. econstructor.
    + rewrite hp_append, Nat.eqb_refl, H1. reflexivity.
    + eapply (proj2 (holds_same h _)); [exact H2|]. intros j Hj. rewrite hp_append. destruct (Nat.eqb_spec j i) as [->|]; [contradiction|reflexivity].
    + econstructor; [|constructor]. rewrite hp_append. destruct (Nat.eqb_spec e i) as [->|]; [destruct He; left; auto|exact Ho].
  - inversion Nd as [|x l Hni Nd']; subst. pose proof (opened_cur _ _ _ _ _ _ H3) as Hc. rewrite <- app_assoc. econstructor.
    + rewrite hp_append. destruct (Nat.eqb_spec i c) as [->|]; [destruct Hni; apply in_or_app; auto|exact H1].
    + eapply (proj2 (holds_same h _)); [exact H2|]. intros x Hx. rewrite hp_append. destruct (Nat.eqb_spec x c) as [->|]; [|reflexivity].
      exfalso. clear - Nd' Hx Hc. induction ids as [|y l IHl]; [destruct Hx|]. inversion Nd' as [|z w Hz Hw]; subst. destruct Hx as [->|Hx]; [apply Hz, in_or_app; auto|auto].
    + apply IH; auto.
      * clear - Nd'. induction ids as [|y l IHl]; auto. inversion Nd'; auto.
      * intros K. apply He. right. apply in_or_app; auto.
Qed.
Lemma opened_text h p i pre n a ks ids c e s : opened h p i (pre ++ [(n, a, ks)]) ids c -> NoDup ids -> ~ In e ids -> hp h e = Some (OText s (Some c)) ->
  opened (append_kid h c e) p i (pre ++ [(n, a, ks ++ [XT s])]) (ids ++ [e]) c.
Proof.
  intros H. remember (pre ++ [(n, a, ks)]) as fs eqn:Ef. revert pre Ef.
  induction H as [p i n0 a0 is ks0 ids H1 H2|p i n0 a0 is ks0 ids j fs ids' c H1 H2 H3 IH]; intros pre Ef Nd He Ho.
  - destruct pre as [|f0 [|f1 pre]]; [|discriminate|discriminate]. injection Ef as -> -> ->. inversion Nd as [|x l Hni Nd']; subst. cbn [app].
    econstructor; [rewrite hp_append, Nat.eqb_refl, H1; reflexivity|]. apply all_snoc.
    + eapply (proj2 (holds_same h _)); [exact H2|]. intros j Hj. rewrite hp_append. destruct (Nat.eqb_spec j i) as [->|]; [contradiction|reflexivity].
    + constructor. rewrite hp_append. destruct (Nat.eqb_spec e i) as [->|]; [destruct He; left; auto|exact Ho].
  - destruct pre as [|f0 pre]; [cbn in Ef; injection Ef as -> -> -> ->; inversion H3|]. injection Ef as <- ->. inversion Nd as [|x l Hni Nd']; subst.
    pose proof (opened_cur _ _ _ _ _ _ H3) as Hc. cbn [app]. rewrite <- app_assoc. econstructor.
    + rewrite hp_append. destruct (Nat.eqb_spec i c) as [->|]; [destruct Hni; apply in_or_app; auto|exact H1].
    + eapply (proj2 (holds_same h _)); [exact H2|]. intros x Hx. rewrite hp_append. destruct (Nat.eqb_spec x c) as [->|]; [|reflexivity].
      exfalso. clear - Nd' Hx Hc. induction ids as [|y l IHl]; [destruct Hx|]. inversion Nd' as [|z w Hz Hw]; subst. destruct Hx as [->|Hx]; [apply Hz, in_or_app; auto|auto].
    + apply IH; auto.
      * clear - Nd'. induction ids as [|y l IHl]; auto. inversion Nd'; auto.
      * intros K. apply He. right. apply in_or_app; auto.
Qed.
(** The innermost element is complete. *)
Lemma opened_pop h p i pre n' a' ks' n a ks ids c : opened h p i (pre ++ [(n', a', ks'); (n, a, ks)]) ids c ->
  exists c', xml_parent h c = Some c' /\ opened h p i (pre ++ [(n', a', ks' ++ [XE n a ks])]) ids c'.
Proof.
  intros H. remember (pre ++ [(n', a', ks'); (n, a, ks)]) as fs eqn:Ef. revert pre Ef.
  induction H as [p i n0 a0 is ks0 ids H1 H2|p i n0 a0 is ks0 ids j fs ids' c H1 H2 H3 IH]; intros pre Ef.
  - destruct pre as [|f0 [|f1 [|f2 pre]]]; discriminate.
  - destruct pre as [|f0 pre].
    + cbn in Ef. injection Ef as -> -> -> ->. inversion H3 as [q j0 n1 a1 is1 ks1 ids1 G1 G2 E1 E2 E3|q j0 n1 a1 is1 ks1 ids1 j1 fs1 ids2 c1 G1 G2 G3 E1 E2 E3]; subst; [|inversion G3].
      exists i. split; [unfold xml_parent; rewrite G1; cbn [oparent]; rewrite H1; reflexivity|]. cbn [app]. econstructor; [exact H1|]. apply all_snoc; auto. econstructor; eauto.
    + injection Ef as <- ->. destruct (IH pre eq_refl) as (c' & Hc & Ho). exists c'. split; auto. cbn [app]. econstructor; eauto.
Qed.
Lemma opened_done h p i n a ks ids c : opened h p i [(n, a, ks)] ids c -> c = i /\ holds h p i (XE n a ks) ids.
Proof. intros H. inversion H as [q j n1 a1 is1 ks1 ids1 G1 G2|q j n1 a1 is1 ks1 ids1 j1 fs1 ids2 c1 G1 G2 G3]; subst; [|inversion G3]. split; auto. econstructor; eauto. Qed.

Lemma nodup_snoc {A} (l : list A) x : NoDup l -> ~ In x l -> NoDup (l ++ [x]).
Proof. intros Hn Hx. apply NoDup_rev in Hn. rewrite <- (rev_involutive (l ++ [x])), rev_app_distr. apply NoDup_rev. cbn. constructor; auto. rewrite <- in_rev. auto. Qed.
(** ** All sinks together: their modes, the nodes of their subtrees, and the innermost open elements.
    [extra]: a new object that belongs to nobody yet. *)
Definition setf {A} (f : nat -> A) (i : nat) (x : A) : nat -> A := fun j => if Nat.eqb j i then x else f j.
Lemma setf_same {A} (f : nat -> A) i x : setf f i x i = x. Proof. unfold setf. rewrite Nat.eqb_refl. reflexivity. Qed.
Lemma setf_other {A} (f : nat -> A) i x j : j <> i -> setf f i x j = f j.
Proof. intros H. unfold setf. apply Nat.eqb_neq in H. rewrite H. reflexivity. Qed.

Definition sink_ok (h : heap) (rts : list (option ref)) (ix : nat) (m : amode) (ids : list ref) (cur : option ref) : Prop :=
  match m with
  | AIdle => cur = None /\ ids = []
  | ABuild f fs => exists r c, nth ix rts None = Some r /\ cur = Some c /\ opened h None r (rev (f :: fs)) ids c /\ NoDup ids
  end.
Record hinv (k : nat) (ms : nat -> amode) (ids : nat -> list ref) (cur : nat -> option ref) (L : ref -> xtree -> Prop) (extra : list ref)
    (h : heap) (rts : list (option ref)) (kept : list ref) : Prop := mkHI {
  hi_len : length rts = k;
  hi_alloc : allocated h;
  hi_each : forall ix, ix < k -> sink_ok h rts ix (ms ix) (ids ix) (cur ix);
  hi_disj : forall ix jx j, ix < k -> jx < k -> ix <> jx -> In j (ids ix) -> In j (ids jx) -> False;
  hi_extra : forall ix j, ix < k -> In j (ids ix) -> In j extra -> False;
  hi_old : forall i t, L i t -> i < nxt h /\ ~ In i extra /\ forall ix, ix < k -> ~ In i (ids ix);
  hi_kept : forall i t, L i t -> In i kept -> exists l, holds h None i t l /\ NoDup l /\ (forall j, In j l -> In j extra -> False) /\
                                                (forall ix j, ix < k -> In j (ids ix) -> In j l -> False) }.

Lemma sink_live h rts ix m ids cur : sink_ok h rts ix m ids cur -> forall j, In j ids -> exists o, hp h j = Some o.
Proof. destruct m; cbn; [intros [_ ->] j []|]. intros (r & c & _ & _ & Ho & _). eapply opened_live; eauto. Qed.
Lemma sink_same h h' rts ix m ids cur : sink_ok h rts ix m ids cur -> (forall j, In j ids -> hp h' j = hp h j) -> sink_ok h' rts ix m ids cur.
Proof. destruct m; cbn; auto. intros (r & c & H1 & H2 & H3 & H4) Hs. exists r, c. split; auto. split; auto. split; auto. eapply opened_same; eauto. Qed.
(** The heap changes nothing that is known. *)
Lemma hinv_same k ms ids cur L extra h h' rts kept kept' : hinv k ms ids cur L extra h rts kept -> allocated h' -> nxt h <= nxt h' -> incl kept' kept ->
  (forall ix j, ix < k -> In j (ids ix) -> hp h' j = hp h j) ->
  (forall i t l j, L i t -> In i kept' -> holds h None i t l -> (forall ix y, ix < k -> In y (ids ix) -> In y l -> False) ->
     (forall y, In y l -> In y extra -> False) -> In j l -> hp h' j = hp h j) ->
  hinv k ms ids cur L extra h' rts kept'.
Proof.
  intros [H1 H2 H3 H4 H5 Hold H6] Ha Hnx Hi Hs Hk. constructor; auto; [| |].
  - intros ix Hx. eapply sink_same; [apply H3; auto|]. intros j Hj. eapply Hs; eauto.
  - intros i t Hl. destruct (Hold i t Hl) as (K & K'). split; [lia|auto].
  - intros i t Hl Hin. destruct (H6 i t Hl (Hi _ Hin)) as (l & G1 & G2 & G3 & G4). exists l. split; auto. eapply (proj1 (holds_same h h')); [exact G1|].
    intros j Hj. eapply Hk; eauto.
Qed.
Lemma gc_alloc roots h h' : allocated h -> gc roots h h' -> allocated h'.
Proof. intros Ha (Hn & Hg) j o Ho. rewrite Hn. destruct (Hg j) as [E|[E _]]; [rewrite E in Ho; eapply Ha; eauto|congruence]. Qed.
Lemma hinv_gc k ms ids cur L extra h h' rts kept kept' roots : hinv k ms ids cur L extra h rts kept -> gc roots h h' ->
  incl (flat_map opt_list rts) roots -> incl kept roots -> incl kept' kept -> hinv k ms ids cur L extra h' rts kept'.
Proof.
  intros Hi Hg Hr Hk Hk'. pose proof (gc_alloc _ _ _ (hi_alloc _ _ _ _ _ _ _ _ _ Hi) Hg) as Ha. eapply hinv_same; [exact Hi|exact Ha|rewrite (proj1 Hg); auto|exact Hk'| |].
  - intros ix j Hx Hj. destruct (proj2 Hg j) as [E|[_ N]]; auto. exfalso. apply N. pose proof (hi_each _ _ _ _ _ _ _ _ _ Hi ix Hx) as Ho.
    destruct (ms ix); cbn in Ho; [destruct Ho as [_ E0]; rewrite E0 in Hj; destruct Hj|]. destruct Ho as (r & c & G1 & _ & G3 & _).
    eapply opened_reach; [exact G3| |exact Hj]. apply re_root, Hr. apply in_flat_map. exists (Some r). split; [|left; auto].
    rewrite <- G1. apply nth_In. rewrite (hi_len _ _ _ _ _ _ _ _ _ Hi). auto.
  - intros i t l j _ Hin Hh _ _ Hj. destruct (proj2 Hg j) as [E|[_ N]]; auto. exfalso. apply N. eapply holds_reach; [exact Hh| |exact Hj]. apply re_root, Hk; auto.
Qed.
Lemma hinv_alloc k ms ids cur L h rts kept o : hinv k ms ids cur L [] h rts kept -> hinv k ms ids cur L [nxt h] (fst (alloc h o)) rts kept.
Proof.
  intros Hi. pose proof (hi_alloc _ _ _ _ _ _ _ _ _ Hi) as Ha.
  assert (Hl : forall ix j, ix < k -> In j (ids ix) -> j < nxt h).
  { intros ix j Hx Hj. destruct (sink_live _ _ _ _ _ _ (hi_each _ _ _ _ _ _ _ _ _ Hi ix Hx) j Hj) as (o' & Ho). eapply Ha; eauto. }
  assert (Hk : forall p i t l j, holds h p i t l -> In j l -> j < nxt h).
  { intros p i t l j Hh Hj. destruct (proj1 (holds_live h) _ _ _ _ Hh j Hj) as (o' & Ho). eapply Ha; eauto. }
  destruct Hi as [H1 H2 H3 H4 H5 Hold H6]. constructor; auto.
  - intros j o' Ho. rewrite hp_alloc in Ho. cbn. destruct (Nat.eqb_spec j (nxt h)) as [->|]; [lia|]. apply Ha in Ho. lia.
  - intros ix Hx. eapply sink_same; [apply H3; auto|]. intros j Hj. apply hp_alloc_other. specialize (Hl ix j Hx Hj). lia.
  - intros ix j Hx Hj [<-|[]]. specialize (Hl ix _ Hx Hj). lia.
  - intros i t HL. destruct (Hold i t HL) as (K1 & _ & K3). split; [cbn; lia|]. split; [intros [<-|[]]; lia|auto].
  - intros i t HL Hin. destruct (H6 i t HL Hin) as (l & G1 & G2 & G3 & G4). exists l. split; [|split; auto; split; auto].
    + eapply (proj1 (holds_same h _)); [exact G1|]. intros j Hj. apply hp_alloc_other. specialize (Hk _ _ _ _ _ G1 Hj). lia.
    + intros j Hj [<-|[]]. specialize (Hk _ _ _ _ _ G1 Hj). lia.
Qed.
(** The new object is forgotten. *)
Lemma hinv_drop k ms ids cur L extra h rts kept : hinv k ms ids cur L extra h rts kept -> hinv k ms ids cur L [] h rts kept.
Proof.
  intros [H1 H2 H3 H4 H5 Hold H6]. constructor; auto; [intros i t Hl; destruct (Hold i t Hl) as (K1 & _ & K3); split; auto|]. intros i t Hl Hin. destruct (H6 i t Hl Hin) as (l & G1 & G2 & G3 & G4). exists l. auto.
Qed.

(** The sink [ix] takes the new object in. *)
Lemma take_in k ms ids cur L e h rts rts' kept h' ix m' cur' : hinv k ms ids cur L [e] h rts kept -> ix < k -> length rts' = k ->
  (forall j, j <> ix -> nth j rts' None = nth j rts None) -> allocated h' -> nxt h' = nxt h ->
  (forall j, ~ In j (ids ix) -> j <> e -> hp h' j = hp h j) ->
  sink_ok h' rts' ix m' (ids ix ++ [e]) cur' ->
  hinv k (setf ms ix m') (setf ids ix (ids ix ++ [e])) (setf cur ix cur') L [] h' rts' kept.
Proof.
  intros [H1 H2 H3 H4 H5 Hold H6] Hx Hlen Hrt Ha Hnx Hs Ho. constructor; auto.
  - intros jx Hj. destruct (Nat.eq_dec jx ix) as [->|N]; [rewrite !setf_same; exact Ho|]. rewrite !setf_other by auto.
    assert (G : sink_ok h' rts jx (ms jx) (ids jx) (cur jx)).
    { eapply sink_same; [apply H3; auto|]. intros j Hin. apply Hs; [intros K; eapply (H4 jx ix j); eauto|intros ->; eapply H5; [exact Hj|exact Hin|left; auto]]. }
    clear - G Hrt N. destruct (ms jx); cbn in *; auto. rewrite Hrt by auto. exact G.
  - intros jx jy j Hjx Hjy N. destruct (Nat.eq_dec jx ix) as [->|N1], (Nat.eq_dec jy ix) as [->|N2]; try congruence; rewrite ?setf_same, ?setf_other by auto; intros G1 G2.
    + apply in_app_or in G1 as [G1|[<-|[]]]; [eapply (H4 ix jy j); eauto|eapply H5; [exact Hjy|exact G2|left; auto]].
    + apply in_app_or in G2 as [G2|[<-|[]]]; [eapply (H4 ix jx j); eauto|eapply H5; [exact Hjx|exact G1|left; auto]].
    + eapply (H4 jx jy j); eauto.
  - intros i t Hl. destruct (Hold i t Hl) as (K1 & K2 & K3). split; [rewrite Hnx; auto|]. split; [auto|]. intros jx Hj.
    destruct (Nat.eq_dec jx ix) as [->|N]; rewrite ?setf_same, ?setf_other by auto; [|auto]. intros G. apply in_app_or in G as [G|G]; [apply (K3 ix Hx G)|auto].
  - intros i t Hl Hin. destruct (H6 i t Hl Hin) as (l & G1 & G2 & G3 & G4). exists l. split; [|split; auto; split; [intros j _ []|]].
    + eapply (proj1 (holds_same h h')); [exact G1|]. intros j Hj. apply Hs; [intros K; eapply (G4 ix j); eauto|intros ->; eapply G3; [exact Hj|left; auto]].
    + intros jx j Hjx. destruct (Nat.eq_dec jx ix) as [->|N]; rewrite ?setf_same, ?setf_other by auto; intros K Hj; [|eapply G4; eauto].
      apply in_app_or in K as [K|[<-|[]]]; [eapply (G4 ix j); eauto|eapply G3; [exact Hj|left; auto]].
Qed.
Lemma append_allocated h c e : allocated h -> allocated (append_kid h c e). Proof. apply append_alloc. Qed.
Lemma append_nxt h c e : nxt (append_kid h c e) = nxt h.
Proof. unfold append_kid. destruct (hp h c) as [[]|]; reflexivity. Qed.
Lemma append_other h c e j : j <> c -> hp (append_kid h c e) j = hp h j.
Proof. intros H. rewrite hp_append. apply Nat.eqb_neq in H. rewrite H. reflexivity. Qed.

Lemma push_step k ms ids cur L e h rts kept ix f fs n a c : hinv k ms ids cur L [e] h rts kept -> ix < k -> ms ix = ABuild f fs -> cur ix = Some c ->
  hp h e = Some (OElem n a [] (Some c)) ->
  hinv k (setf ms ix (ABuild (n, a, []) (f :: fs))) (setf ids ix (ids ix ++ [e])) (setf cur ix (Some e)) L [] (append_kid h c e) rts kept.
Proof.
  intros Hi Hx Em Ec Ho. pose proof (hi_each _ _ _ _ _ _ _ _ _ Hi ix Hx) as Hk. rewrite Em in Hk. destruct Hk as (r & c0 & K1 & K2 & K3 & K4).
  rewrite Ec in K2. injection K2 as <-. assert (He : ~ In e (ids ix)) by (intros K; eapply (hi_extra _ _ _ _ _ _ _ _ _ Hi ix e); eauto; left; auto).
  eapply take_in; [exact Hi|exact Hx|apply (hi_len _ _ _ _ _ _ _ _ _ Hi)|auto|apply append_allocated, (hi_alloc _ _ _ _ _ _ _ _ _ Hi)|apply append_nxt| |].
  - intros j Hj _. apply append_other. intros ->. apply Hj. eapply opened_cur; eauto.
  - exists r, e. split; auto. split; auto. split; [|apply nodup_snoc; auto]. cbn [rev]. apply opened_push; auto.
Qed.
Lemma text_step k ms ids cur L e h rts kept ix n a ks fs c s : hinv k ms ids cur L [e] h rts kept -> ix < k -> ms ix = ABuild (n, a, ks) fs -> cur ix = Some c ->
  hp h e = Some (OText s (Some c)) ->
  hinv k (setf ms ix (ABuild (n, a, ks ++ [XT s]) fs)) (setf ids ix (ids ix ++ [e])) (setf cur ix (Some c)) L [] (append_kid h c e) rts kept.
Proof.
  intros Hi Hx Em Ec Ho. pose proof (hi_each _ _ _ _ _ _ _ _ _ Hi ix Hx) as Hk. rewrite Em in Hk. destruct Hk as (r & c0 & K1 & K2 & K3 & K4).
  rewrite Ec in K2. injection K2 as <-. assert (He : ~ In e (ids ix)) by (intros K; eapply (hi_extra _ _ _ _ _ _ _ _ _ Hi ix e); eauto; left; auto).
  eapply take_in; [exact Hi|exact Hx|apply (hi_len _ _ _ _ _ _ _ _ _ Hi)|auto|apply append_allocated, (hi_alloc _ _ _ _ _ _ _ _ _ Hi)|apply append_nxt| |].
  - intros j Hj _. apply append_other. intros ->. apply Hj. eapply opened_cur; eauto.
  - exists r, c. split; auto. split; auto. split; [|apply nodup_snoc; auto]. cbn [rev] in *. apply opened_text; auto.
Qed.
Lemma nth_set_same {A} (d : A) i x l : i < length l -> nth i (set_nth i x l) d = x.
Proof. revert i. induction l as [|y l IH]; intros i H; cbn in H; [lia|]. destruct i; cbn; auto. apply IH. lia. Qed.
Lemma len_set {A} i (x : A) l : length (set_nth i x l) = length l.
Proof. revert i. induction l as [|y l IH]; intros [|i]; cbn; auto. Qed.
Lemma root_step k ms ids cur L e h rts kept ix n a : hinv k ms ids cur L [e] h rts kept -> ix < k -> ms ix = AIdle -> hp h e = Some (OElem n a [] None) ->
  hinv k (setf ms ix (ABuild (n, a, []) [])) (setf ids ix (ids ix ++ [e])) (setf cur ix (Some e)) L [] h (set_nth ix (Some e) rts) kept.
Proof.
  intros Hi Hx Em Ho. pose proof (hi_each _ _ _ _ _ _ _ _ _ Hi ix Hx) as Hk. rewrite Em in Hk. destruct Hk as [_ K2].
  eapply take_in; [exact Hi|exact Hx|rewrite len_set; apply (hi_len _ _ _ _ _ _ _ _ _ Hi)| |apply (hi_alloc _ _ _ _ _ _ _ _ _ Hi)|reflexivity|auto|].
  - intros j Hj. apply set_nth_other. auto.
  - rewrite K2. exists e, e. split; [apply nth_set_same; rewrite (hi_len _ _ _ _ _ _ _ _ _ Hi); auto|]. split; auto. split; [|repeat constructor; intros []].
    cbn. econstructor; [exact Ho|constructor].
Qed.
(** The innermost element of sink [ix] ends. *)
Lemma pop_step k ms ids cur L h rts kept ix n a ks n' a' ks' fs : hinv k ms ids cur L [] h rts kept -> ix < k -> ms ix = ABuild (n, a, ks) ((n', a', ks') :: fs) ->
  exists c c', cur ix = Some c /\ xml_parent h c = Some c' /\
    hinv k (setf ms ix (ABuild (n', a', ks' ++ [XE n a ks]) fs)) ids (setf cur ix (Some c')) L [] h rts kept.
Proof.
  intros [H1 H2 H3 H4 H5 Hold H6] Hx Em. pose proof (H3 ix Hx) as Hk. rewrite Em in Hk. destruct Hk as (r & c & K1 & K2 & K3 & K4).
  cbn [rev] in K3. rewrite <- app_assoc in K3. destruct (opened_pop _ _ _ _ _ _ _ _ _ _ _ _ K3) as (c' & Hc & Ho). exists c, c'. split; auto. split; auto. constructor; auto.
  intros jx Hj. destruct (Nat.eq_dec jx ix) as [->|N]; [rewrite !setf_same|rewrite !setf_other by auto; auto]. exists r, c'. auto.
Qed.
Lemma done_step k ms ids cur L h rts kept ix n a ks : hinv k ms ids cur L [] h rts kept -> ix < k -> ms ix = ABuild (n, a, ks) [] ->
  exists r, cur ix = Some r /\ holds_tree h r (XE n a ks) /\ (forall o, hp h r = Some o -> oparent o = None) /\
    hinv k (setf ms ix AIdle) (setf ids ix []) (setf cur ix None) (fun i t => L i t \/ i = r /\ t = XE n a ks) [] h rts (r :: kept).
Proof.
  intros [H1 H2 H3 H4 H5 Hold H6] Hx Em. pose proof (H3 ix Hx) as Hk. rewrite Em in Hk. destruct Hk as (r & c & K1 & K2 & K3 & K4).
  cbn [rev app] in K3. destruct (opened_done _ _ _ _ _ _ _ _ K3) as [-> Hh]. exists r. split; auto. split; [exists (ids ix); auto|].
  split; [intros o Ho; destruct (holds_obj _ _ _ _ _ Hh) as (o' & E & P); congruence|].
  assert (Hd : forall jx j, jx < k -> In j (setf ids ix [] jx) -> jx <> ix /\ In j (ids jx)).
  { intros jx j Hj G. destruct (Nat.eq_dec jx ix) as [->|N]; [rewrite setf_same in G; destruct G|rewrite setf_other in G; auto]. }
  assert (Hroot : exists l, holds h None r (XE n a ks) l /\ NoDup l /\ (forall j, In j l -> In j [] -> False) /\ (forall jx j, jx < k -> In j (setf ids ix [] jx) -> In j l -> False)).
  { exists (ids ix). split; auto. split; auto. split; [auto|]. intros jx j Hj G G'. destruct (Hd _ _ Hj G) as [N G2]. eapply (H4 jx ix j); eauto. }
  constructor; auto.
  - intros jx Hj. destruct (Nat.eq_dec jx ix) as [->|N]; [rewrite !setf_same; cbn; auto|rewrite !setf_other by auto; auto].
  - intros jx jy j Hjx Hjy N G1 G2. destruct (Hd _ _ Hjx G1) as [_ G3], (Hd _ _ Hjy G2) as [_ G4]. eapply (H4 jx jy j); eauto.
  - assert (Hr : r < nxt h) by (destruct (proj1 (holds_live h) _ _ _ _ Hh r (holds_head _ _ _ _ _ Hh)) as (o & Ho); eapply H2; eauto).
    intros i t [HL|[-> ->]]; [destruct (Hold i t HL) as (G1 & _ & G3)|].
    + split; auto. split; auto. intros jx Hj K. destruct (Hd _ _ Hj K) as [_ K']. apply (G3 jx Hj K').
    + split; auto. split; auto. intros jx Hj K. destruct (Hd _ _ Hj K) as [N K']. eapply (H4 jx ix r); eauto. eapply opened_cur; eauto.
  - intros i t [HL|[-> ->]] Hin; [|exact Hroot]. destruct Hin as [<-|Hin].
    + destruct (Hold r t HL) as (_ & _ & G3). destruct (G3 ix Hx). eapply opened_cur; eauto.
    + destruct (H6 i t HL Hin) as (l & G1 & G2 & G3 & G4). exists l. split; auto. split; auto. split; auto. intros jx j Hj K Hjl. destruct (Hd _ _ Hj K) as [_ K']. eapply G4; eauto.
Qed.
