(** Sinks that raise, with several patterns: what becomes of the control state. *)
From Verif Require Import PyStr Parser XTree Heap Builder HeapSpec Pattern TreeIter TreeIterFacts TreeIterMore SinkStop.

Lemma nth_set_nth_same (i x : nat) : forall l d, i < length l -> nth i (set_nth i x l) d = x.
Proof. induction i as [|i IH]; intros [|y l] d H; cbn in *; try lia. apply IH. lia. Qed.
Lemma nth_set_nth_other (i x : nat) : forall l j d, i <> j -> nth j (set_nth i x l) d = nth j l d.
Proof. induction i as [|i IH]; intros [|y l] [|j] d H; cbn; auto; congruence. Qed.
Lemma set_nth_length (i x : nat) : forall l, length (set_nth i x l) = length l.
Proof. induction i as [|i IH]; intros [|y l]; cbn; auto. Qed.
Lemma removelast_firstn {A} (l : list A) : removelast l = firstn (length l - 1) l.
Proof. replace (length l - 1) with (pred (length l)) by lia. apply removelast_firstn_len. Qed.
Lemma one_sends s j c e l c' x i : ctl_one s j c e = (l, c', x) -> In (TSend i) l ->
  i = j /\ x = None /\ (exists n anc, e = EvEnd n anc) /\ cstack c <> [] /\ cstack c' = removelast (cstack c) /\ nth j (cdepths c) 0 = 1 /\ cdepths c' = set_nth j 0 (cdepths c) /\ l = [TLoad j; TSend j; TUp j].
Proof.
  unfold ctl_one. destruct e as [n a anc|n anc|t].
  - destruct (Nat.eqb _ 0); [destruct (match_state _ _) as [[]|]|]; intros E; injection E as <- <- <-; cbn; intros H; repeat destruct H as [H|H]; (discriminate || destruct H).
  - destruct (cstack c) as [|z st] eqn:Es; [intros E; injection E as <- <- <-; cbn; intros [H|[]]; discriminate|].
    destruct (Nat.eqb_spec (nth j (cdepths c) 0) 0); [intros E; injection E as <- <- <-; cbn; intros [H|[]]; discriminate|].
    destruct (Nat.eqb_spec (nth j (cdepths c) 0) 1) as [D|D]; intros E; injection E as <- <- <-; cbn [app In]; intros H.
    + destruct H as [H|[H|[H|[]]]]; try discriminate. injection H as <-. cbn [cstack cdepths]. rewrite D. repeat split; auto; [do 2 eexists; reflexivity|discriminate].
    + destruct H as [H|[H|[]]]; discriminate.
  - intros E. injection E as <- <- <-. destruct (Nat.eqb _ 0); cbn; intros H; repeat destruct H as [H|H]; (discriminate || destruct H).
Qed.
Lemma one_end s j c n anc l c' : ctl_one s j c (EvEnd n anc) = (l, c', None) -> cstack c <> [] /\ cstack c' = removelast (cstack c) /\ (forall i, i <> j -> nth i (cdepths c') 0 = nth i (cdepths c) 0).
Proof.
  unfold ctl_one. destruct (cstack c) as [|z st] eqn:Es; [discriminate|]. destruct (Nat.eqb _ 0); intros E; injection E as <- <-; (split; [discriminate|]); (split; [reflexivity|]); intros i Hi; cbn [cdepths]; [reflexivity|apply nth_set_nth_other; congruence].
Qed.
Lemma all_sends e ss : forall j c l c' x l1 ix l2, ctl_all ss j c e = (l, c', x) -> l = l1 ++ TSend ix :: l2 ->
  j <= ix < j + length ss /\ (exists n anc, e = EvEnd n anc) /\ (forall i, In (TSend i) l1 -> i < ix) /\
  let c1 := snd (fst (ctl_all (firstn (S ix - j) ss) j c e)) in
  S ix - j <= length (cstack c) /\ cstack c1 = firstn (length (cstack c) - (S ix - j)) (cstack c) /\ nth ix (cdepths c) 0 = 1 /\ nth ix (cdepths c1) 0 = 0 /\ forall i, ix < i -> nth i (cdepths c1) 0 = nth i (cdepths c) 0.
Proof.
  induction ss as [|s ss IH]; intros j c l c' x l1 ix l2 E El; cbn [ctl_all] in E; [injection E as <- _ _; destruct l1; discriminate|].
  destruct (ctl_one s j c e) as [[la ca] xa] eqn:O.
  destruct (in_dec (fun a b : nat => Nat.eq_dec a b) ix (flat_map (fun st => match st with TSend i => [i] | _ => [] end) la)) as [H|H].
  - assert (Hi : In (TSend ix) la) by (apply in_flat_map in H as (st & Hs & Hx); destruct st; cbn in Hx; try destruct Hx as [<-|[]]; try destruct Hx; exact Hs).
    destruct (one_sends _ _ _ _ _ _ _ _ O Hi) as (-> & -> & He & Hc & Hs & Hd & Hcd & ->). pose proof He as (n & anc & ->).
    destruct (ctl_all ss (S j) ca (EvEnd n anc)) as [[lb cb] xb] eqn:B. injection E as E _ _. subst l.
    split; [cbn [length]; lia|]. split; [exact He|].
    assert (X : snd (fst (ctl_all (firstn (S j - j) (s :: ss)) j c (EvEnd n anc))) = ca).
    { replace (S j - j) with 1 by lia. cbn [firstn ctl_all]. rewrite O. reflexivity. }
    split.
    + cbn [app] in El. destruct l1 as [|a [|b l1]]; cbn in El; [discriminate|injection El as <- _; intros i [D|[]]; discriminate|].
      injection El as <- <- El. intros i Hin. exfalso.
      (* a second TSend j after the first would come from a later pattern *)
      assert (Hl : In (TSend j) lb). { destruct l1 as [|z l1]; [discriminate|]. cbn in El. injection El as _ El. rewrite El. apply in_or_app. right. left. reflexivity. }
      apply in_split in Hl as (m1 & m2 & Hl). destruct (IH _ _ _ _ _ _ _ _ B Hl) as [Hj _]. lia.
    + cbv zeta. rewrite X. replace (S j - j) with 1 by lia. rewrite Hs, Hcd. split; [destruct (cstack c); [congruence|cbn; lia]|]. split; [apply removelast_firstn|]. split; [exact Hd|].
      assert (Hlen : j < length (cdepths c)) by (destruct (Nat.lt_ge_cases j (length (cdepths c))) as [|G]; [assumption|rewrite nth_overflow in Hd by exact G; discriminate]).
      split; [apply nth_set_nth_same; exact Hlen|]. intros i Hij. apply nth_set_nth_other. lia.
  - assert (Hn : ~ In (TSend ix) la) by (intros Hi; apply H, in_flat_map; exists (TSend ix); split; [exact Hi|left; reflexivity]).
    destruct xa as [xa|]; [injection E as E _ _; subst; exfalso; apply Hn; apply in_or_app; right; left; reflexivity|].
    destruct (ctl_all ss (S j) ca e) as [[lb cb] xb] eqn:B. injection E as E _ _. subst l.
    assert (S : exists l1', l1 = la ++ l1' /\ lb = l1' ++ TSend ix :: l2).
    { clear - El Hn. revert l1 El. induction la as [|a la IHl]; intros l1 El; [exists l1; auto|]. destruct l1 as [|b l1]; cbn in El; [injection El as -> _; exfalso; apply Hn; left; reflexivity|].
      injection El as -> El. destruct (IHl (fun Q => Hn (or_intror Q)) _ El) as (l1' & -> & ->). exists l1'. auto. }
    destruct S as (l1' & -> & Elb). destruct (IH _ _ _ _ _ _ _ _ B Elb) as (Hj & He & Hlt & K). cbv zeta in K. pose proof He as (n & anc & ->). destruct (one_end _ _ _ _ _ _ _ O) as (Hc & Hs & Ho).
    split; [cbn [length]; lia|]. split; [exact He|]. split.
    + intros i Hi. apply in_app_or in Hi as [Hi|Hi]; [|auto]. destruct (one_sends _ _ _ _ _ _ _ _ O Hi) as (-> & _). lia.
    + cbv zeta. replace (S ix - j) with (S (S ix - S j)) by lia. cbn [firstn ctl_all]. rewrite O. destruct (ctl_all (firstn (S ix - S j) ss) (S j) ca (EvEnd n anc)) as [[lc cc] xc]. cbn [fst snd] in *.
      destruct K as (K1 & K2 & K3 & K4 & K5). assert (L : length (cstack ca) = length (cstack c) - 1) by (rewrite Hs, removelast_firstn, firstn_length; lia).
      assert (Lc : length (cstack c) <> 0) by (destruct (cstack c); [congruence|discriminate]).
      split; [lia|]. split; [rewrite K2, Hs, removelast_firstn, firstn_firstn; f_equal; rewrite firstn_length; lia|]. split; [rewrite <- Ho by lia; exact K3|]. split; [exact K4|]. intros i Hi. rewrite K5 by exact Hi. apply Ho. lia.
Qed.
Lemma sruns_stop sink l : forall s s' ix, sruns sink s l s' (Some ix) -> exists l1 l2 more o h, l = l1 ++ TSend ix :: l2 /\ tsent s' = tsent s ++ more ++ [(ix, o, h)] /\ forall y, In y more -> In (TSend (fst (fst y))) l1.
Proof.
  induction l as [|st l IH]; intros s s' ix H; inversion H as [|? s1 s2 ? ? ? ? C N X R|? s1 i ? h' kept ? ? C _ _ R|? s1 i ? h' kept C _ _]; subst.
  - destruct (IH _ _ _ R) as (l1 & l2 & more & o & h & -> & E & M). exists (st :: l1), l2, more, o, h. split; [reflexivity|].
    assert (Es : tsent s2 = tsent s1) by (inversion X; subst; try reflexivity; [exfalso; eapply N; reflexivity|destruct (tpar s1); reflexivity]).
    assert (Ec : tsent s1 = tsent s) by apply C. rewrite E, Es, Ec. split; [reflexivity|]. intros y Hy. right. auto.
  - destruct (IH _ _ _ R) as (l1 & l2 & more & o & h & -> & E & M). assert (Ec : tsent s1 = tsent s) by apply C.
    exists (TSend i :: l1), l2, ((i, tpar s1, theap s1) :: more), o, h. split; [reflexivity|]. split; [rewrite E; cbn [tsent after_send]; rewrite Ec, <- app_assoc; reflexivity|].
    intros y [<-|Hy]; [left; reflexivity|right; auto].
  - assert (Ec : tsent s1 = tsent s) by apply C. exists [], l, [], (tpar s1), (theap s1). split; [reflexivity|]. split; [cbn [tsent after_send app]; rewrite Ec; reflexivity|intros y []].
Qed.
Lemma tcollect_id s : tcollect s s.
Proof. apply tcollect_refl. Qed.
Lemma stop_where sink ss evs : forall s s', shandle sink ss s evs s' TSink -> exists e1 n anc e2 s1 ix more o h,
  evs = e1 ++ EvEnd n anc :: e2 /\ shandle sink ss s e1 s1 TEnd /\ ix < length ss /\
  tsent s' = tsent s1 ++ more ++ [(ix, o, h)] /\ (forall y, In y more -> fst (fst y) < ix) /\
  S ix <= length (cstack (tctl s1)) /\ cstack (tctl s') = firstn (length (cstack (tctl s1)) - S ix) (cstack (tctl s1)) /\
  nth ix (cdepths (tctl s1)) 0 = 1 /\ nth ix (cdepths (tctl s')) 0 = 0 /\ forall j, ix < j -> nth j (cdepths (tctl s')) 0 = nth j (cdepths (tctl s1)) 0.
Proof.
  induction evs as [|e evs IH]; intros s s' H; inversion H as [|u e0 evs0 l c s1 v x Hc Hr Hh|u e0 evs0 l c s1 x Hc Hr|u e0 evs0 l c x s1 ix Hc Hr]; subst.
  - destruct (IH _ _ Hh) as (e1 & n & anc & e2 & s3 & ix & more & o & h & -> & H1 & K). exists (e :: e1), n, anc, e2, s3, ix, more, o, h. split; [reflexivity|]. split; [|exact K]. eapply sh_step; eauto.
  - destruct (sruns_stop _ _ _ _ _ Hr) as (l1 & l2 & more & o & h & El & E & M). destruct (all_sends _ _ _ _ _ _ _ _ _ _ Hc El) as (Hj & (n & anc & ->) & Hlt & K). cbv zeta in K. rewrite Nat.sub_0_r in K.
    exists [], n, anc, evs, s, ix, more, o, h. split; [reflexivity|]. split; [constructor; apply tcollect_id|]. split; [lia|]. split; [exact E|]. split; [intros y Hy; apply Hlt, M, Hy|]. unfold set_ctl, ctl_at. cbn [tctl]. exact K.
Qed.
