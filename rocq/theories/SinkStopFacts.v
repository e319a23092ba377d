(** Sinks that raise: what was sent until then, and what becomes of further documents. *)
From Verif Require Import PyStr Parser ParserM XTree Grammar ParserSpec ParserInv ParserMore Heap Builder HeapSpec BuilderFacts HeapFacts BuilderMore.
From Verif Require Import Path Nodes Pattern PatternSpec PatternFacts TreeUtil TreeUtilSpec TreeUtilFacts.
From Verif Require Import TreeIter TreeIterSpec TreeIterFacts TreeIterMore TreeSink TreeSinkSpec TreeSinkFacts SinkStop SinkStopSpec.

(** ** While the sink goes on *)
Definition quiet (sink : stop_rel) : sink_rel := fun ix e h k h' k' => sink ix e h k h' k' false.
Lemma quiet_loose sink : stop_loose sink -> leaves_loose (quiet sink).
Proof. intros H ix i h k h' k' Hs. exact (H _ _ _ _ _ _ Hs). Qed.
Lemma sruns_none sink l : forall s s', sruns sink s l s' None -> wruns (quiet sink) s l s'.
Proof.
  induction l as [|st l IH]; intros s s' H; inversion H; subst.
  - constructor; auto.
  - econstructor; [eassumption|apply we_own; eassumption|apply IH; assumption].
  - econstructor; [eassumption|apply we_send; eassumption|apply IH; assumption].
Qed.
Lemma shandle_end sink ss evs : forall s s', shandle sink ss s evs s' TEnd -> whandle (quiet sink) ss s evs s' None.
Proof.
  induction evs as [|e evs IH]; intros s s' H; inversion H; subst; [constructor; auto|].
  eapply wh_step; [eassumption|apply sruns_none; eassumption|apply IH; assumption].
Qed.
Lemma shandle_exn sink ss evs : forall s s' x, shandle sink ss s evs s' (TExn x) -> whandle (quiet sink) ss s evs s' (Some x).
Proof.
  induction evs as [|e evs IH]; intros s s' x H; inversion H; subst.
  - eapply wh_step; [eassumption|apply sruns_none; eassumption|apply IH; assumption].
  - eapply wh_exn; [eassumption|apply sruns_none; eassumption].
Qed.
Lemma shandle_sink sink ss evs : forall s s', shandle sink ss s evs s' TSink ->
  exists e1 e e2 s1 l c x s2 ix, evs = e1 ++ e :: e2 /\ whandle (quiet sink) ss s e1 s1 None /\
    ctl_all ss 0 (tctl s1) e = (l, c, x) /\ sruns sink s1 l s2 (Some ix) /\ s' = set_ctl s2 (ctl_at ss ix (tctl s1) e).
Proof.
  induction evs as [|e evs IH]; intros s s' H; inversion H as [|u e0 evs0 l c s1 v x Hc Hr Hh|u e0 evs0 l c s1 x Hc Hr|u e0 evs0 l c x s1 ix Hc Hr]; subst.
  - destruct (IH _ _ Hh) as (e1 & e' & e2 & s3 & l' & c' & x' & s4 & ix & -> & H1 & H2 & H3 & H4).
    exists (e :: e1), e', e2, s3, l', c', x', s4, ix. split; [reflexivity|]. split; [|auto]. eapply wh_step; [exact Hc|apply sruns_none; exact Hr|exact H1].
  - exists [], e, evs, s, l, c, x, s1, ix. split; [reflexivity|]. split; [constructor; apply tcollect_refl|]. auto.
Qed.
Lemma fed_served sink p s : fed sink p s -> served_with (quiet sink) p s.
Proof.
  intros H. induction H as [h k|s t s' Hs IH Ht Hh]; [constructor|]. econstructor; [exact IH|exact Ht|apply shandle_end; exact Hh].
Qed.

(** ** The stack while building *)
Definition nohit (st : pst) (anc : list str) : Prop := forall x y, anc = x ++ y -> hits st x = false.
Definition shape (st : pst) (stack : list str) (m : amode) : Prop :=
  match m with
  | AIdle => nohit st stack
  | ABuild f fs => exists anc n names, stack = (anc ++ [n]) ++ names /\ length names = length fs /\ nohit st anc /\ hits st (anc ++ [n]) = true
  end.
Lemma nohit_less st anc more : nohit st (anc ++ more) -> nohit st anc.
Proof. intros H x y E. apply (H x (y ++ more)). rewrite E, app_assoc. reflexivity. Qed.
Lemma nohit_more st anc n : nohit st anc -> hits st (anc ++ [n]) = false -> nohit st (anc ++ [n]).
Proof.
  intros H Hn x y E. destruct y as [|z y _] using rev_ind; [rewrite app_nil_r in E; subst x; exact Hn|].
  rewrite app_assoc in E. apply app_inj_tail in E as [E _]. exact (H _ _ E).
Qed.
Lemma removelast_more {A} (l more : list A) : more <> [] -> removelast (l ++ more) = l ++ removelast more.
Proof. apply removelast_app. Qed.
Lemma shape_step st stack m e stack' m' out : (forall names, fails st names = false) -> st <> PMatched ->
  shape st stack m -> astep st stack m e = Some (stack', m', out) -> shape st stack' m'.
Proof.
  intros Hf Hm Hs Ha. destruct e as [n a anc|n anc|t]; cbn [astep] in Ha.
  - destruct m as [|f fs].
    + cbn [shape] in Hs. rewrite (match_hits st stack n Hf Hm Hs) in Ha. destruct (hits st (stack ++ [n])) eqn:E; injection Ha as <- <- <-.
      * exists stack, n, []. rewrite app_nil_r. auto.
      * cbn [shape]. apply nohit_more; auto.
    + injection Ha as <- <- <-. destruct Hs as (b & k & ns & -> & H1 & H2 & H3). exists b, k, (ns ++ [n]). split; [rewrite !app_assoc; reflexivity|].
      split; [rewrite app_length; cbn; lia|auto].
  - destruct stack as [|z stk] eqn:Es; [discriminate|]. rewrite <- Es in *. assert (Hne : stack <> []) by (rewrite Es; discriminate).
    destruct m as [|[[k a] ks] fs].
    + injection Ha as <- <- <-. cbn [shape] in *. rewrite (app_removelast_last [] Hne) in Hs. eapply nohit_less; exact Hs.
    + destruct Hs as (b & j & ns & E & H1 & H2 & H3). destruct fs as [|[[k' a'] ks'] fs]; injection Ha as <- <- <-.
      * destruct ns; [|discriminate]. rewrite app_nil_r in E. rewrite E, removelast_last. exact H2.
      * assert (H : ns <> []) by (intros ->; discriminate). exists b, j, (removelast ns).
        split; [rewrite E; apply removelast_more; auto|]. split; [|auto]. rewrite (app_removelast_last [] H) in H1. rewrite app_length in H1. cbn in H1. lia.
  - destruct m as [|[[k a] ks] fs]; injection Ha as <- <- <-; exact Hs.
Qed.
Lemma shape_run st evs : (forall names, fails st names = false) -> st <> PMatched -> forall stack m stack' m' out,
  shape st stack m -> arun st stack m evs = Some (stack', m', out) -> shape st stack' m'.
Proof.
  intros Hf Hm. induction evs as [|e evs IH]; intros stack m stack' m' out Hs Ha; cbn [arun] in Ha; [injection Ha as <- <- <-; exact Hs|].
  destruct (astep st stack m e) as [[[s1 m1] o1]|] eqn:E; [|discriminate]. destruct (arun st s1 m1 evs) as [[[s2 m2] o2]|] eqn:R; [|discriminate].
  injection Ha as <- <- <-. eapply IH; [|exact R]. eapply shape_step; eauto.
Qed.

(** ** Control without the heap *)
Fixpoint nsends (l : list tstmt) : nat := match l with [] => 0 | TSend _ :: r => S (nsends r) | _ :: r => nsends r end.
Lemma ctl_astep st stack m e stack' m' out : astep st stack m e = Some (stack', m', out) ->
  exists l, ctl_all [st] 0 (mkC stack [depth_of m]) e = (l, mkC stack' [depth_of m'], None) /\ nsends l = length out.
Proof.
  intros Ha. cbn [ctl_all]. destruct e as [n a anc|n anc|t]; cbn [astep] in Ha; cbn [ctl_one cdepths cstack].
  - destruct m as [|f fs]; cbn [depth_of nth Nat.eqb].
    + destruct (match_state st (stack ++ [n])) as [[]|]; [| |discriminate]; injection Ha as <- <- <-; eexists; split; reflexivity.
    + injection Ha as <- <- <-. eexists; split; reflexivity.
  - destruct stack as [|z stk] eqn:Es; [discriminate|]. rewrite <- Es in *. destruct m as [|[[k a] ks] [|[[k' a'] ks'] fs]]; injection Ha as <- <- <-; eexists; split; reflexivity.
  - destruct m as [|[[k a] ks] fs]; injection Ha as <- <- <-; eexists; split; reflexivity.
Qed.
Lemma wruns_sends sink l : forall s s', wruns sink s l s' -> exists lst, tsent s' = tsent s ++ lst /\ length lst = nsends l.
Proof.
  induction l as [|st l IH]; intros s s' H; inversion H as [u v C|u s1 s2 st0 l0 v C X R]; subst.
  - exists []. split; [rewrite app_nil_r; apply C|reflexivity].
  - destruct (IH _ _ R) as (lst & H1 & H2). assert (Es : tsent s1 = tsent s) by apply C.
    inversion X as [st0 u0 v0 Hn X'|ix u0 h' kept Hk Hx]; subst.
    + exists lst. split.
      * rewrite H1. f_equal. rewrite <- Es. inversion X'; subst; try reflexivity; [exfalso; eapply Hn; reflexivity|]. destruct (tpar s1); reflexivity.
      * rewrite H2. destruct st; try reflexivity. exfalso. eapply Hn; reflexivity.
    + exists ((ix, tpar s1, theap s1) :: lst). split; [|cbn; congruence]. rewrite H1. cbn [tsent]. rewrite Es, <- app_assoc. reflexivity.
Qed.
Lemma ctl_run sink st evs : forall stack m s s' x stack' m' out, tctl s = mkC stack [depth_of m] ->
  whandle sink [st] s evs s' x -> arun st stack m evs = Some (stack', m', out) ->
  x = None /\ tctl s' = mkC stack' [depth_of m'] /\ exists lst, tsent s' = tsent s ++ lst /\ length lst = length out.
Proof.
  induction evs as [|e evs IH]; intros stack m s s' x stack' m' out Hc Hh Ha; cbn [arun] in Ha.
  - injection Ha as <- <- <-. inversion Hh as [u v C| |]; subst. pose proof C as (_ & _ & _ & _ & E & _ & _ & _ & E2).
    split; auto. split; [congruence|]. exists []. rewrite app_nil_r. auto.
  - destruct (astep st stack m e) as [[[s1 m1] o1]|] eqn:E; [|discriminate]. destruct (arun st s1 m1 evs) as [[[s2 m2] o2]|] eqn:R; [|discriminate].
    injection Ha as <- <- <-. destruct (ctl_astep _ _ _ _ _ _ _ E) as (l & Hl & Hn).
    inversion Hh as [|u e0 evs0 stm c s3 v x0 Hc1 Hr Hh1|u e0 evs0 stm c s3 x0 Hc1 Hr]; subst; rewrite Hc, Hl in Hc1; [|discriminate].
    injection Hc1 as <- <-. destruct (wruns_sends _ _ _ _ Hr) as (l1 & G1 & G2).
    destruct (IH _ _ _ _ _ _ _ _ (eq_refl : tctl (set_ctl s3 (mkC s1 [depth_of m1])) = _) Hh1 R) as (-> & K1 & l2 & K2 & K3).
    split; auto. split; auto. exists (l1 ++ l2). cbn [set_ctl tsent] in K2. rewrite K2, G1, app_assoc. split; auto. rewrite !app_length. congruence.
Qed.

(** ** The moment of raising *)
Ltac first_of H := apply (f_equal (fun z => fst (fst z))) in H; cbn [fst app Nat.sub set_nth] in H; subst.
Lemma sruns_some sink l : forall s s' ix, sruns sink s l s' (Some ix) -> In (TSend ix) l.
Proof. induction l as [|st l IH]; intros s s' ix H; inversion H; subst; [right; eauto|right; eauto|left; auto]. Qed.
Lemma stop_event st stack m e stack' m' out l c x ix : astep st stack m e = Some (stack', m', out) ->
  ctl_all [st] 0 (mkC stack [depth_of m]) e = (l, c, x) -> In (TSend ix) l ->
  exists n a ks n' anc, m = ABuild (n, a, ks) [] /\ e = EvEnd n' anc /\ m' = AIdle /\ stack' = removelast stack /\ out = [XE n a ks] /\
    l = [TLoad 0; TSend 0; TUp 0] /\ ix = 0 /\ ctl_at [st] ix (mkC stack [depth_of m]) e = mkC (removelast stack) [0].
Proof.
  intros Ha Hc Hi. destruct (ctl_astep _ _ _ _ _ _ _ Ha) as (l0 & Hl & _). rewrite Hl in Hc. injection Hc as <- <- <-.
  assert (Hx : ix = 0 -> ctl_at [st] ix (mkC stack [depth_of m]) e = mkC stack' [depth_of m']) by (intros ->; unfold ctl_at; cbn [firstn]; rewrite Hl; reflexivity).
  cbn [ctl_all] in Hl. destruct e as [n a anc|n anc|t]; cbn [astep] in Ha; cbn [ctl_one cdepths cstack] in Hl.
  - destruct m as [|f fs]; cbn [depth_of nth Nat.eqb] in Hl.
    + destruct (match_state st (stack ++ [n])) as [[]|]; [| |discriminate]; first_of Hl; exfalso; cbn in Hi; intuition discriminate.
    + first_of Hl; exfalso; cbn in Hi; intuition discriminate.
  - destruct stack as [|z stk] eqn:Es; [discriminate|]. rewrite <- Es in *. destruct m as [|[[k a] ks] [|[[k' a'] ks'] fs]]; injection Ha as <- <- <-; cbn [depth_of length nth Nat.eqb app] in Hl; first_of Hl.
    + exfalso; cbn in Hi; intuition discriminate.
    + assert (E0 : ix = 0) by (cbn in Hi; intuition congruence). exists k, a, ks, n, anc. repeat split; auto.
    + exfalso; cbn in Hi; intuition discriminate.
  - destruct m as [|[[k a] ks] fs]; cbn [depth_of nth Nat.eqb app] in Hl; first_of Hl; exfalso; cbn in Hi; intuition discriminate.
Qed.
Lemma stop_runs sink s s' ix : sruns sink s [TLoad 0; TSend 0; TUp 0] s' (Some ix) -> exists s1, tcollect s s1 /\ exists s2, texec (TLoad 0) s1 s2 /\
  exists s3, tcollect s2 s3 /\ tsent s' = tsent s3 ++ [(0, tpar s3, theap s3)].
Proof.
  intros H. inversion H as [|u s1 s2 st l v r C Hn X R| |]; subst. exists s1. split; auto. exists s2. split; auto.
  inversion R as [|u0 s3 s4 st1 l1 v0 r0 C1 Hn1 X1 R1|u0 s3 ix1 l1 h' kept v0 r0 C1 K1 N1 R1|u0 s3 ix1 l1 h' kept C1 K1 N1]; subst.
  - exfalso. eapply Hn1; reflexivity.
  - exfalso. inversion R1 as [|u1 s5 s6 st2 l2 v1 r1 C2 Hn2 X2 R2| |]; subst. inversion R2.
  - exists s3. auto.
Qed.
Lemma stop_sent sink b stack n a ks s s' ix : tinv false b stack (ABuild (n, a, ks) []) nothing s ->
  sruns sink s [TLoad 0; TSend 0; TUp 0] s' (Some ix) ->
  exists h, tsent s' = tsent s ++ [(0, Some b, h)] /\ holds_tree h b (XE n a ks).
Proof.
  intros Hi Hr. destruct (stop_runs _ _ _ _ Hr) as (s1 & C0 & s2 & X0 & s3 & C1 & Hs). destruct (tinv_collect _ _ _ _ _ _ _ Hi C0) as [Hi1 Hs1]. clear Hi.
  inversion X0; subst.
  assert (Hi2 : tinv false b stack (ABuild (n, a, ks) []) nothing s3 /\ tsent s3 = tsent s1).
  { cut (tinv false b stack (ABuild (n, a, ks) []) nothing (mkT (theap s1) (troots s1) (tpars s1) (tctl s1) (nth 0 (tpars s1) None) (telem s1) (ttext s1) (tkept s1) (tsent s1)));
      [intros Hcut; exact (tinv_collect _ _ _ _ _ _ _ Hcut C1)|].
    replace (nth 0 (tpars s1) None) with (tpar s1) by (destruct Hi1 as [_ -> _ _ _]; reflexivity). destruct Hi1 as [H1 H2 H3 H4 H5 H6]. destruct s1; constructor; auto. }
  destruct Hi2 as [[H1 H2 H3 H4 H5 H6] Hs3].
  assert (Hp1 : tpar s3 = Some b) by (destruct H4 as (_ & G & _); exact G).
  assert (Hpl : placed (theap s3) None b (XE n a ks)) by (destruct H4 as (_ & _ & _ & G); exact (spine_placed _ _ [] n a ks G)).
  exists (theap s3). split; [rewrite Hs, Hp1; congruence|]. apply placed_tree; auto.
Qed.

Lemma arun_split st e1 e e2 stack m r : arun st stack m (e1 ++ e :: e2) = Some r ->
  exists s1 m1 o1 s2 m2 o2 s3 m3 o3, arun st stack m e1 = Some (s1, m1, o1) /\ astep st s1 m1 e = Some (s2, m2, o2) /\
    arun st s2 m2 e2 = Some (s3, m3, o3) /\ r = (s3, m3, o1 ++ o2 ++ o3).
Proof.
  intros H. rewrite arun_app in H. destruct (arun st stack m e1) as [[[s1 m1] o1]|]; [|discriminate]. cbn [arun] in H.
  destruct (astep st s1 m1 e) as [[[s2 m2] o2]|] eqn:E; [|discriminate]. destruct (arun st s2 m2 e2) as [[[s3 m3] o3]|] eqn:R; [|discriminate].
  injection H as <-. exists s1, m1, o1, s2, m2, o2, s3, m3, o3. auto.
Qed.

(** ** The document in which it happens *)
Lemma until_found sink p s t s' x : stop_loose sink -> ~ ends_deep p -> p <> [] -> fed sink p s -> is_element t ->
  shandle sink (stateses [p]) (new_handler s) (doc_events t) s' x ->
  let l := found (hits (prep p)) [] t in
    (x = TEnd /\ sent_since s s' 0 (map snd l) \/
     x = TSink /\ exists l1 au l2, l = l1 ++ au :: l2 /\ sent_since s s' 0 (map snd (l1 ++ [au]))).
Proof.
  intros Hl Hd Hp Hs Ht Hh. cbv zeta. assert (Hf : forall names, fails (prep p) names = false) by (intros; apply fails_never; auto).
  pose proof (fed_served _ _ _ Hs) as Hw.
  destruct x as [|x|].
  - left. split; auto. apply shandle_end in Hh. exact (proj2 (document_with _ _ _ _ _ _ (quiet_loose _ Hl) Hp Hf Hw Hh)).
  - exfalso. apply shandle_exn in Hh. destruct (document_with _ _ _ _ _ _ (quiet_loose _ Hl) Hp Hf Hw Hh) as [E _]. discriminate.
  - right. split; auto. destruct (served_idle _ _ _ (quiet_loose _ Hl) Hp Hf Hw) as (b & Hi). apply idle_again in Hi.
    pose proof (arun_idle (prep p) t Hf (prep_not_matched p Hp) [] (nil_hits _)) as Ha. fold (doc_events t) in Ha.
    destruct (shandle_sink _ _ _ _ _ Hh) as (e1 & e & e2 & s1 & l & c & x & s2 & ix & Ee & H1 & H2 & H3 & ->). change (tree_events [] t) with (doc_events t) in Ha. rewrite Ee in Ha.
    destruct (arun_split _ _ _ _ _ _ _ Ha) as (k1 & m1 & o1 & k2 & m2 & o2 & k3 & m3 & o3 & A1 & A2 & A3 & A4).
    destruct (run_with _ _ _ (quiet_loose _ Hl) _ _ _ _ _ _ _ _ _ Hi H1 A1) as (_ & lst & b1 & G1 & G2 & G3).
    change (stateses [p]) with [prep p] in H2. rewrite (ti_ctl _ _ _ _ _ _ G3) in H2.
    destruct (stop_event _ _ _ _ _ _ _ _ _ _ _ A2 H2 (sruns_some _ _ _ _ _ H3)) as (n & a & ks & n' & anc & -> & -> & -> & -> & -> & -> & -> & _).
    destruct (stop_sent _ _ _ _ _ _ _ _ _ G3 H3) as (h & K1 & K2).
    injection A4 as _ _ A4. destruct (map_eq_app _ _ _ _ A4) as (l1 & l2 & E1 & E2 & E3). cbn [app] in E3. destruct l2 as [|au l2]; [discriminate|]. cbn [map] in E3. injection E3 as E3 E4.
    exists l1, au, l2. split; auto. exists (lst ++ [(0, Some b1, h)]). cbn [set_ctl tsent]. split; [rewrite K1, G1, app_assoc; reflexivity|].
    rewrite map_app, E2. apply Forall2_app; [exact G2|]. cbn [map]. constructor; [|constructor]. exists b1, h. rewrite E3. auto.
Qed.
Theorem until_stop sink p s t s' x : stop_loose sink -> no_deep p -> p <> [] -> fed sink p s -> is_element t ->
  shandle sink (stateses [p]) (new_handler s) (doc_events t) s' x ->
  exists l, listing t (fun a u => is_element u /\ matches p (path_names t a)) l /\
    (x = TEnd /\ sent_since s s' 0 (map snd l) \/
     x = TSink /\ exists l1 au l2, l = l1 ++ au :: l2 /\ sent_since s s' 0 (map snd (l1 ++ [au]))).
Proof.
  intros Hl Hd Hp Hs Ht Hh. exists (found (hits (prep p)) [] t). split; [apply found_exact; auto|]. exact (until_found _ _ _ _ _ _ Hl (no_deep_ends _ Hd) Hp Hs Ht Hh).
Qed.

(** ** The documents after it *)
Definition interrupted (p : list stage) (s : tstate) : Prop :=
  exists anc n, tctl s = mkC anc [0] /\ nohit (prep p) anc /\ hits (prep p) (anc ++ [n]) = true.
Lemma interrupt sink p s t s' stack anc : p <> [] -> (forall names, fails (prep p) names = false) ->
  tctl s = mkC anc [0] -> nohit (prep p) anc -> arun (prep p) anc AIdle (doc_events t) = Some stack ->
  shandle sink [prep p] s (doc_events t) s' TSink ->
  interrupted p s' /\ exists lst, tsent s' = tsent s ++ lst /\ 1 <= length lst <= length (snd stack).
Proof.
  intros Hp Hf Hc Hn Ha Hh. destruct (shandle_sink _ _ _ _ _ Hh) as (e1 & e & e2 & s1 & l & c & x & s2 & ix & Ee & H1 & H2 & H3 & ->). rewrite Ee in Ha.
  destruct (arun_split _ _ _ _ _ _ _ Ha) as (k1 & m1 & o1 & k2 & m2 & o2 & k3 & m3 & o3 & A1 & A2 & A3 & ->).
  destruct (ctl_run _ _ _ _ _ _ _ _ _ _ _ (Hc : _ = mkC anc [depth_of AIdle]) H1 A1) as (_ & G1 & lst & G2 & G3). rewrite G1 in *.
  destruct (stop_event _ _ _ _ _ _ _ _ _ _ _ A2 H2 (sruns_some _ _ _ _ _ H3)) as (n & a & ks & n' & ac & -> & -> & -> & -> & -> & -> & -> & G4).
  pose proof (shape_run _ _ Hf (prep_not_matched p Hp) _ _ _ _ _ (Hn : shape _ anc AIdle) A1) as (b & j & ns & E1 & E2 & E3 & E4).
  destruct ns; [|discriminate]. rewrite app_nil_r in E1. split.
  - exists b, j. cbn [set_ctl tctl]. rewrite G4, E1, removelast_last. auto.
  - destruct (stop_runs _ _ _ _ H3) as (s3 & C0 & s4 & X0 & s5 & C1 & Hs). inversion X0; subst.
    assert (B1 : tsent s3 = tsent s1) by apply C0. assert (B2 : tsent s5 = tsent s3) by apply C1.
    exists (lst ++ [(0, tpar s5, theap s5)]). cbn [set_ctl tsent snd]. split; [rewrite Hs, B2, B1, G2, app_assoc; reflexivity|].
    rewrite !app_length. cbn [length]. lia.
Qed.
Lemma matches_snoc st n : st <> StDeep -> forall q anc, no_deep q -> (matches (q ++ [st]) (anc ++ [n]) <-> matches q anc /\ stage_ok st n).
Proof.
  intros Hst q. induction q as [|x q IH]; intros anc Hd; cbn [app].
  - split; intros H.
    + inversion H as [|st0 p n0 names Ho H1 E1 E2|p ns names H1 E1 E2]; subst; [|congruence]. inversion H1; subst. destruct anc as [|y anc]; cbn in E2.
      * injection E2 as <-. split; [constructor|auto].
      * exfalso. injection E2 as _ E2. destruct anc; discriminate.
    + destruct H as [H1 H2]. inversion H1; subst. cbn. constructor; auto.
  - assert (Hq : no_deep q) by (intros Hi; apply Hd; right; auto). assert (Hx : x <> StDeep) by (intros ->; apply Hd; left; auto).
    split; intros H.
    + inversion H as [|st0 p n0 names Ho H1 E1 E2|p ns names H1 E1 E2]; subst; [|congruence]. destruct anc as [|y anc]; cbn in E2.
      * injection E2 as <- ->. exfalso. apply matches_len in H1; [rewrite app_length in H1; cbn in H1; lia|].
        intros Hi. apply in_app_or in Hi as [Hi|[Hi|[]]]; [exact (Hq Hi)|congruence].
      * injection E2 as <- ->. apply IH in H1; auto. destruct H1. split; auto. constructor; auto.
    + destruct H as [H1 H2]. inversion H1; subst; [|congruence]. cbn. constructor; auto. apply IH; auto.
Qed.

Lemma hits_long p names : no_deep p -> p <> [] -> length p < length names -> hits (prep p) names = false.
Proof.
  intros Hd Hp Hl. destruct (hits (prep p) names) eqn:E; [|reflexivity]. exfalso. apply hits_exact in E; auto. apply matches_len in E; auto. lia.
Qed.
Lemma found_long p t : no_deep p -> p <> [] -> forall anc, length p <= length anc -> found (hits (prep p)) anc t = [].
Proof.
  intros Hd Hp. induction t as [n a ks IH|s] using xtree_ind'; intros anc Hl; [|reflexivity]. cbn [found].
  assert (Hl' : length p < length (anc ++ [n])) by (rewrite app_length; cbn; lia). rewrite hits_long by auto.
  generalize 0. induction IH as [|k l Hk _ IHl]; intros i; [reflexivity|]. cbn [over]. rewrite Hk by lia. rewrite IHl. reflexivity.
Qed.
Lemma found_after p anc n a ks : no_deep p -> p <> [] -> S (length anc) = length p ->
  found (hits (prep p)) anc (XE n a ks) = if hits (prep p) (anc ++ [n]) then [([], XE n a ks)] else [].
Proof.
  intros Hd Hp Hl. cbn [found]. destruct (hits (prep p) (anc ++ [n])); [reflexivity|].
  assert (Hl' : length p <= length (anc ++ [n])) by (rewrite app_length; cbn; lia).
  generalize 0. induction ks as [|k l IHl]; intros i; [reflexivity|]. cbn [over]. rewrite found_long by auto. rewrite IHl. reflexivity.
Qed.

(** What events say about ancestors is not looked at. *)
Definition strip (e : event) : event := match e with EvStart n a _ => EvStart n a [] | EvEnd n _ => EvEnd n [] | e => e end.
Lemma arun_strip st evs : forall stack m, arun st stack m (map strip evs) = arun st stack m evs.
Proof.
  induction evs as [|e evs IH]; intros stack m; [reflexivity|]. cbn [map arun]. assert (E : astep st stack m (strip e) = astep st stack m e) by (destruct e; reflexivity).
  rewrite E. destruct (astep st stack m e) as [[[s1 m1] o1]|]; [|reflexivity]. rewrite IH. reflexivity.
Qed.
Lemma strip_tree t : forall a b, map strip (tree_events a t) = map strip (tree_events b t).
Proof.
  induction t as [n at' ks IH|s] using xtree_ind'; intros a b; [|reflexivity]. cbn [tree_events map strip]. f_equal. rewrite !map_app. f_equal.
  generalize (a ++ [n]), (b ++ [n]). induction IH as [|k l Hk _ IHl]; intros a' b'; [reflexivity|]. cbn [flat_map]. rewrite !map_app, (Hk a' b'), (IHl a' b'). reflexivity.
Qed.
Lemma arun_anc st a b stack m t : arun st stack m (tree_events a t) = arun st stack m (tree_events b t).
Proof. rewrite <- arun_strip, (strip_tree t a b). apply arun_strip. Qed.

Lemma interrupted_doc sink q st s n a ks s' x : no_deep (q ++ [st]) -> interrupted (q ++ [st]) s ->
  shandle sink (stateses [q ++ [st]]) (new_handler s) (doc_events (XE n a ks)) s' x ->
  interrupted (q ++ [st]) s' /\ exists lst, tsent s' = tsent s ++ lst /\
    (x = TEnd /\ lst = [] /\ ~ stage_ok st n \/ (x = TEnd \/ x = TSink) /\ length lst = 1 /\ stage_ok st n).
Proof.
  set (p := q ++ [st]). intros Hd (anc & n0 & Hc & Hn & H0) Hh.
  assert (Hp : p <> []) by (unfold p; destruct q; discriminate).
  assert (Hf : forall names, fails (prep p) names = false) by (intros; apply fails_never; auto; apply no_deep_ends; auto).
  assert (Hq : no_deep q) by (intros Hi; apply Hd, in_or_app; auto).
  assert (Hst : st <> StDeep) by (intros ->; apply Hd, in_or_app; right; left; auto).
  pose proof (proj1 (hits_exact p Hd Hp _) H0) as Hm. assert (Hlen : S (length anc) = length p).
  { apply matches_len in Hm; auto. rewrite app_length in Hm. cbn in Hm. lia. }
  pose proof (proj1 (matches_snoc st n0 Hst q anc Hq) Hm) as [Hqa _].
  assert (Hok : hits (prep p) (anc ++ [n]) = true <-> stage_ok st n).
  { rewrite hits_exact by auto. unfold p. rewrite matches_snoc by auto. tauto. }
  pose proof (arun_idle (prep p) (XE n a ks) Hf (prep_not_matched p Hp) anc Hn) as Ha. rewrite found_after in Ha by auto.
  assert (Ha' : arun (prep p) anc AIdle (doc_events (XE n a ks)) = Some (anc, AIdle, map snd (if hits (prep p) (anc ++ [n]) then [([] : addr, XE n a ks)] else []))).
  { unfold doc_events. rewrite (arun_anc (prep p) [] anc). exact Ha. }
  destruct x as [|x|].
  - apply shandle_end in Hh. destruct (ctl_run _ _ _ _ _ _ _ _ _ _ _ (Hc : tctl (new_handler s) = mkC anc [depth_of AIdle]) Hh Ha') as (_ & G1 & lst & G2 & G3).
    split; [exists anc, n0; auto|]. exists lst. split; [exact G2|]. rewrite map_length in G3. destruct (hits (prep p) (anc ++ [n])).
    + right. tauto.
    + left. split; auto. split; [destruct lst; [auto|discriminate]|]. intros K. apply Hok in K. discriminate.
  - exfalso. apply shandle_exn in Hh. destruct (ctl_run _ _ _ _ _ _ _ _ _ _ _ (Hc : tctl (new_handler s) = mkC anc [depth_of AIdle]) Hh Ha') as (E & _). discriminate.
  - destruct (interrupt _ _ _ _ _ _ _ Hp Hf (Hc : tctl (new_handler s) = _) Hn Ha' Hh) as (G1 & lst & G2 & G3). split; auto. exists lst. split; [exact G2|]. right.
    cbn [snd] in G3. rewrite map_length in G3. destruct (hits (prep p) (anc ++ [n])); cbn [length] in G3; [|lia]. split; auto. split; [lia|tauto].
Qed.
Lemma fed_ctl sink p s : no_deep p -> p <> [] -> fed sink p s -> tctl s = mkC [] [0].
Proof.
  intros Hd Hp H. assert (Hf : forall names, fails (prep p) names = false) by (intros; apply fails_never; auto; apply no_deep_ends; auto).
  induction H as [h k|s t s' Hs IH Ht Hh]; [reflexivity|]. pose proof (arun_idle (prep p) t Hf (prep_not_matched p Hp) [] (nil_hits _)) as Ha.
  apply shandle_end in Hh. exact (proj1 (proj2 (ctl_run _ _ _ _ _ _ _ _ _ _ _ (IH : tctl (new_handler s) = mkC [] [depth_of AIdle]) Hh Ha))).
Qed.
Lemma stopped_interrupted sink p s : no_deep p -> p <> [] -> stopped sink p s -> interrupted p s.
Proof.
  intros Hd Hp H. assert (Hf : forall names, fails (prep p) names = false) by (intros; apply fails_never; auto; apply no_deep_ends; auto).
  induction H as [s t s' Hs Ht Hh|s t s' x Hs IH Ht Hh].
  - pose proof (arun_idle (prep p) t Hf (prep_not_matched p Hp) [] (nil_hits _)) as Ha.
    exact (proj1 (interrupt _ _ _ _ _ _ _ Hp Hf (fed_ctl _ _ _ Hd Hp Hs : tctl (new_handler s) = _) (nil_hits _) Ha Hh)).
  - destruct Ht as (n & a & ks & ->). destruct (exists_last Hp) as (q & st & ->). exact (proj1 (interrupted_doc _ _ _ _ _ _ _ _ _ Hd IH Hh)).
Qed.
Theorem after_stop sink q st s n a ks s' x : no_deep (q ++ [st]) -> stopped sink (q ++ [st]) s ->
  shandle sink (stateses [q ++ [st]]) (new_handler s) (doc_events (XE n a ks)) s' x ->
  exists lst, tsent s' = tsent s ++ lst /\
    (x = TEnd /\ lst = [] /\ ~ stage_ok st n \/ (x = TEnd \/ x = TSink) /\ length lst = 1 /\ stage_ok st n).
Proof.
  intros Hd Hs Hh. assert (Hp : q ++ [st] <> []) by (destruct q; discriminate).
  exact (proj2 (interrupted_doc _ _ _ _ _ _ _ _ _ Hd (stopped_interrupted _ _ _ Hd Hp Hs) Hh)).
Qed.

(** ** Sinks and runs for the examples *)
Definition stops (f : ref -> heap -> bool) : stop_rel :=
  fun _ e h k h' k' r => exists i, e = Some i /\ h' = h /\ k' = k /\ r = f i h.
Fixpoint sruns1 (f : ref -> heap -> bool) (l : list tstmt) (s : tstate) : option (tstate * option nat) :=
  match l with
  | [] => Some (s, None)
  | TSend ix :: r => match tpar s with
                     | Some i => if f i (theap s) then Some (after_send s ix (theap s) (tkept s), Some ix)
                                 else sruns1 f r (after_send s ix (theap s) (tkept s))
                     | None => None
                     end
  | st :: r => sruns1 f r (exec1 st s)
  end.
Fixpoint shandle1 (f : ref -> heap -> bool) (ss : list pst) (s : tstate) (evs : list event) : option (tstate * tend) :=
  match evs with
  | [] => Some (s, TEnd)
  | e :: r => match ctl_all ss 0 (tctl s) e with
              | (l, c, x) => match sruns1 f l s, x with
                             | Some (s1, Some ix), _ => Some (set_ctl s1 (ctl_at ss ix (tctl s) e), TSink)
                             | Some (s1, None), None => shandle1 f ss (set_ctl s1 c) r
                             | Some (s1, None), Some x => Some (set_ctl s1 c, TExn x)
                             | None, _ => None
                             end
              end
  end.
Lemma sruns1_ok f l : forall s s' r, sruns1 f l s = Some (s', r) -> sruns (stops f) s l s' r.
Proof.
  induction l as [|st l IH]; intros s s' r H; cbn [sruns1] in H; [injection H as <- <-; constructor; apply tcollect_refl|].
  destruct st as [|n a| | | |t| |ix|]; try (eapply sr_own; [apply tcollect_refl|discriminate|apply exec1_ok|apply IH; exact H]).
  destruct (tpar s) as [i|] eqn:E; [|discriminate]. destruct (f i (theap s)) eqn:F.
  - injection H as <- <-. apply sr_stop; [apply tcollect_refl| |lia]. exists i. auto.
  - eapply (sr_send _ _ s); [apply tcollect_refl| | |apply IH; exact H]; [|lia]. exists i. auto.
Qed.
Lemma shandle1_ok f ss evs : forall s s' x, shandle1 f ss s evs = Some (s', x) -> shandle (stops f) ss s evs s' x.
Proof.
  induction evs as [|e evs IH]; intros s s' x H; cbn [shandle1] in H; [injection H as <- <-; constructor; apply tcollect_refl|].
  destruct (ctl_all ss 0 (tctl s) e) as [[l c] y] eqn:E. destruct (sruns1 f l s) as [[s1 [ix|]]|] eqn:R; [| |discriminate]; apply sruns1_ok in R.
  - injection H as <- <-. eapply sh_stop; eauto.
  - destruct y as [y|]; [injection H as <- <-; eapply sh_exn; eauto|]. eapply sh_step; eauto.
Qed.
