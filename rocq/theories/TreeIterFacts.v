(** The sender delivers the outermost matching subtrees. *)
From Verif Require Import PyStr Parser ParserM XTree ParserInv Heap Builder HeapSpec BuilderFacts HeapFacts BuilderMore Path Nodes Pattern PatternSpec PatternFacts.
From Verif Require Import TreeIter TreeIterSpec.

(** ** What a sender with one pattern does, without the heap *)
Inductive amode := AIdle | ABuild (f : frame) (fs : list frame).
Definition astep (st : pst) (stack : list str) (m : amode) (e : event) : option (list str * amode * list xtree) :=
  match e with
  | EvStart n a _ =>
      match m with
      | AIdle => match match_state st (stack ++ [n]) with
                 | Some true => Some (stack ++ [n], ABuild (n, a, []) [], [])
                 | Some false => Some (stack ++ [n], AIdle, [])
                 | None => None
                 end
      | ABuild f fs => Some (stack ++ [n], ABuild (n, a, []) (f :: fs), [])
      end
  | EvChars t => match m with
                 | AIdle => Some (stack, AIdle, [])
                 | ABuild (n, a, ks) fs => Some (stack, ABuild (n, a, ks ++ [XT t]) fs, [])
                 end
  | EvEnd _ _ =>
      match stack with
      | [] => None
      | _ => match m with
             | AIdle => Some (removelast stack, AIdle, [])
             | ABuild (n, a, ks) [] => Some (removelast stack, AIdle, [XE n a ks])
             | ABuild (n, a, ks) ((n', a', ks') :: fs) => Some (removelast stack, ABuild (n', a', ks' ++ [XE n a ks]) fs, [])
             end
      end
  end.
Fixpoint arun (st : pst) (stack : list str) (m : amode) (evs : list event) : option (list str * amode * list xtree) :=
  match evs with
  | [] => Some (stack, m, [])
  | e :: r => match astep st stack m e with
              | Some (stack1, m1, o1) =>
                  match arun st stack1 m1 r with Some (stack2, m2, o2) => Some (stack2, m2, o1 ++ o2) | None => None end
              | None => None
              end
  end.
Lemma arun_app st e1 e2 : forall stack m, arun st stack m (e1 ++ e2) =
  match arun st stack m e1 with
  | Some (stack1, m1, o1) => match arun st stack1 m1 e2 with Some (s2, m2, o2) => Some (s2, m2, o1 ++ o2) | None => None end
  | None => None
  end.
Proof.
  induction e1 as [|e e1 IH]; intros stack m; cbn [arun app].
  - destruct (arun st stack m e2) as [[[s2 m2] o2]|]; reflexivity.
  - destruct (astep st stack m e) as [[[s1 m1] o1]|]; [|reflexivity]. rewrite IH. destruct (arun st s1 m1 e1) as [[[s2 m2] o2]|]; [|reflexivity].
    destruct (arun st s2 m2 e2) as [[[s3 m3] o3]|]; [|reflexivity]. rewrite app_assoc. reflexivity.
Qed.

(** While building, everything is taken in. *)
Lemma arun_build st t : forall anc n a ks fs, arun st anc (ABuild (n, a, ks) fs) (tree_events anc t) = Some (anc, ABuild (n, a, ks ++ [t]) fs, []).
Proof.
  induction t as [n0 a0 l IH|s] using xtree_ind'; intros anc n a ks fs; [|reflexivity].
  cbn [tree_events arun astep]. rewrite arun_app.
  assert (H : forall k0, arun st (anc ++ [n0]) (ABuild (n0, a0, k0) ((n, a, ks) :: fs)) (flat_map (tree_events (anc ++ [n0])) l) =
     Some (anc ++ [n0], ABuild (n0, a0, k0 ++ l) ((n, a, ks) :: fs), [])).
  { induction IH as [|k l Hk _ IHl]; intros k0; [cbn; rewrite app_nil_r; reflexivity|].
    cbn [flat_map]. rewrite arun_app, Hk, IHl, <- app_assoc. reflexivity. }
  rewrite H. cbn [arun astep app]. destruct (anc ++ [n0]) eqn:E; [destruct anc; discriminate|]. rewrite <- E, removelast_last. reflexivity.
Qed.

(** Matching the whole stack, when nothing above matched. *)
Lemma match_hits st : forall anc n, (forall names, fails st names = false) -> st <> PMatched ->
  (forall x y, anc = x ++ y -> hits st x = false) -> match_state st (anc ++ [n]) = Some (hits st (anc ++ [n])).
Proof.
  intros anc. revert st. induction anc as [|x anc IH]; intros st n Hf Hm Ha; cbn [app match_state hits].
  - specialize (Hf [n]). cbn in Hf. destruct (pst_step st n) as [| |s]; [discriminate|reflexivity|]. destruct s; reflexivity.
  - pose proof (Hf [x]) as Hfx. cbn in Hfx. destruct (pst_step st x) as [| |s] eqn:E; [discriminate|reflexivity|].
    specialize (Ha [x] anc eq_refl) as Hx. cbn [hits] in Hx. rewrite E in Hx.
    assert (Hs : s <> PMatched) by (intros ->; discriminate).
    assert (Hi : match_state s (anc ++ [n]) = Some (hits s (anc ++ [n]))).
    { apply IH; auto.
      - intros names. specialize (Hf (x :: names)). cbn [fails] in Hf. rewrite E in Hf. destruct s; auto; congruence.
      - intros u v Huv. specialize (Ha (x :: u) v). rewrite (hits_cons st x s u E Hs) in Ha. apply Ha. cbn. f_equal. auto. }
    destruct s; auto. congruence.
Qed.

(** Idle: the outermost hits are sent. *)
Lemma arun_idle st t : (forall names, fails st names = false) -> st <> PMatched ->
  forall anc, (forall x y, anc = x ++ y -> hits st x = false) ->
  arun st anc AIdle (tree_events anc t) = Some (anc, AIdle, map snd (found (hits st) anc t)).
Proof.
  intros Hf Hm. induction t as [n a ks IH|s] using xtree_ind'; intros anc Ha; [|reflexivity].
  cbn [tree_events arun astep found]. rewrite match_hits by auto. destruct (hits st (anc ++ [n])) eqn:E.
  - rewrite arun_app.
    assert (H : forall k0, arun st (anc ++ [n]) (ABuild (n, a, k0) []) (flat_map (tree_events (anc ++ [n])) ks) =
       Some (anc ++ [n], ABuild (n, a, k0 ++ ks) [], [])).
    { clear IH. induction ks as [|k l IHl]; intros k0; [cbn; rewrite app_nil_r; reflexivity|].
      cbn [flat_map]. rewrite arun_app, arun_build, IHl, <- app_assoc. reflexivity. }
    rewrite H. cbn [arun astep app map snd]. destruct (anc ++ [n]) eqn:E2; [destruct anc; discriminate|]. rewrite <- E2, removelast_last. reflexivity.
  - rewrite arun_app.
    assert (Ha' : forall x y, anc ++ [n] = x ++ y -> hits st x = false).
    { intros x y H. destruct y as [|y0 y] using rev_ind; [rewrite app_nil_r in H; subst; auto|].
      rewrite app_assoc in H. apply app_inj_tail in H as [-> _]. eapply Ha; reflexivity. }
    assert (H : forall i, arun st (anc ++ [n]) AIdle (flat_map (tree_events (anc ++ [n])) ks) =
       Some (anc ++ [n], AIdle, map snd (over (found (hits st) (anc ++ [n])) i ks))).
    { induction IH as [|k l Hk _ IHl]; intros i; [reflexivity|]. cbn [flat_map over]. rewrite arun_app, Hk by auto. rewrite (IHl (S i)).
      rewrite map_app. unfold under. rewrite map_map. reflexivity. }
    rewrite (H 0). cbn [arun astep]. destruct (anc ++ [n]) eqn:E2; [destruct anc; discriminate|]. rewrite <- E2, removelast_last. rewrite app_nil_r. reflexivity.
Qed.

(** ** The heap *)
Definition phi (s : tstate) : bstate := mkB (theap s) (nth 0 (troots s) None) (tpar s) (telem s) (ttext s).
Definition phi0 (s : tstate) : bstate := mkB (theap s) None (tpar s) (telem s) (ttext s).

Lemma reach_mono h r1 r2 i : incl r1 r2 -> reach h r1 i -> reach h r2 i.
Proof. intros Hi H. induction H as [i H|i j o _ IH Ho Hj]; [apply re_root; auto|]. eapply re_kid; eauto. Qed.
Lemma gc_mono r1 r2 h h' : incl r1 r2 -> gc r2 h h' -> gc r1 h h'.
Proof. intros Hi (Hn & Hg). split; auto. intros i. destruct (Hg i) as [H|[H1 H2]]; auto. right. split; auto. intros Hr. apply H2. eapply reach_mono; eauto. Qed.
Lemma phi_roots s : incl (broots (phi s)) (tlive s).
Proof.
  intros i. unfold broots, phi, tlive. cbn [broot bpar belem btext]. rewrite !in_app_iff. intros [H|[H|[H|H]]]; auto 8.
  left. apply in_flat_map. destruct (troots s) as [|o r]; cbn in H; [destruct H|]. exists o. split; [left; auto|auto].
Qed.
Lemma phi0_roots s : incl (broots (phi0 s)) (tlive s).
Proof. intros i. unfold broots, phi0, tlive. cbn [broot bpar belem btext opt_list app]. rewrite !in_app_iff. intros [H|[H|H]]; auto 8. Qed.
Lemma tcollect_phi s s' : tcollect s s' -> collect (phi s) (phi s').
Proof.
  intros (_ & Hg & H1 & _ & _ & H2 & H3 & H4 & _). split; [|cbn; rewrite H1, H2, H3, H4; auto].
  eapply gc_mono; [apply phi_roots|exact Hg].
Qed.
Lemma tcollect_phi0 s s' : tcollect s s' -> collect (phi0 s) (phi0 s').
Proof.
  intros (_ & Hg & H1 & _ & _ & H2 & H3 & H4 & _). split; [|cbn; rewrite H2, H3, H4; auto].
  eapply gc_mono; [apply phi0_roots|exact Hg].
Qed.

(** Trees that are kept lie below [lo] and are intact. *)
Definition kinv (lo : nat) (l : nat -> xtree -> Prop) (s : tstate) : Prop :=
  forall i t, l i t -> i < lo /\
    (In i (tkept s) -> exists ids, holds (theap s) None i t ids /\ NoDup ids /\ forall j, In j ids -> j < lo).
Lemma kinv_same lo l s s' : kinv lo l s -> (forall i t, l i t -> In i (tkept s') -> In i (tkept s)) ->
  (forall j, j < lo -> hp (theap s') j = hp (theap s) j) -> kinv lo l s'.
Proof.
  intros H Hk Hh i t Hi. destruct (H i t Hi) as [H1 H2]. split; auto. intros Hkept. destruct (H2 (Hk i t Hi Hkept)) as (ids & H3 & H4 & H5).
  exists ids. split; auto. eapply (proj1 (holds_same (theap s) (theap s'))); [exact H3|]. intros j Hj. apply Hh. auto.
Qed.
Lemma kinv_collect lo l s s' : kinv lo l s -> tcollect s s' -> kinv lo l s'.
Proof.
  intros H (Hi & (_ & Hg) & _) i t Hin. destruct (H i t Hin) as [H1 H2]. split; auto. intros Hk. destruct (H2 (Hi _ Hk)) as (ids & H3 & H4 & H5).
  exists ids. split; auto. eapply (proj1 (holds_same (theap s) (theap s'))); [exact H3|]. intros j Hj. destruct (Hg j) as [E|[_ Hn]]; auto.
  exfalso. apply Hn. eapply (proj1 (holds_reach _ _)); [exact H3| |exact Hj]. apply re_root. unfold tlive. rewrite !in_app_iff. auto 8.
Qed.

(** The memory of an idle or building sender. *)
Definition elem_in (s : tstate) (lo hi : nat) : Prop := forall e, telem s = Some e -> lo <= e < hi.
Definition memory (m : amode) (b : nat) (s : tstate) : Prop :=
  match m with
  | AIdle => ((troots s = [None] /\ ttext s = None) /\ telem s = None /\ tsent s = []) \/
             exists b0 t0, binv b0 (ZDone t0) (phi s) /\ elem_in s b0 (b0 + tree_size t0) /\ last_sent s b0 t0
  | ABuild f fs => elem_in s b (nxt (theap s))
  end.

Definition depth_of (m : amode) : nat := match m with AIdle => 0 | ABuild _ fs => S (length fs) end.
Record tinv (mem : bool) (b : nat) (stack : list str) (m : amode) (l : nat -> xtree -> Prop) (s : tstate) : Prop := mkI {
  ti_ctl : tctl s = mkC stack [depth_of m];
  ti_pars : tpars s = [tpar s];
  ti_roots : length (troots s) = 1;
  ti_mode : match m with AIdle => tpar s = None /\ nxt (theap s) = b | ABuild f fs => binv b (ZOpen f fs) (phi s) end;
  ti_kept : kinv b l s;
  ti_mem : mem = true -> memory m b s }.

Lemma tinv_collect mem b stack m l s s' : tinv mem b stack m l s -> tcollect s s' -> tinv mem b stack m l s' /\ tsent s' = tsent s.
Proof.
  intros [H1 H2 H3 H4 H5 H6] Hc. pose proof Hc as (_ & (Hn & _) & E1 & E2 & E3 & E4 & E5 & E6 & E7). split; auto. constructor.
  - congruence.
  - congruence.
  - congruence.
  - destruct m; [rewrite E4, Hn; auto|]. eapply collect_binv; [exact H4|]. apply tcollect_phi; auto.
  - eapply kinv_collect; eauto.
  - intros Hm. specialize (H6 Hm). destruct m; cbn [memory] in *.
    + destruct H6 as [([G1 G1'] & G2 & G3)|(b0 & t0 & G1 & G2 & G3)]; [left; repeat split; congruence|]. right. exists b0, t0. split; [|split].
      * eapply collect_binv; [exact G1|]. apply tcollect_phi; auto.
      * intros e He. apply G2. congruence.
      * destruct G3 as (pre & h & G3 & G4). exists pre, h. split; [congruence|auto].
    + intros e He. rewrite Hn. apply H6. congruence.
Qed.
Lemma tinv_load mem b stack m l s rest s' : tinv mem b stack m l s -> truns s (TLoad 0 :: rest) s' ->
  exists s1, tinv mem b stack m l s1 /\ tsent s1 = tsent s /\ truns s1 rest s'.
Proof.
  intros Hi Hr. inversion Hr as [|u s1 s2 st0 l0 v C0 X0 R0]; subst. destruct (tinv_collect _ _ _ _ _ _ _ Hi C0) as [Hi1 Hs1].
  inversion X0; subst. eexists. split; [|split; [|exact R0]]; [|exact Hs1].
  replace (nth 0 (tpars s1) None) with (tpar s1) by (destruct Hi1 as [_ -> _ _ _]; reflexivity).
  destruct Hi1 as [H1 H2 H3 H4 H5 H6]. destruct s1; constructor; auto.
Qed.
Lemma tinv_nil mem b stack m l s s' : tinv mem b stack m l s -> truns s [] s' -> tinv mem b stack m l s' /\ tsent s' = tsent s.
Proof. intros H Hr. inversion Hr; subst. eapply tinv_collect; eauto. Qed.
Lemma tinv_set_ctl mem b stack m l s stack' : tinv mem b stack m l s -> tinv mem b stack' m l (set_ctl s (mkC stack' [depth_of m])).
Proof. intros [H1 H2 H3 H4 H5 H6]. constructor; auto. Qed.

Ltac tc C := let H0 := fresh "K" in let H1 := fresh "K" in let H2 := fresh "K" in let H3 := fresh "K" in let H4 := fresh "K" in
  pose proof C as (H0 & (? & _) & H1 & H2 & H3 & H4 & ? & ? & ?).

(** Start of an element while building. *)
Lemma start_build mem b stack f fs l s s' n a stack' : tinv mem b stack (ABuild f fs) l s ->
  truns s [TLoad 0; TNewElem n a; TAppendElem; TDown 0] s' ->
  tinv mem b stack' (ABuild (n, a, []) (f :: fs)) l (set_ctl s' (mkC stack' [S (S (length fs))])) /\ tsent s' = tsent s.
Proof.
  intros Hi Hr. apply (tinv_load _ _ _ _ _ _ _ _ Hi) in Hr as (s0 & Hi0 & Hs0 & R0). clear Hi.
  inversion R0 as [|u0 s1 s2 st0 l0 v0 C1 X1 R1]; subst. clear R0. destruct (tinv_collect _ _ _ _ _ _ _ Hi0 C1) as [Hi1 Hs1].
  inversion R1 as [|u1 s3 s4 st1 l1 v1 C2 X2 R2]; subst. clear R1.
  inversion R2 as [|u2 s5 s6 st2 l2 v2 C3 X3 R3]; subst. clear R2.
  inversion R3 as [u3 v3 C4|]; subst. clear R3.
  destruct Hi1 as [H1 H2 H3 H4 H5 H6].
  inversion X1; subst. clear X1. inversion X2; subst. clear X2. inversion X3; subst. clear X3.
  set (s2 := mkT (fst (alloc (theap s1) (OElem n a [] (tpar s1)))) (troots s1) (tpars s1) (tctl s1) (tpar s1) (Some (nxt (theap s1))) (ttext s1) (tkept s1) (tsent s1)) in *.
  set (s4 := mkT (match tpar s3, telem s3 with Some p, Some i => append_kid (theap s3) p i | _, _ => theap s3 end) (troots s3) (tpars s3) (tctl s3) (tpar s3) (telem s3) (ttext s3) (tkept s3) (tsent s3)) in *.
  set (s6 := mkT (theap s5) (troots s5) (set_nth 0 (telem s5) (tpars s5)) (tctl s5) (telem s5) (telem s5) (ttext s5) (tkept s5) (tsent s5)) in *.
  pose proof C2 as (K2 & (Kn2 & _) & A1 & A2 & A3 & A4 & A5 & A6 & A7).
  pose proof C3 as (K3 & (Kn3 & _) & B1 & B2 & B3 & B4 & B5 & B6 & B7).
  pose proof C4 as (K4 & (Kn4 & _) & D1 & D2 & D3 & D4 & D5 & D6 & D7).
  assert (Hroot : nth 0 (troots s1) None = Some b) by (destruct H4 as (G & _); exact G).
  assert (Hr1 : troots s' = troots s1) by (rewrite D1; cbn; rewrite B1; cbn; rewrite A1; reflexivity).
  assert (RR : runs (phi s1) (handler_stmts (EvStart n a []) ++ []) (phi s')).
  { cbn [handler_stmts app]. eapply runs_cons; [apply collect_refl|]. change (exec (SNewElem n a) (phi s1)) with (phi s2).
    eapply runs_cons; [apply tcollect_phi; exact C2|]. replace (exec SAppendElem (phi s3)) with (phi s4).
    2: { unfold phi, s4. cbn [exec bpar belem theap troots tpar telem ttext bheap broot btext]. destruct (tpar s3), (telem s3); reflexivity. }
    eapply runs_cons; [apply tcollect_phi; exact C3|]. change (exec SDown (phi s5)) with (phi s6).
    eapply runs_cons; [apply tcollect_phi; exact C4|]. replace (exec SRoot (phi s')) with (phi s'); [apply runs_nil, collect_refl|].
    unfold phi. cbn [exec broot]. rewrite Hr1, Hroot. reflexivity. }
  destruct (step_start_open _ _ _ _ _ _ _ _ _ H4 RR) as (s7 & G1 & G2). inversion G2 as [u7 v7 C7|]; subst. apply (collect_binv _ _ _ _ G1) in C7. clear G1 G2 RR.
  assert (Hp1 : tpar s1 = Some (fid b (f :: fs))) by (destruct H4 as (_ & G & _); exact G).
  assert (Hn1 : nxt (theap s1) = fend b (f :: fs)) by (destruct H4 as (_ & _ & G & _); exact G).
  assert (Hlow : b <= fid b (f :: fs)) by apply fid_low.
  assert (Hlt : fid b (f :: fs) < fend b (f :: fs)) by (unfold fend; lia).
  assert (He : telem s' = Some (nxt (theap s1))) by (rewrite D5; cbn; rewrite B5; cbn; rewrite A5; reflexivity).
  assert (Hp : tpars s' = [telem s']) by (rewrite D2, D5; cbn; rewrite B2; cbn; rewrite A2; cbn; rewrite H2; reflexivity).
  split; [constructor|].
  - reflexivity.
  - cbn. rewrite Hp, D4, D5. reflexivity.
  - cbn. congruence.
  - exact C7.
  - change (kinv b l s'). eapply kinv_collect; [|exact C4]. apply (kinv_same b l s5); [|auto|reflexivity].
    eapply kinv_collect; [|exact C3]. apply (kinv_same b l s3); [|auto|].
    + eapply kinv_collect; [|exact C2]. apply (kinv_same b l s1); [exact H5|auto|]. intros j Hj. cbn [theap s2]. rewrite hp_alloc.
      replace (j =? nxt (theap s1)) with false by (symmetry; apply Nat.eqb_neq; lia). reflexivity.
    + intros j Hj. cbn [theap s4]. rewrite A4. cbn [tpar s2]. rewrite Hp1. destruct (telem s3); [|reflexivity]. apply append_same. lia.
  - intros Hm. cbn [memory]. intros e Hex. cbn in Hex. rewrite He in Hex. inversion Hex; subst. cbn.
    destruct C7 as (_ & _ & G & _). cbn [phi bheap] in G. cbn [theap set_ctl]. rewrite G. split; [lia|].
    change (fend b ((n, a, []) :: f :: fs)) with (S (fend b (f :: fs)) + 0). lia.
  - rewrite D7. cbn. rewrite B7. cbn. rewrite A7. cbn. congruence.
Qed.

(** Start of a matching element. *)
Lemma start_idle mem b stack l s s' n a stack' : tinv mem b stack AIdle l s ->
  truns s [TLoad 0; TNewElem n a; TAppendElem; TDown 0; TRoot 0] s' ->
  tinv mem b stack' (ABuild (n, a, []) []) l (set_ctl s' (mkC stack' [1])) /\ tsent s' = tsent s.
Proof.
  intros Hi Hr. apply (tinv_load _ _ _ _ _ _ _ _ Hi) in Hr as (s0 & Hi0 & Hs0 & R0). clear Hi.
  inversion R0 as [|u0 s1 s2 st0 l0 v0 C1 X1 R1]; subst. clear R0. destruct (tinv_collect _ _ _ _ _ _ _ Hi0 C1) as [Hi1 Hs1].
  inversion R1 as [|u1 s3 s4 st1 l1 v1 C2 X2 R2]; subst. clear R1.
  inversion R2 as [|u2 s5 s6 st2 l2 v2 C3 X3 R3]; subst. clear R2.
  inversion R3 as [|u3 s7 s8 st3 l3 v3 C4 X4 R4]; subst. clear R3.
  inversion R4 as [u4 v4 C5|]; subst. clear R4.
  destruct Hi1 as [H1 H2 H3 H4 H5 H6].
  inversion X1; subst. clear X1. inversion X2; subst. clear X2. inversion X3; subst. clear X3. inversion X4; subst. clear X4.
  set (s2 := mkT (fst (alloc (theap s1) (OElem n a [] (tpar s1)))) (troots s1) (tpars s1) (tctl s1) (tpar s1) (Some (nxt (theap s1))) (ttext s1) (tkept s1) (tsent s1)) in *.
  set (s4 := mkT (match tpar s3, telem s3 with Some p, Some i => append_kid (theap s3) p i | _, _ => theap s3 end) (troots s3) (tpars s3) (tctl s3) (tpar s3) (telem s3) (ttext s3) (tkept s3) (tsent s3)) in *.
  set (s6 := mkT (theap s5) (troots s5) (set_nth 0 (telem s5) (tpars s5)) (tctl s5) (telem s5) (telem s5) (ttext s5) (tkept s5) (tsent s5)) in *.
  set (s8 := mkT (theap s7) (set_nth 0 (telem s7) (troots s7)) (tpars s7) (tctl s7) (tpar s7) (telem s7) (ttext s7) (tkept s7) (tsent s7)) in *.
  pose proof C2 as (K2 & (Kn2 & _) & A1 & A2 & A3 & A4 & A5 & A6 & A7).
  pose proof C3 as (K3 & (Kn3 & _) & B1 & B2 & B3 & B4 & B5 & B6 & B7).
  pose proof C4 as (K4 & (Kn4 & _) & D1 & D2 & D3 & D4 & D5 & D6 & D7).
  pose proof C5 as (K5 & (Kn5 & _) & F1 & F2 & F3 & F4 & F5 & F6 & F7).
  assert (Hr1 : troots s7 = troots s1) by (rewrite D1; cbn; rewrite B1; cbn; rewrite A1; reflexivity).
  assert (Hb : binv b ZNone (phi0 s1)) by (cbn; tauto).
  assert (RR : runs (phi0 s1) (handler_stmts (EvStart n a []) ++ []) (phi s')).
  { cbn [handler_stmts app]. eapply runs_cons; [apply collect_refl|]. change (exec (SNewElem n a) (phi0 s1)) with (phi0 s2).
    eapply runs_cons; [apply tcollect_phi0; exact C2|]. replace (exec SAppendElem (phi0 s3)) with (phi0 s4).
    2: { unfold phi0, s4. cbn [exec bpar belem theap troots tpar telem ttext bheap broot btext]. destruct (tpar s3), (telem s3); reflexivity. }
    eapply runs_cons; [apply tcollect_phi0; exact C3|]. change (exec SDown (phi0 s5)) with (phi0 s6).
    eapply runs_cons; [apply tcollect_phi0; exact C4|]. replace (exec SRoot (phi0 s7)) with (phi s8); [apply runs_nil, tcollect_phi; exact C5|].
    unfold phi, phi0, s8. cbn [exec broot bheap belem bpar btext theap troots tpar telem ttext]. rewrite Hr1.
    destruct (troots s1) as [|r0 [|]]; try discriminate. reflexivity. }
  destruct (step_start_first _ _ _ _ _ _ _ Hb RR) as (s9 & G1 & G2). inversion G2 as [u9 v9 C9|]; subst. apply (collect_binv _ _ _ _ G1) in C9. clear G1 G2 RR. destruct H4 as (Hp1 & Hn1).
  assert (He : telem s' = Some (nxt (theap s1))) by (rewrite F5; cbn; rewrite D5; cbn; rewrite B5; cbn; rewrite A5; reflexivity).
  assert (Hp : tpars s' = [telem s']) by (rewrite F2, F5; cbn; rewrite D2, D5; cbn; rewrite B2; cbn; rewrite A2; cbn; rewrite H2; reflexivity).
  split; [constructor|].
  - reflexivity.
  - cbn. rewrite Hp, F4, F5. cbn. rewrite D4, D5. reflexivity.
  - cbn. rewrite F1. cbn. rewrite Hr1. destruct (troots s1) as [|r0 [|]]; try discriminate. reflexivity.
  - exact C9.
  - change (kinv b l s'). eapply kinv_collect; [|exact C5]. apply (kinv_same b l s7); [|auto|reflexivity].
    eapply kinv_collect; [|exact C4]. apply (kinv_same b l s5); [|auto|reflexivity].
    eapply kinv_collect; [|exact C3]. apply (kinv_same b l s3); [|auto|].
    + eapply kinv_collect; [|exact C2]. apply (kinv_same b l s1); [exact H5|auto|]. intros j Hj. cbn [theap s2]. rewrite hp_alloc.
      replace (j =? nxt (theap s1)) with false by (symmetry; apply Nat.eqb_neq; lia). reflexivity.
    + intros j Hj. cbn [theap s4]. rewrite A4. cbn [tpar s2]. rewrite Hp1. reflexivity.
  - intros Hm. cbn [memory]. intros e Hex. cbn in Hex. rewrite He in Hex. inversion Hex; subst. cbn.
    destruct C9 as (_ & _ & G & _). cbn [phi bheap] in G. cbn [theap set_ctl]. rewrite G. split; [lia|].
    unfold fend. cbn [fid fkids snd size_all fold_right]. lia.
  - rewrite F7. cbn. rewrite D7. cbn. rewrite B7. cbn. rewrite A7. cbn. congruence.
Qed.

(** Characters while building. *)
Lemma chars_build mem b stack n a ks fs l s s' t stack' : tinv mem b stack (ABuild (n, a, ks) fs) l s ->
  truns s [TLoad 0; TNewText t; TAppendText] s' ->
  tinv mem b stack' (ABuild (n, a, ks ++ [XT t]) fs) l (set_ctl s' (mkC stack' [S (length fs)])) /\ tsent s' = tsent s.
Proof.
  intros Hi Hr. apply (tinv_load _ _ _ _ _ _ _ _ Hi) in Hr as (s0 & Hi0 & Hs0 & R0). clear Hi.
  inversion R0 as [|u0 s1 s2 st0 l0 v0 C1 X1 R1]; subst. clear R0. destruct (tinv_collect _ _ _ _ _ _ _ Hi0 C1) as [Hi1 Hs1].
  inversion R1 as [|u1 s3 s4 st1 l1 v1 C2 X2 R2]; subst. clear R1.
  inversion R2 as [u3 v3 C3|]; subst. clear R2.
  destruct Hi1 as [H1 H2 H3 H4 H5 H6].
  inversion X1; subst. clear X1. inversion X2; subst. clear X2.
  set (s2 := mkT (fst (alloc (theap s1) (OText t (tpar s1)))) (troots s1) (tpars s1) (tctl s1) (tpar s1) (telem s1) (Some (nxt (theap s1))) (tkept s1) (tsent s1)) in *.
  set (s4 := mkT (match tpar s3, ttext s3 with Some p, Some i => append_kid (theap s3) p i | _, _ => theap s3 end) (troots s3) (tpars s3) (tctl s3) (tpar s3) (telem s3) (ttext s3) (tkept s3) (tsent s3)) in *.
  pose proof C2 as (K2 & (Kn2 & _) & A1 & A2 & A3 & A4 & A5 & A6 & A7).
  pose proof C3 as (K3 & (Kn3 & _) & B1 & B2 & B3 & B4 & B5 & B6 & B7).
  assert (RR : runs (phi s1) (handler_stmts (EvChars t) ++ []) (phi s')).
  { cbn [handler_stmts app]. eapply runs_cons; [apply collect_refl|]. change (exec (SNewText t) (phi s1)) with (phi s2).
    eapply runs_cons; [apply tcollect_phi; exact C2|]. replace (exec SAppendText (phi s3)) with (phi s4); [apply runs_nil, tcollect_phi; exact C3|].
    unfold phi, s4. cbn [exec bpar belem theap troots tpar telem ttext bheap broot btext]. destruct (tpar s3), (ttext s3); reflexivity. }
  destruct (step_chars _ _ _ _ _ _ _ _ _ H4 RR) as (s7 & G1 & G2). inversion G2 as [u7 v7 C7|]; subst. apply (collect_binv _ _ _ _ G1) in C7. clear G1 G2 RR.
  assert (Hp1 : tpar s1 = Some (fid b ((n, a, ks) :: fs))) by (destruct H4 as (_ & G & _); exact G).
  assert (Hn1 : nxt (theap s1) = fend b ((n, a, ks) :: fs)) by (destruct H4 as (_ & _ & G & _); exact G).
  assert (Hlow : b <= fid b ((n, a, ks) :: fs)) by apply fid_low.
  assert (Hlt : fid b ((n, a, ks) :: fs) < fend b ((n, a, ks) :: fs)) by (unfold fend; lia).
  split; [constructor|].
  - reflexivity.
  - cbn. rewrite B2, B4. cbn. rewrite A2, A4. cbn. exact H2.
  - cbn. rewrite B1. cbn. rewrite A1. exact H3.
  - exact C7.
  - change (kinv b l s'). eapply kinv_collect; [|exact C3]. apply (kinv_same b l s3); [|auto|].
    + eapply kinv_collect; [|exact C2]. apply (kinv_same b l s1); [exact H5|auto|]. intros j Hj. cbn [theap s2]. rewrite hp_alloc.
      replace (j =? nxt (theap s1)) with false by (symmetry; apply Nat.eqb_neq; lia). reflexivity.
    + intros j Hj. cbn [theap s4]. rewrite A4. cbn [tpar s2]. rewrite Hp1. destruct (ttext s3); [|reflexivity]. apply append_same. lia.
  - intros Hm. cbn [memory]. intros e Hex. cbn in Hex. rewrite B5 in Hex. cbn in Hex. rewrite A5 in Hex. cbn in Hex. apply (H6 Hm) in Hex.
    cbn [set_ctl theap]. destruct C7 as (_ & _ & G & _). cbn [phi bheap] in G. rewrite G. split; [lia|].
    unfold fend. unfold fend in Hn1. cbn [fkids snd] in *. rewrite size_all_app. change (fid b ((n, a, ks ++ [XT t]) :: fs)) with (fid b ((n, a, ks) :: fs)). lia.
  - rewrite B7. cbn. rewrite A7. cbn. congruence.
Qed.

(** End of an inner element. *)
Lemma end_inner mem b stack n a ks n' a' ks' fs l s s' stack' : tinv mem b stack (ABuild (n, a, ks) ((n', a', ks') :: fs)) l s ->
  truns s [TLoad 0; TUp 0] s' ->
  tinv mem b stack' (ABuild (n', a', ks' ++ [XE n a ks]) fs) l (set_ctl s' (mkC stack' [S (length fs)])) /\ tsent s' = tsent s.
Proof.
  intros Hi Hr. apply (tinv_load _ _ _ _ _ _ _ _ Hi) in Hr as (s0 & Hi0 & Hs0 & R0). clear Hi.
  inversion R0 as [|u0 s1 s2 st0 l0 v0 C1 X1 R1]; subst. clear R0. destruct (tinv_collect _ _ _ _ _ _ _ Hi0 C1) as [Hi1 Hs1].
  inversion R1 as [u3 v3 C3|]; subst. clear R1. destruct Hi1 as [H1 H2 H3 H4 H5 H6].
  assert (Hp1 : tpar s1 = Some (fid b ((n, a, ks) :: (n', a', ks') :: fs))) by (destruct H4 as (_ & G & _); exact G).
  inversion X1; subst. clear X1. rewrite Hp1 in C3.
  set (q := xml_parent (theap s1) (fid b ((n, a, ks) :: (n', a', ks') :: fs))) in *.
  set (s2 := mkT (theap s1) (troots s1) (set_nth 0 q (tpars s1)) (tctl s1) q (telem s1) (ttext s1) (tkept s1) (tsent s1)) in *.
  pose proof C3 as (K3 & (Kn3 & _) & B1 & B2 & B3 & B4 & B5 & B6 & B7).
  assert (RR : runs (phi s1) (handler_stmts (EvEnd n []) ++ []) (phi s')).
  { cbn [handler_stmts app]. eapply runs_cons; [apply collect_refl|]. replace (exec SUp (phi s1)) with (phi s2); [apply runs_nil, tcollect_phi; exact C3|].
    unfold phi, s2. cbn [exec bpar theap troots tpar telem ttext bheap broot btext]. rewrite Hp1. reflexivity. }
  destruct (step_end _ _ (ZOpen (n', a', ks' ++ [XE n a ks]) fs) _ _ _ _ _ H4 eq_refl RR) as (s7 & G1 & G2). inversion G2 as [u7 v7 C7|]; subst. apply (collect_binv _ _ _ _ G1) in C7. clear G1 G2 RR.
  split; [constructor|].
  - reflexivity.
  - cbn. rewrite B2, B4. cbn. rewrite H2. reflexivity.
  - cbn. rewrite B1. exact H3.
  - exact C7.
  - change (kinv b l s'). eapply kinv_collect; [|exact C3]. apply (kinv_same b l s1); [exact H5|auto|reflexivity].
  - intros Hm. cbn [memory]. intros e Hex. cbn in Hex. rewrite B5 in Hex. cbn in Hex. apply (H6 Hm) in Hex. cbn [set_ctl theap]. rewrite Kn3. exact Hex.
  - rewrite B7. cbn. congruence.
Qed.

(** End of the subtree. *)
Lemma end_outer mem b stack n a ks l s s' stack' : tinv mem b stack (ABuild (n, a, ks) []) l s ->
  truns s [TLoad 0; TSend 0; TUp 0] s' ->
  tinv mem (b + tree_size (XE n a ks)) stack' AIdle (fun i t => l i t \/ (i = b /\ t = XE n a ks)) (set_ctl s' (mkC stack' [0])) /\
  exists h, tsent s' = tsent s ++ [(0, Some b, h)] /\ placed h None b (XE n a ks).
Proof.
  intros Hi Hr. apply (tinv_load _ _ _ _ _ _ _ _ Hi) in Hr as (s0 & Hi0 & Hs0 & R0). clear Hi.
  inversion R0 as [|u0 s1 s2 st0 l0 v0 C1 X1 R1]; subst. clear R0. destruct (tinv_collect _ _ _ _ _ _ _ Hi0 C1) as [Hi1 Hs1].
  inversion R1 as [|u1 s3 s4 st1 l1 v1 C2 X2 R2]; subst. clear R1.
  inversion R2 as [u3 v3 C3|]; subst. clear R2. destruct Hi1 as [H1 H2 H3 H4 H5 H6].
  assert (Hp1 : tpar s1 = Some b) by (destruct H4 as (_ & G & _); exact G).
  assert (Hpl : placed (theap s1) None b (XE n a ks)) by (destruct H4 as (_ & _ & _ & G); exact (spine_placed _ _ [] n a ks G)).
  inversion X1 as [| | | | | | |ix0 s10 kept Hk|]; subst. clear X1.
  set (s2 := mkT (theap s1) (troots s1) (tpars s1) (tctl s1) (tpar s1) (telem s1) (ttext s1) kept (tsent s1 ++ [(0, tpar s1, theap s1)])) in *.
  pose proof C2 as (K2 & (Kn2 & _) & A1 & A2 & A3 & A4 & A5 & A6 & A7).
  assert (Hp3 : tpar s3 = Some b) by (rewrite A4; exact Hp1).
  inversion X2; subst. clear X2. rewrite Hp3 in C3.
  set (q := xml_parent (theap s3) b) in *.
  set (s4 := mkT (theap s3) (troots s3) (set_nth 0 q (tpars s3)) (tctl s3) q (telem s3) (ttext s3) (tkept s3) (tsent s3)) in *.
  pose proof C3 as (K3 & (Kn3 & _) & B1 & B2 & B3 & B4 & B5 & B6 & B7).
  assert (RR : runs (phi s2) (handler_stmts (EvEnd n []) ++ []) (phi s')).
  { cbn [handler_stmts app]. eapply runs_cons; [apply tcollect_phi; exact C2|]. replace (exec SUp (phi s3)) with (phi s4); [apply runs_nil, tcollect_phi; exact C3|].
    unfold phi, s4. cbn [exec bpar theap troots tpar telem ttext bheap broot btext]. rewrite Hp3. reflexivity. }
  change (phi s2) with (phi s1) in RR.
  destruct (step_end _ _ (ZDone (XE n a ks)) _ _ _ _ _ H4 eq_refl RR) as (s7 & G1 & G2). inversion G2 as [u7 v7 C7|]; subst. apply (collect_binv _ _ _ _ G1) in C7. clear G1 G2 RR.
  assert (Hsz : 1 <= tree_size (XE n a ks)) by apply size_pos.
  split; [constructor|].
  - reflexivity.
  - cbn. rewrite B2, B4. cbn. rewrite A2. cbn. rewrite H2. reflexivity.
  - cbn. rewrite B1. cbn. rewrite A1. exact H3.
  - destruct C7 as (_ & G1 & G2 & _). split; [exact G1|exact G2].
  - change (kinv (b + tree_size (XE n a ks)) (fun i t => l i t \/ (i = b /\ t = XE n a ks)) s').
    eapply kinv_collect; [|exact C3]. apply (kinv_same _ _ s3); [|auto|reflexivity].
    eapply kinv_collect; [|exact C2]. intros i t [Hin|[-> ->]]; cbn [tkept theap s2].
    + destruct (H5 i t Hin) as [Hl Hh]. split; [lia|]. intros Hkk. assert (Hki : In i (tkept s1)).
      { destruct Hk as [-> | ->]; auto. rewrite Hp1 in Hkk. cbn in Hkk. destruct Hkk as [<-|Hkk]; auto. lia. }
      destruct (Hh Hki) as (ids & G1 & G2 & G3). exists ids. split; auto. split; auto. intros j Hj. specialize (G3 j Hj). lia.
    + split; [lia|]. intros _. exists (seq b (tree_size (XE n a ks))). split; [apply placed_holds; exact Hpl|]. split; [apply seq_NoDup|].
      intros j Hj. apply in_seq in Hj. lia.
  - intros Hm. cbn [memory]. right. exists b, (XE n a ks). split; [exact C7|]. split.
    2: { exists (tsent s1), (theap s1). split; [|apply placed_tree; exact Hpl]. cbn. rewrite B7. cbn. rewrite A7. cbn. rewrite Hp1. reflexivity. }
    intros e Hex. cbn in Hex. rewrite B5 in Hex. cbn in Hex. rewrite A5 in Hex.
    apply (H6 Hm) in Hex. destruct H4 as (_ & _ & G & _). cbn [phi bheap] in G. rewrite G in Hex. unfold fend in Hex. cbn [fid fkids snd] in Hex.
    cbn [tree_size]. fold (size_all ks). lia.
  - exists (theap s1). split; [|exact Hpl]. rewrite B7. cbn. rewrite A7. cbn. rewrite Hp1. congruence.
Qed.

(** ** Runs *)
Lemma tinv_weaken mem b stack m (l l' : nat -> xtree -> Prop) s : (forall i t, l' i t -> l i t) -> tinv mem b stack m l s -> tinv mem b stack m l' s.
Proof. intros Hw [H1 H2 H3 H4 H5 H6]. constructor; auto. intros i t Hi. apply H5. auto. Qed.
Definition recorded (lst : list (nat * option ref * heap)) (i : nat) (t : xtree) : Prop := exists h, In (0, Some i, h) lst /\ holds_tree h i t.
Definition same_trees (lst : list (nat * option ref * heap)) (out : list xtree) : Prop :=
  Forall2 (fun x t => exists i h, x = (0, Some i, h) /\ holds_tree h i t) lst out.
Definition plus (l : nat -> xtree -> Prop) (lst : list (nat * option ref * heap)) (i : nat) (t : xtree) : Prop := l i t \/ recorded lst i t.
Lemma plus_nil l i t : plus l [] i t -> l i t.
Proof. intros [H|(h & [] & _)]; auto. Qed.

Lemma total_size_app a b : total_size (a ++ b) = total_size a + total_size b.
Proof. unfold total_size. induction a as [|x a IH]; cbn [app fold_right]; [reflexivity|]. rewrite IH. lia. Qed.

Lemma step_ok mem st b stack m l s e stmts c x s1 stack' m' out :
  tinv mem b stack m l s -> ctl_all [st] 0 (tctl s) e = (stmts, c, x) -> truns s stmts s1 ->
  astep st stack m e = Some (stack', m', out) ->
  x = None /\ exists lst, tsent s1 = tsent s ++ lst /\ same_trees lst out /\
    tinv mem (b + total_size out) stack' m' (plus l lst) (set_ctl s1 c).
Proof.
  intros Hi Hc Hr Ha. pose proof (ti_ctl _ _ _ _ _ _ Hi) as Ht. rewrite Ht in Hc. cbn [ctl_all] in Hc.
  assert (Hz : forall (Hx : x = None) (Ho : out = []), tsent s1 = tsent s -> tinv mem b stack' m' l (set_ctl s1 c) ->
     x = None /\ exists lst, tsent s1 = tsent s ++ lst /\ same_trees lst out /\ tinv mem (b + total_size out) stack' m' (plus l lst) (set_ctl s1 c)).
  { intros -> -> H1 H2. split; auto. exists []. split; [rewrite app_nil_r; auto|]. split; [constructor|]. cbn [total_size fold_right]. rewrite Nat.add_0_r.
    eapply tinv_weaken; [|exact H2]. apply plus_nil. }
  assert (Hid : forall stk, truns s [TLoad 0] s1 -> tinv mem b stk m l (set_ctl s1 (mkC stk [depth_of m])) /\ tsent s1 = tsent s).
  { intros stk Hr0. apply (tinv_load _ _ _ _ _ _ _ _ Hi) in Hr0 as (s0 & Hi0 & Hs0 & R0). apply (tinv_nil _ _ _ _ _ _ _ Hi0) in R0 as [R1 R2].
    split; [|congruence]. eapply tinv_set_ctl; eauto. }
  destruct e as [n a anc|n anc|t]; cbn [astep ctl_one cdepths cstack] in *.
  - destruct m as [|f fs]; cbn [depth_of nth Nat.eqb] in *.
    + destruct (match_state st (stack ++ [n])) as [[]|]; [| |discriminate]; cbn [app] in Hc; inversion Hc; subst; inversion Ha; subst; apply Hz; auto.
      * eapply start_idle with (stack' := []) in Hi; [|exact Hr]. apply Hi.
      * eapply start_idle in Hi; [|exact Hr]. apply Hi.
      * apply (Hid []); auto.
      * apply Hid; auto.
    + cbn [app] in Hc. inversion Hc; subst. inversion Ha; subst. cbn [set_nth] in *. eapply start_build in Hi; [|exact Hr]. destruct Hi as [Hi1 Hi2]. apply Hz; auto. exact Hi1.
  - destruct stack as [|s0 stk] eqn:Es; [discriminate|]. rewrite <- Es in *. destruct m as [|[[n0 a0] ks0] fs]; cbn [depth_of nth Nat.eqb] in *.
    + cbn [app] in Hc. inversion Hc; subst. inversion Ha; subst. apply Hz; auto; [apply (Hid []); auto|apply Hid; auto].
    + destruct fs as [|[[n1 a1] ks1] fs]; cbn [length Nat.eqb app Nat.sub set_nth] in Hc; inversion Hc; subst stmts c x; inversion Ha; subst stack' m' out.
      * eapply end_outer in Hi; [|exact Hr]. destruct Hi as (Hi & h & Hs & Hp). split; auto. exists [(0, Some b, h)]. split; auto. split.
        { constructor; [|constructor]. exists b, h. split; auto. apply placed_tree; auto. }
        cbn [total_size fold_right]. rewrite Nat.add_0_r. eapply tinv_weaken; [|exact Hi]. intros i t [H|(h' & [E|[]] & H)]; [left; auto|].
        inversion E; subst. right. split; auto. eapply holds_tree_det; [apply placed_tree; exact Hp|exact H].
      * eapply end_inner in Hi; [|exact Hr]. destruct Hi as [Hi1 Hi2]. apply Hz; auto. exact Hi1.
  - destruct m as [|[[n0 a0] ks0] fs]; cbn [depth_of nth Nat.eqb app] in *; inversion Hc; subst stmts c x; inversion Ha; subst stack' m' out.
    + apply Hz; auto; [apply (Hid []); auto|apply Hid; auto].
    + eapply chars_build in Hi; [|exact Hr]. destruct Hi as [Hi1 Hi2]. apply Hz; auto. exact Hi1.
Qed.

Lemma run_ok mem st evs : forall b stack m l s s' x stack' m' out,
  tinv mem b stack m l s -> thandle [st] s evs s' x -> arun st stack m evs = Some (stack', m', out) ->
  x = None /\ exists lst, tsent s' = tsent s ++ lst /\ same_trees lst out /\ tinv mem (b + total_size out) stack' m' (plus l lst) s'.
Proof.
  induction evs as [|e evs IH]; intros b stack m l s s' x stack' m' out Hi Hh Ha; cbn [arun] in Ha.
  - inversion Ha; subst. inversion Hh; subst. split; auto. exists []. destruct (tinv_collect _ _ _ _ _ _ _ Hi H) as [H1 H2]. rewrite app_nil_r.
    split; auto. split; [constructor|]. cbn [total_size fold_right]. rewrite Nat.add_0_r. eapply tinv_weaken; [|exact H1]. apply plus_nil.
  - destruct (astep st stack m e) as [[[stk1 m1] o1]|] eqn:Es; [|discriminate].
    destruct (arun st stk1 m1 evs) as [[[stk2 m2] o2]|] eqn:Er; [|discriminate]. inversion Ha; subst.
    inversion Hh as [|u e0 evs0 stm c s1 v x0 Hc Hr Hh1|u e0 evs0 stm c s1 x0 Hc Hr]; subst.
    + destruct (step_ok _ _ _ _ _ _ _ _ _ _ _ _ _ _ _ Hi Hc Hr Es) as (_ & l1 & H1 & H2 & H3).
      destruct (IH _ _ _ _ _ _ _ _ _ _ H3 Hh1 Er) as (-> & l2 & G1 & G2 & G3). split; auto. exists (l1 ++ l2).
      cbn [set_ctl tsent] in G1. split; [rewrite G1, H1, app_assoc; reflexivity|]. split; [apply Forall2_app; auto|].
      rewrite total_size_app, Nat.add_assoc. eapply tinv_weaken; [|exact G3].
      intros i t [H|(h & Hin & H)]; [left; left; auto|]. apply in_app_iff in Hin as [Hin|Hin]; [left; right; exists h; auto|right; exists h; auto].
    + destruct (step_ok _ _ _ _ _ _ _ _ _ _ _ _ _ _ _ Hi Hc Hr Es) as (? & _). discriminate.
Qed.
