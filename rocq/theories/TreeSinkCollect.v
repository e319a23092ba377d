(** A sink that appends what it gets to a collector: every element after the first ends up there twice. *)
From Verif Require Import PyStr Parser ParserM XTree Grammar ParserSpec ParserInv ParserMore Heap Builder HeapSpec BuilderFacts HeapFacts BuilderMore.
From Verif Require Import Path Nodes Pattern PatternSpec PatternFacts TreeUtil TreeUtilSpec TreeUtilFacts.
From Verif Require Import TreeIter TreeIterSpec TreeIterFacts TreeIterMore TreeSink TreeSinkSpec TreeSinkFacts.

Lemma doubled_snoc {A} (l : list A) x : doubled (l ++ [x]) = doubled l ++ match l with [] => [x] | _ => [x; x] end.
Proof. destruct l as [|y l]; [reflexivity|]. cbn [app doubled]. rewrite flat_map_app. reflexivity. Qed.
Lemma doubled_in {A} (l : list A) x : In x l -> In x (doubled l).
Proof. destruct l as [|y l]; [auto|]. intros [->|H]; [left; auto|right]. apply in_flat_map. exists x. split; auto. left; auto. Qed.
Lemma live_stays s s' j : tcollect s s' -> In j (tlive s) -> hp (theap s') j = hp (theap s) j.
Proof. intros (_ & (_ & Hg) & _) Hj. destruct (Hg j) as [H|[_ H]]; auto. exfalso. apply H, re_root, Hj. Qed.
Lemma live_root s b : nth 0 (troots s) None = Some b -> In b (tlive s).
Proof. intros H. unfold tlive. apply in_or_app. left. apply in_flat_map. destruct (troots s) as [|o r]; cbn in H; [discriminate|]. exists o. split; [left; auto|]. subst. left; auto. Qed.
Lemma live_elem s b : telem s = Some b -> In b (tlive s).
Proof. intros H. unfold tlive. rewrite !in_app_iff. rewrite H. cbn. auto 10. Qed.
Lemma live_kept s b : In b (tkept s) -> In b (tlive s).
Proof. intros H. unfold tlive. rewrite !in_app_iff. auto 10. Qed.
Lemma kept_back s s' c : tcollect s s' -> In c (tkept s') -> In c (tkept s).
Proof. intros (H & _) Hc. apply H, Hc. Qed.

(** Statements seen in the view. *)
Lemma eqv_append b r p i s s' : b <= p -> telem s = Some i -> theap s' = append_kid (theap s) p i -> telem s' = telem s -> ttext s' = ttext s ->
  eqv (exec SAppendElem (P b r (Some p) s)) (P b r (Some p) s').
Proof.
  intros Hb He Hh E1 E2. unfold eqv, P. cbn [exec bpar belem]. rewrite He. cbn [bheap broot bpar belem btext]. rewrite E1, E2, Hh.
  split; [rewrite append_nxt; cbn [view nxt]; rewrite append_nxt; reflexivity|]. split; [|repeat split; auto]. intros j. apply view_append. exact Hb.
Qed.
Lemma eqv_append_text b r p i s s' : b <= p -> ttext s = Some i -> theap s' = append_kid (theap s) p i -> telem s' = telem s -> ttext s' = ttext s ->
  eqv (exec SAppendText (P b r (Some p) s)) (P b r (Some p) s').
Proof.
  intros Hb He Hh E1 E2. unfold eqv, P. cbn [exec bpar btext]. rewrite He. cbn [bheap broot bpar belem btext]. rewrite E1, E2, Hh.
  split; [rewrite append_nxt; cbn [view nxt]; rewrite append_nxt; reflexivity|]. split; [|repeat split; auto]. intros j. apply view_append. exact Hb.
Qed.
Lemma eqv_new b r p n a s s' : b < nxt (theap s) -> theap s' = fst (alloc (theap s) (OElem n a [] p)) -> telem s' = Some (nxt (theap s)) -> ttext s' = ttext s ->
  eqv (exec (SNewElem n a) (P b r p s)) (P b r p s').
Proof.
  intros Hb Hh E1 E2. unfold eqv, P. cbn [exec alloc bheap broot bpar belem btext]. rewrite E1, E2, Hh.
  split; [reflexivity|]. split; [|repeat split; auto]. apply (view_alloc b (theap s)). exact Hb.
Qed.
Lemma eqv_new_text b r p t s s' : b < nxt (theap s) -> theap s' = fst (alloc (theap s) (OText t p)) -> telem s' = telem s -> ttext s' = Some (nxt (theap s)) ->
  eqv (exec (SNewText t) (P b r p s)) (P b r p s').
Proof.
  intros Hb Hh E1 E2. unfold eqv, P. cbn [exec alloc bheap broot bpar belem btext]. rewrite E1, E2, Hh.
  split; [reflexivity|]. split; [|repeat split; auto]. apply (view_alloc b (theap s)). exact Hb.
Qed.
Lemma eqv_refl E : eqv E E. Proof. repeat split; auto. Qed.

Section Collect.
Variables (c : nat) (cn : str) (ca : dict str) (ck : list nat) (cp : option nat).
Notation sink := (appends_to c).

Lemma kept_exec st s s' : wexec sink st s s' -> tkept s' = tkept s.
Proof.
  intros H. inversion H as [st0 s0 s0' Hn X|ix s0 h' kept [_ Hk] Hnx]; subst; [|reflexivity].
  inversion X; subst; try reflexivity; [exfalso; eapply Hn; reflexivity|]. destruct (tpar s); reflexivity.
Qed.
Lemma kept_runs l : forall s s', wruns sink s l s' -> incl (tkept s') (tkept s).
Proof.
  induction l as [|st l IH]; intros s s' H; inversion H as [u v C|u s1 s2 st0 l0 v C X R]; subst; [apply C|].
  apply IH in R. rewrite (kept_exec _ _ _ X) in R. eapply incl_tran; [exact R|apply C].
Qed.
Lemma kept_handle ss evs : forall s s' x, whandle sink ss s evs s' x -> incl (tkept s') (tkept s).
Proof.
  induction evs as [|e evs IH]; intros s s' x H; inversion H as [u v C|u e0 evs0 l c0 s1 v x0 Hc Hr Hh1|u e0 evs0 l c0 s1 x0 Hc Hr]; subst.
  - apply C.
  - eapply incl_tran; [apply (IH _ _ _ Hh1)|]. cbn [set_ctl tkept]. eapply kept_runs; eauto.
  - cbn [set_ctl tkept]. eapply kept_runs; eauto.
Qed.

(** The collector and the trees finished so far. *)
Definition good (b : nat) (K : list nat) (done : list (nat * xtree)) (s : tstate) : Prop :=
  hp (theap s) c = Some (OElem cn ca (ck ++ K) cp) /\ c < b /\
  forall i t, In (i, t) done -> In i K /\ exists ids, holds (theap s) (Some c) i t ids /\ forall j, In j ids -> j < b /\ j <> c.
Lemma good_same b K done s s' : (forall j, j < b -> hp (theap s') j = hp (theap s) j) -> good b K done s -> good b K done s'.
Proof.
  intros He (H1 & H2 & H3). split; [rewrite He by auto; exact H1|]. split; auto. intros i t Hi. destruct (H3 i t Hi) as (G1 & ids & G2 & G3).
  split; auto. exists ids. split; auto. eapply (proj1 (holds_same _ _)); [exact G2|]. intros j Hj. apply He, G3, Hj.
Qed.
Lemma good_collect b K done s s' : In c (tkept s') -> tcollect s s' -> good b K done s -> good b K done s'.
Proof.
  intros Hk C (H1 & H2 & H3). assert (Hl : In c (tlive s)) by (apply live_kept; eapply kept_back; eauto).
  split; [rewrite (live_stays _ _ _ C Hl); exact H1|]. split; auto. intros i t Hi. destruct (H3 i t Hi) as (G1 & ids & G2 & G3).
  split; auto. exists ids. split; auto. eapply (proj1 (holds_same _ _)); [exact G2|]. intros j Hj.
  destruct C as (_ & (_ & Hg) & _). destruct (Hg j) as [E|[_ E]]; auto. exfalso. apply E.
  eapply (proj1 (holds_reach _ _)); [exact G2| |exact Hj]. eapply re_kid; [apply re_root; exact Hl|exact H1|]. cbn. apply in_or_app. auto.
Qed.

(** The parent a new subtree gets. *)
Definition par (done : list (nat * xtree)) : option nat := match done with [] => None | _ => Some c end.
Definition under (b : nat) (done : list (nat * xtree)) (s : tstate) : Prop := exists o, hp (theap s) b = Some o /\ oparent o = par done.
Definition kids_now (m : amode) (b : nat) (done : list (nat * xtree)) : list nat :=
  doubled (map fst done) ++ match m with AIdle => [] | ABuild _ _ => match done with [] => [] | _ => [b] end end.
Definition frame_ok (b : nat) (s s' : tstate) : Prop :=
  (forall j, j < b -> hp (theap s') j = hp (theap s) j) /\
  forall o, hp (theap s) b = Some o -> exists o', hp (theap s') b = Some o' /\ oparent o' = oparent o.
Definition both (b : nat) (K : list nat) (done : list (nat * xtree)) (s : tstate) : Prop := good b K done s /\ under b done s.
Lemma both_frame b K done s s' : frame_ok b s s' -> both b K done s -> both b K done s'.
Proof.
  intros [F1 F2] [H1 (o & H2 & H3)]. split; [eapply good_same; eauto|]. destruct (F2 o H2) as (o' & G1 & G2). exists o'. split; congruence.
Qed.
Lemma both_collect b K done s s' : In c (tkept s') -> tcollect s s' -> In b (tlive s) -> both b K done s -> both b K done s'.
Proof.
  intros Hk C Hb [H1 (o & H2 & H3)]. split; [eapply good_collect; eauto|]. exists o. split; auto. rewrite (live_stays _ _ _ C Hb). exact H2.
Qed.
Lemma both_heap b K done s s' : theap s' = theap s -> both b K done s -> both b K done s'.
Proof. intros E H. eapply both_frame; [|exact H]. unfold frame_ok. rewrite E. split; eauto. Qed.

Record cinv (b : nat) (stack : list str) (m : amode) (done : list (nat * xtree)) (s : tstate) : Prop := mkCI {
  ci_ctl : tctl s = mkC stack [depth_of m];
  ci_pars : tpars s = [tpar s];
  ci_roots : length (troots s) = 1;
  ci_good : good b (kids_now m b done) done s;
  ci_mode : match m with
            | AIdle => tpar s = par done /\ nxt (theap s) = b
            | ABuild f fs => nth 0 (troots s) None = Some b /\ binv b (ZOpen f fs) (P b (Some b) (tpar s) s) /\ under b done s
            end }.
Lemma cinv_collect b stack m done s s' : In c (tkept s') -> cinv b stack m done s -> tcollect s s' -> cinv b stack m done s' /\ tsent s' = tsent s.
Proof.
  intros Hk [H1 H2 H3 H4 H5] C. pose proof C as (_ & (Hn & _) & E1 & E2 & E3 & E4 & E5 & E6 & E7). split; auto. constructor.
  - congruence.
  - congruence.
  - congruence.
  - eapply good_collect; eauto.
  - destruct m as [|f fs]; [rewrite E4, Hn; exact H5|]. destruct H5 as (G1 & G2 & G3). split; [congruence|]. split.
    + rewrite E4. eapply collect_binv; [exact G2|]. apply collect_view; auto.
    + exact (proj2 (both_collect _ _ _ _ _ Hk C (live_root _ _ G1) (conj H4 G3))).
Qed.
Lemma cinv_load b stack m done s rest s' : In c (tkept s') -> cinv b stack m done s -> wruns sink s (TLoad 0 :: rest) s' ->
  exists s1, cinv b stack m done s1 /\ tsent s1 = tsent s /\ wruns sink s1 rest s'.
Proof.
  intros Hk Hi Hr. inversion Hr as [|u s1 s2 st0 l0 v C0 X0 R0]; subst.
  pose proof (kept_runs _ _ _ R0 _ Hk) as K2. rewrite (kept_exec _ _ _ X0) in K2. destruct (cinv_collect _ _ _ _ _ _ K2 Hi C0) as [Hi1 Hs1].
  inversion X0 as [st s0 s0' Hn X0'|]; subst. inversion X0'; subst. eexists. split; [|split; [|exact R0]]; [|exact Hs1].
  replace (nth 0 (tpars s1) None) with (tpar s1) by (destruct Hi1 as [_ -> _ _]; reflexivity).
  destruct Hi1 as [H1 H2 H3 H4 H5]. destruct s1; constructor; auto.
Qed.
Lemma cinv_set_ctl b stack m done s stack' : cinv b stack m done s -> cinv b stack' m done (set_ctl s (mkC stack' [depth_of m])).
Proof. intros [H1 H2 H3 H4 H5]. constructor; auto. Qed.

Lemma frame_alloc b s s' o : theap s' = fst (alloc (theap s) o) -> b < nxt (theap s) -> frame_ok b s s'.
Proof.
  intros E Hb. split; intros j; rewrite E.
  - intros Hj. rewrite hp_alloc. destruct (Nat.eqb_spec j (nxt (theap s))); [lia|reflexivity].
  - intros H. exists j. split; auto. rewrite hp_alloc. destruct (Nat.eqb_spec b (nxt (theap s))); [lia|exact H].
Qed.
Lemma frame_append b s s' p i : theap s' = append_kid (theap s) p i -> b <= p -> frame_ok b s s'.
Proof.
  intros E Hb. split; intros j; rewrite E.
  - intros Hj. rewrite hp_append. destruct (Nat.eqb_spec j p); [lia|reflexivity].
  - intros H. rewrite hp_append. destruct (Nat.eqb_spec b p) as [<-|]; [|eauto]. rewrite H. destruct j; eexists; split; reflexivity.
Qed.

Lemma start_build_c b stack f fs done s s' n a stack' : In c (tkept s') -> cinv b stack (ABuild f fs) done s ->
  wruns sink s [TLoad 0; TNewElem n a; TAppendElem; TDown 0] s' ->
  cinv b stack' (ABuild (n, a, []) (f :: fs)) done (set_ctl s' (mkC stack' [S (S (length fs))])) /\ tsent s' = tsent s.
Proof.
  intros Hk Hi Hr. apply (cinv_load _ _ _ _ _ _ _ Hk Hi) in Hr as (s0 & Hi0 & Hs0 & R0). clear Hi.
  apply wruns_own in R0; [|nosend].
  inversion R0 as [|u0 s1 s2 st0 l0 v0 C1 X1 R1]; subst. clear R0.
  inversion R1 as [|u1 s3 s4 st1 l1 v1 C2 X2 R2]; subst. clear R1.
  inversion R2 as [|u2 s5 s6 st2 l2 v2 C3 X3 R3]; subst. clear R2.
  inversion R3 as [u3 v3 C4|]; subst. clear R3.
  inversion X1; subst. clear X1. inversion X2; subst. clear X2. inversion X3; subst. clear X3.
  set (s2 := mkT (fst (alloc (theap s1) (OElem n a [] (tpar s1)))) (troots s1) (tpars s1) (tctl s1) (tpar s1) (Some (nxt (theap s1))) (ttext s1) (tkept s1) (tsent s1)) in *.
  set (s4 := mkT (match tpar s3, telem s3 with Some p, Some i => append_kid (theap s3) p i | _, _ => theap s3 end) (troots s3) (tpars s3) (tctl s3) (tpar s3) (telem s3) (ttext s3) (tkept s3) (tsent s3)) in *.
  set (s6 := mkT (theap s5) (troots s5) (set_nth 0 (telem s5) (tpars s5)) (tctl s5) (telem s5) (telem s5) (ttext s5) (tkept s5) (tsent s5)) in *.
  assert (K5 : In c (tkept s5)) by exact (kept_back _ _ _ C4 Hk).
  assert (K3 : In c (tkept s3)) by exact (kept_back _ _ _ C3 K5).
  assert (K1 : In c (tkept s1)) by exact (kept_back _ _ _ C2 K3).
  destruct (cinv_collect _ _ _ _ _ _ K1 Hi0 C1) as [[H1 H2 H3 H4 (H5 & H6 & H7)] Hs1].
  pose proof C2 as (_ & (Kn2 & _) & A1 & A2 & A3 & A4 & A5 & A6 & A7).
  pose proof C3 as (_ & (Kn3 & _) & B1 & B2 & B3 & B4 & B5 & B6 & B7).
  pose proof C4 as (_ & (Kn4 & _) & D1 & D2 & D3 & D4 & D5 & D6 & D7).
  assert (Hp1 : tpar s1 = Some (fid b (f :: fs))) by (destruct H6 as (_ & G & _); exact G).
  assert (Hn1 : nxt (theap s1) = fend b (f :: fs)) by (destruct H6 as (_ & _ & G & _); exact G).
  assert (Hlow : b <= fid b (f :: fs)) by apply fid_low.
  assert (Hlt : fid b (f :: fs) < fend b (f :: fs)) by (unfold fend; lia).
  cbn [tpar telem troots tpars s2] in A1, A2, A4, A5.
  assert (Hp3 : tpar s3 = Some (fid b (f :: fs))) by congruence.
  assert (Hh4 : theap s4 = append_kid (theap s3) (fid b (f :: fs)) (nxt (theap s1))) by (unfold s4; cbn [theap]; rewrite Hp3, A5; reflexivity).
  assert (Hr3 : nth 0 (troots s3) None = Some b) by congruence.
  assert (Hr5 : nth 0 (troots s5) None = Some b) by (rewrite B1; exact Hr3).
  assert (Hr' : nth 0 (troots s') None = Some b) by (rewrite D1; exact Hr5).
  assert (He5 : telem s5 = Some (nxt (theap s1))) by (rewrite B5; exact A5).
  assert (RR : runs (P b (Some b) (tpar s1) s1) (handler_stmts (EvStart n a []) ++ []) (P b (Some b) (telem s5) s')).
  { cbn [handler_stmts app]. eapply runs_cons; [apply collect_refl|].
    eapply (runs_cons _ (P b (Some b) (tpar s1) s3)).
    { eapply collect_eqv; [|apply (collect_view b (Some b) (tpar s1)); [exact C2|right; symmetry; exact H5|auto]].
      apply eqv_new; [lia|reflexivity..]. }
    eapply (runs_cons _ (P b (Some b) (tpar s1) s5)).
    { eapply collect_eqv; [|apply (collect_view b (Some b) (tpar s1)); [exact C3|right; symmetry; exact Hr3|right; symmetry; exact A4]].
      rewrite Hp1. eapply eqv_append; [exact Hlow|exact A5|exact Hh4|reflexivity..]. }
    eapply (runs_cons _ (P b (Some b) (telem s5) s')).
    { eapply collect_eqv; [|apply (collect_view b (Some b) (telem s5)); [exact C4|right; symmetry; exact Hr5|auto]]. repeat split; auto. }
    apply runs_nil. apply collect_refl. }
  destruct (step_start_open _ _ _ _ _ _ _ _ _ H6 RR) as (s7 & G1 & G2). inversion G2 as [u7 v7 C7|]; subst. apply (collect_binv _ _ _ _ G1) in C7. clear G1 G2 RR.
  assert (HB : both b (kids_now (ABuild f fs) b done) done s').
  { eapply both_collect; [exact Hk|exact C4|apply live_root; exact Hr5|]. eapply (both_heap _ _ _ s5); [reflexivity|].
    eapply both_collect; [exact K5|exact C3|apply live_root; exact Hr3|]. eapply (both_frame _ _ _ s3); [eapply frame_append; [exact Hh4|exact Hlow]|].
    eapply both_collect; [exact K3|exact C2|apply live_root; exact H5|]. eapply (both_frame _ _ _ s1); [eapply (frame_alloc b s1 s2); [reflexivity|lia]|]. split; auto. }
  split; [constructor|].
  - reflexivity.
  - cbn. rewrite D2, D4. cbn. rewrite B2. cbn. rewrite A2, H2. reflexivity.
  - cbn. rewrite D1. cbn. rewrite B1. cbn. rewrite A1. exact H3.
  - exact (proj1 HB).
  - split; [exact Hr'|]. split; [|exact (proj2 HB)]. change (tpar (set_ctl s' (mkC stack' [S (S (length fs))]))) with (tpar s'). rewrite D4. exact C7.
  - rewrite D7. cbn. rewrite B7. cbn. rewrite A7. cbn. congruence.
Qed.

Lemma chars_build_c b stack n a ks fs done s s' t stack' : In c (tkept s') -> cinv b stack (ABuild (n, a, ks) fs) done s ->
  wruns sink s [TLoad 0; TNewText t; TAppendText] s' ->
  cinv b stack' (ABuild (n, a, ks ++ [XT t]) fs) done (set_ctl s' (mkC stack' [S (length fs)])) /\ tsent s' = tsent s.
Proof.
  intros Hk Hi Hr. apply (cinv_load _ _ _ _ _ _ _ Hk Hi) in Hr as (s0 & Hi0 & Hs0 & R0). clear Hi.
  apply wruns_own in R0; [|nosend].
  inversion R0 as [|u0 s1 s2 st0 l0 v0 C1 X1 R1]; subst. clear R0.
  inversion R1 as [|u1 s3 s4 st1 l1 v1 C2 X2 R2]; subst. clear R1.
  inversion R2 as [u3 v3 C3|]; subst. clear R2.
  inversion X1; subst. clear X1. inversion X2; subst. clear X2.
  set (s2 := mkT (fst (alloc (theap s1) (OText t (tpar s1)))) (troots s1) (tpars s1) (tctl s1) (tpar s1) (telem s1) (Some (nxt (theap s1))) (tkept s1) (tsent s1)) in *.
  set (s4 := mkT (match tpar s3, ttext s3 with Some p, Some i => append_kid (theap s3) p i | _, _ => theap s3 end) (troots s3) (tpars s3) (tctl s3) (tpar s3) (telem s3) (ttext s3) (tkept s3) (tsent s3)) in *.
  assert (K3 : In c (tkept s3)) by exact (kept_back _ _ _ C3 Hk).
  assert (K1 : In c (tkept s1)) by exact (kept_back _ _ _ C2 K3).
  destruct (cinv_collect _ _ _ _ _ _ K1 Hi0 C1) as [[H1 H2 H3 H4 (H5 & H6 & H7)] Hs1].
  pose proof C2 as (_ & (Kn2 & _) & A1 & A2 & A3 & A4 & A5 & A6 & A7).
  pose proof C3 as (_ & (Kn3 & _) & B1 & B2 & B3 & B4 & B5 & B6 & B7).
  set (F := (n, a, ks) : frame) in *.
  assert (Hp1 : tpar s1 = Some (fid b (F :: fs))) by (destruct H6 as (_ & G & _); exact G).
  assert (Hn1 : nxt (theap s1) = fend b (F :: fs)) by (destruct H6 as (_ & _ & G & _); exact G).
  assert (Hlow : b <= fid b (F :: fs)) by apply fid_low.
  assert (Hlt : fid b (F :: fs) < fend b (F :: fs)) by (unfold fend; lia).
  cbn [tpar ttext troots tpars s2] in A1, A2, A4, A6.
  assert (Hp3 : tpar s3 = Some (fid b (F :: fs))) by congruence.
  assert (Hh4 : theap s4 = append_kid (theap s3) (fid b (F :: fs)) (nxt (theap s1))) by (unfold s4; cbn [theap]; rewrite Hp3, A6; reflexivity).
  assert (Hr3 : nth 0 (troots s3) None = Some b) by congruence.
  assert (Hr' : nth 0 (troots s') None = Some b) by (rewrite B1; exact Hr3).
  assert (RR : runs (P b (Some b) (tpar s1) s1) (handler_stmts (EvChars t) ++ []) (P b (Some b) (tpar s1) s')).
  { cbn [handler_stmts app]. eapply runs_cons; [apply collect_refl|].
    eapply (runs_cons _ (P b (Some b) (tpar s1) s3)).
    { eapply collect_eqv; [|apply (collect_view b (Some b) (tpar s1)); [exact C2|right; symmetry; exact H5|auto]].
      apply eqv_new_text; [lia|reflexivity..]. }
    apply runs_nil.
    eapply collect_eqv; [|apply (collect_view b (Some b) (tpar s1)); [exact C3|right; symmetry; exact Hr3|right; symmetry; exact A4]].
    rewrite Hp1. eapply eqv_append_text; [exact Hlow|exact A6|exact Hh4|reflexivity..]. }
  destruct (step_chars _ _ _ _ _ _ _ _ _ H6 RR) as (s7 & G1 & G2). inversion G2 as [u7 v7 C7|]; subst. apply (collect_binv _ _ _ _ G1) in C7. clear G1 G2 RR.
  assert (HB : both b (kids_now (ABuild F fs) b done) done s').
  { eapply both_collect; [exact Hk|exact C3|apply live_root; exact Hr3|]. eapply (both_frame _ _ _ s3); [eapply frame_append; [exact Hh4|exact Hlow]|].
    eapply both_collect; [exact K3|exact C2|apply live_root; exact H5|]. eapply (both_frame _ _ _ s1); [eapply (frame_alloc b s1 s2); [reflexivity|lia]|]. split; auto. }
  split; [constructor|].
  - reflexivity.
  - cbn. rewrite B2, B4. cbn. rewrite A2, A4. exact H2.
  - cbn. rewrite B1. cbn. rewrite A1. exact H3.
  - exact (proj1 HB).
  - split; [exact Hr'|]. split; [|exact (proj2 HB)]. change (tpar (set_ctl s' (mkC stack' [S (length fs)]))) with (tpar s'). rewrite B4. cbn [tpar s4]. rewrite A4. exact C7.
  - rewrite B7. cbn. rewrite A7. cbn. congruence.
Qed.

Lemma xml_parent_view b h i q : b < i -> xml_parent (view b h) i = Some q -> xml_parent h i = Some q.
Proof.
  intros Hb H. unfold xml_parent in *. rewrite view_high in H by auto. destruct (hp h i) as [o|]; [|discriminate]. destruct (oparent o) as [p|]; [|discriminate].
  destruct (Nat.lt_trichotomy p b) as [L|[->|L]].
  - rewrite view_low in H by auto. discriminate.
  - rewrite view_at in H. destruct (hp h b); [exact H|discriminate].
  - rewrite view_high in H by auto. exact H.
Qed.
Lemma end_inner_c b stack n a ks n' a' ks' fs done s s' stack' : In c (tkept s') -> cinv b stack (ABuild (n, a, ks) ((n', a', ks') :: fs)) done s ->
  wruns sink s [TLoad 0; TUp 0] s' ->
  cinv b stack' (ABuild (n', a', ks' ++ [XE n a ks]) fs) done (set_ctl s' (mkC stack' [S (length fs)])) /\ tsent s' = tsent s.
Proof.
  intros Hk Hi Hr. apply (cinv_load _ _ _ _ _ _ _ Hk Hi) in Hr as (s0 & Hi0 & Hs0 & R0). clear Hi.
  apply wruns_own in R0; [|nosend].
  inversion R0 as [|u0 s1 s2 st0 l0 v0 C1 X1 R1]; subst. clear R0.
  inversion R1 as [u3 v3 C3|]; subst. clear R1.
  set (F := (n, a, ks) : frame) in *. set (G := (n', a', ks') : frame) in *. set (i := fid b (F :: G :: fs)) in *.
  assert (K1 : In c (tkept s1)).
  { pose proof (kept_back _ _ _ C3 Hk) as K2. inversion X1; subst. destruct (tpar s1); exact K2. }
  destruct (cinv_collect _ _ _ _ _ _ K1 Hi0 C1) as [[H1 H2 H3 H4 (H5 & H6 & H7)] Hs1].
  assert (Hp1 : tpar s1 = Some i) by (destruct H6 as (_ & K & _); exact K).
  assert (Hbi : b < i) by (unfold i; rewrite fid_cons; unfold fend; pose proof (fid_low b (G :: fs)); lia).
  assert (Hq : xml_parent (theap s1) i = Some (fid b (G :: fs)) /\ xml_parent (view b (theap s1)) i = Some (fid b (G :: fs))).
  { assert (K : xml_parent (view b (theap s1)) i = Some (fid b (G :: fs))).
    { destruct H6 as (_ & _ & _ & K). cbn [P bheap] in K. unfold F, G in K. cbn [spine] in K. destruct K as (K2 & _ & K3 & _).
      unfold xml_parent, i, F, G. rewrite K2. cbn [oparent fparent]. rewrite K3. reflexivity. }
    split; auto. eapply xml_parent_view; eauto. }
  destruct Hq as [Hq1 Hq2]. inversion X1; subst. clear X1. rewrite Hp1, Hq1 in C3.
  set (s2 := mkT (theap s1) (troots s1) (set_nth 0 (Some (fid b (G :: fs))) (tpars s1)) (tctl s1) (Some (fid b (G :: fs))) (telem s1) (ttext s1) (tkept s1) (tsent s1)) in *.
  pose proof C3 as (_ & (Kn3 & _) & B1 & B2 & B3 & B4 & B5 & B6 & B7).
  assert (RR : runs (P b (Some b) (tpar s1) s1) (handler_stmts (EvEnd n []) ++ []) (P b (Some b) (tpar s') s')).
  { cbn [handler_stmts app]. eapply runs_cons; [apply collect_refl|]. apply runs_nil. rewrite B4.
    eapply collect_eqv; [|apply (collect_view b (Some b) (tpar s2)); [exact C3|right; symmetry; exact H5|auto]].
    unfold eqv, P. cbn [exec bpar bheap broot belem btext theap telem ttext tpar s2]. rewrite Hp1. cbn [bpar bheap broot belem btext]. rewrite Hq2. repeat split; auto. }
  destruct (step_end _ _ (ZOpen (n', a', ks' ++ [XE n a ks]) fs) _ _ _ _ _ H6 eq_refl RR) as (s7 & G1 & G2). inversion G2 as [u7 v7 C7|]; subst. apply (collect_binv _ _ _ _ G1) in C7. clear G1 G2 RR.
  assert (HB : both b (kids_now (ABuild F (G :: fs)) b done) done s').
  { eapply both_collect; [exact Hk|exact C3|apply live_root; exact H5|]. eapply (both_heap _ _ _ s1); [reflexivity|]. split; auto. }
  split; [constructor|].
  - reflexivity.
  - cbn. rewrite B2, B4. cbn. rewrite H2. reflexivity.
  - cbn. rewrite B1. exact H3.
  - exact (proj1 HB).
  - split; [cbn [set_ctl troots]; rewrite B1; exact H5|]. split; [exact C7|exact (proj2 HB)].
  - rewrite B7. cbn. congruence.
Qed.

Lemma start_idle_c b stack done s s' n a stack' : In c (tkept s') -> cinv b stack AIdle done s ->
  wruns sink s [TLoad 0; TNewElem n a; TAppendElem; TDown 0; TRoot 0] s' ->
  cinv b stack' (ABuild (n, a, []) []) done (set_ctl s' (mkC stack' [1])) /\ tsent s' = tsent s.
Proof.
  intros Hk Hi Hr. apply (cinv_load _ _ _ _ _ _ _ Hk Hi) in Hr as (s0 & Hi0 & Hs0 & R0). clear Hi.
  apply wruns_own in R0; [|nosend].
  inversion R0 as [|u0 s1 s2 st0 l0 v0 C1 X1 R1]; subst. clear R0.
  inversion R1 as [|u1 s3 s4 st1 l1 v1 C2 X2 R2]; subst. clear R1.
  inversion R2 as [|u2 s5 s6 st2 l2 v2 C3 X3 R3]; subst. clear R2.
  inversion R3 as [|u3 s7 s8 st3 l3 v3 C4 X4 R4]; subst. clear R3.
  inversion R4 as [u4 v4 C5|]; subst. clear R4.
  inversion X1; subst. clear X1. inversion X2; subst. clear X2. inversion X3; subst. clear X3. inversion X4; subst. clear X4.
  set (s2 := mkT (fst (alloc (theap s1) (OElem n a [] (tpar s1)))) (troots s1) (tpars s1) (tctl s1) (tpar s1) (Some (nxt (theap s1))) (ttext s1) (tkept s1) (tsent s1)) in *.
  set (s4 := mkT (match tpar s3, telem s3 with Some p, Some i => append_kid (theap s3) p i | _, _ => theap s3 end) (troots s3) (tpars s3) (tctl s3) (tpar s3) (telem s3) (ttext s3) (tkept s3) (tsent s3)) in *.
  set (s6 := mkT (theap s5) (troots s5) (set_nth 0 (telem s5) (tpars s5)) (tctl s5) (telem s5) (telem s5) (ttext s5) (tkept s5) (tsent s5)) in *.
  set (s8 := mkT (theap s7) (set_nth 0 (telem s7) (troots s7)) (tpars s7) (tctl s7) (tpar s7) (telem s7) (ttext s7) (tkept s7) (tsent s7)) in *.
  assert (K7 : In c (tkept s7)) by exact (kept_back _ _ _ C5 Hk).
  assert (K5 : In c (tkept s5)) by exact (kept_back _ _ _ C4 K7).
  assert (K3 : In c (tkept s3)) by exact (kept_back _ _ _ C3 K5).
  assert (K1 : In c (tkept s1)) by exact (kept_back _ _ _ C2 K3).
  destruct (cinv_collect _ _ _ _ _ _ K1 Hi0 C1) as [[H1 H2 H3 H4 (H5 & H6)] Hs1].
  pose proof C2 as (_ & (Kn2 & _) & A1 & A2 & A3 & A4 & A5 & A6 & A7).
  pose proof C3 as (_ & (Kn3 & _) & B1 & B2 & B3 & B4 & B5 & B6 & B7).
  pose proof C4 as (_ & (Kn4 & _) & D1 & D2 & D3 & D4 & D5 & D6 & D7).
  pose proof C5 as (_ & (Kn5 & _) & F1 & F2 & F3 & F4 & F5 & F6 & F7).
  assert (E2 : telem s2 = Some b) by (cbn; rewrite H6; reflexivity).
  assert (E3 : telem s3 = Some b) by (rewrite A5; exact E2).
  assert (E5 : telem s5 = Some b) by (rewrite B5; exact E3).
  assert (E7 : telem s7 = Some b) by (rewrite D5; exact E5).
  assert (E' : telem s' = Some b) by (rewrite F5; exact E7).
  assert (P3 : tpar s3 = par done) by (rewrite A4; exact H5).
  destruct H4 as (Hc & Hcb & Hd). unfold kids_now in Hc, Hd.
  assert (Hh4 : theap s4 = match done with [] => theap s3 | _ => append_kid (theap s3) c b end).
  { unfold s4. cbn [theap]. rewrite P3, E3. destruct done; reflexivity. }
  assert (Hv4 : forall j, hp (view b (theap s3)) j = hp (view b (theap s4)) j).
  { intros j. rewrite Hh4. destruct done; [reflexivity|]. symmetry. apply view_append_low. exact Hcb. }
  assert (Hn4 : nxt (theap s4) = nxt (theap s3)) by (rewrite Hh4; destruct done; [reflexivity|apply append_nxt]).
  assert (Hr1 : troots s7 = troots s1) by (rewrite D1; cbn; rewrite B1; cbn; rewrite A1; reflexivity).
  assert (Hr8 : nth 0 (troots s8) None = Some b).
  { cbn [troots s8]. rewrite Hr1, E7. destruct (troots s1) as [|r0 [|]]; try discriminate. reflexivity. }
  assert (Hr' : nth 0 (troots s') None = Some b) by (rewrite F1; exact Hr8).
  assert (P7 : tpar s7 = Some b) by (rewrite D4; exact E5).
  assert (Hb : binv b ZNone (P b None None s1)) by (cbn; auto).
  assert (RR : runs (P b None None s1) (handler_stmts (EvStart n a []) ++ []) (P b (Some b) (tpar s') s')).
  { cbn [handler_stmts app]. eapply runs_cons; [apply collect_refl|].
    eapply (runs_cons _ (P b None None s3)).
    { eapply collect_eqv; [|apply (collect_view b None None); [exact C2|auto|auto]].
      unfold eqv, P. cbn [exec alloc bheap broot bpar belem btext]. split; [reflexivity|]. split; [|repeat split; auto].
      intros j. cbn [theap s2]. rewrite <- H6. apply (view_alloc_first (theap s1)). }
    eapply (runs_cons _ (P b None None s5)).
    { eapply collect_eqv; [|apply (collect_view b None None); [exact C3|auto|auto]].
      unfold eqv, P. cbn [exec bpar bheap broot belem btext]. split; [cbn [view nxt]; symmetry; exact Hn4|]. split; [exact Hv4|repeat split; auto]. }
    eapply (runs_cons _ (P b None (telem s5) s7)).
    { eapply collect_eqv; [|apply (collect_view b None (telem s5)); [exact C4|auto|auto]]. repeat split; auto. }
    apply runs_nil. rewrite F4. change (tpar s8) with (tpar s7).
    eapply collect_eqv; [|apply (collect_view b (Some b) (tpar s7)); [exact C5|right; symmetry; exact Hr8|auto]].
    unfold eqv, P. cbn [exec broot bheap bpar belem btext theap telem ttext s8]. rewrite E7, E5, P7. repeat split; auto. }
  destruct (step_start_first _ _ _ _ _ _ _ Hb RR) as (s9 & G1 & G2). inversion G2 as [u9 v9 C9|]; subst. apply (collect_binv _ _ _ _ G1) in C9. clear G1 G2 RR.
  set (K0 := doubled (map fst done)) in *.
  assert (HB3 : both (nxt (theap s1)) K0 done s3).
  { eapply both_collect; [exact K3|exact C2|apply live_elem; exact E2|]. split.
    - eapply (good_same _ _ _ s1). 2: { rewrite app_nil_r in Hc, Hd. split; auto. }
      intros j Hj. cbn [theap s2]. rewrite hp_alloc. destruct (Nat.eqb_spec j (nxt (theap s1))); [lia|reflexivity].
    - exists (OElem n a [] (tpar s1)). split; [cbn; rewrite Nat.eqb_refl; reflexivity|exact H5]. }
  set (b := nxt (theap s1)) in *. set (K1' := kids_now (ABuild (n, a, []) []) b done).
  assert (HB4 : both b K1' done s4).
  { destruct HB3 as [(J1 & J2 & J3) (o & J4 & J5)]. unfold K1', kids_now. fold K0. destruct done as [|d0 done].
    - rewrite app_nil_r. unfold both, good, under. rewrite Hh4. split; [auto|exists o; auto].
    - unfold both, good, under. rewrite Hh4. split.
      + split; [rewrite hp_append, Nat.eqb_refl, J1, <- app_assoc; reflexivity|]. split; auto. intros i t Hit. destruct (J3 i t Hit) as (L1 & ids & L2 & L3).
        split; [apply in_or_app; auto|]. exists ids. split; auto. eapply (proj1 (holds_same _ _)); [exact L2|]. intros j Hj. rewrite hp_append.
        destruct (Nat.eqb_spec j c) as [->|]; [|reflexivity]. exfalso. apply (L3 _ Hj). reflexivity.
      + exists o. split; auto. rewrite hp_append. destruct (Nat.eqb_spec b c); [lia|exact J4]. }
  assert (HB : both b K1' done s').
  { eapply both_collect; [exact Hk|exact C5|apply live_root; exact Hr8|]. eapply (both_heap _ _ _ s7); [reflexivity|].
    eapply both_collect; [exact K7|exact C4|apply live_elem; exact E5|]. eapply (both_heap _ _ _ s5); [reflexivity|].
    eapply both_collect; [exact K5|exact C3|apply live_elem; exact E3|exact HB4]. }
  split; [constructor|].
  - reflexivity.
  - cbn. rewrite F2, F4. cbn. rewrite D2, D4. cbn. rewrite B2. cbn. rewrite A2. cbn. rewrite H2. reflexivity.
  - cbn. rewrite F1. cbn. rewrite Hr1. destruct (troots s1) as [|r0 [|]]; try discriminate. reflexivity.
  - exact (proj1 HB).
  - split; [exact Hr'|]. split; [exact C9|exact (proj2 HB)].
  - rewrite F7. cbn. rewrite D7. cbn. rewrite B7. cbn. rewrite A7. cbn. congruence.
Qed.

(** The finished subtree outside the view. *)
Lemma placed_out b h q n a ks o : placed (view b h) None b (XE n a ks) -> hp h b = Some o -> oparent o = q -> placed h q b (XE n a ks).
Proof.
  intros H Ho Hq. inversion H as [p i n0 a0 k0 H1 H2|]; subst. constructor.
  - rewrite view_at, Ho in H1. cbn in H1. destruct o as [n1 a1 k1 q1|]; [|discriminate]. cbn in H1. inversion H1; subst. exact Ho.
  - eapply (proj2 (placed_same _ _)); [exact H2|]. intros j Hj. symmetry. apply view_high. lia.
Qed.
Lemma placed_parent h h' p q b n a ks : placed h p b (XE n a ks) -> hp h' b = option_map (fun o => set_parent o q) (hp h b) ->
  (forall j, b < j < b + tree_size (XE n a ks) -> hp h' j = hp h j) -> placed h' q b (XE n a ks).
Proof.
  intros H Hb Hj. inversion H as [p0 i n0 a0 k0 H1 H2|]; subst. rewrite H1 in Hb. cbn in Hb. constructor; [exact Hb|].
  eapply (proj2 (placed_same _ _)); [exact H2|]. intros j Hk. apply Hj. cbn [tree_size]. fold (size_all ks). lia.
Qed.

Lemma end_outer_c b stack n a ks done s s' stack' : In c (tkept s') -> cinv b stack (ABuild (n, a, ks) []) done s ->
  wruns sink s [TLoad 0; TSend 0; TUp 0] s' ->
  cinv (b + tree_size (XE n a ks)) stack' AIdle (done ++ [(b, XE n a ks)]) (set_ctl s' (mkC stack' [0])) /\
  exists h ids, tsent s' = tsent s ++ [(0, Some b, h)] /\ holds h (par done) b (XE n a ks) ids /\ NoDup ids.
Proof.
  intros Hk Hi Hr. apply (cinv_load _ _ _ _ _ _ _ Hk Hi) in Hr as (s0 & Hi0 & Hs0 & R0). clear Hi.
  inversion R0 as [|u0 s1 s2 st0 l0 v0 C1 X1 R1]; subst. clear R0.
  inversion R1 as [|u1 s3 s4 st1 l1 v1 C2 X2 R2]; subst. clear R1.
  inversion R2 as [u3 v3 C3|]; subst. clear R2.
  pose proof (kept_exec _ _ _ X1) as Ke1. pose proof (kept_exec _ _ _ X2) as Ke2.
  assert (K4 : In c (tkept s4)) by exact (kept_back _ _ _ C3 Hk).
  assert (K3 : In c (tkept s3)) by (rewrite <- Ke2; exact K4).
  assert (K2 : In c (tkept s2)) by exact (kept_back _ _ _ C2 K3).
  assert (K1 : In c (tkept s1)) by (rewrite <- Ke1; exact K2).
  destruct (cinv_collect _ _ _ _ _ _ K1 Hi0 C1) as [[H1 H2 H3 (Hc & Hcb & Hd) (H5 & H6 & (o & Ho & Hop))] Hs1].
  assert (Hp1 : tpar s1 = Some b) by (destruct H6 as (_ & G & _); exact G).
  assert (Hn1 : nxt (theap s1) = b + tree_size (XE n a ks)).
  { destruct H6 as (_ & _ & G & _). cbn [P bheap view nxt] in G. rewrite G. unfold fend. cbn [fid fkids snd tree_size]. fold (size_all ks). lia. }
  assert (Hpl : placed (theap s1) (par done) b (XE n a ks)).
  { destruct H6 as (_ & _ & _ & G). cbn [P bheap] in G. eapply placed_out; [exact (spine_placed _ _ [] n a ks G)|exact Ho|exact Hop]. }
  set (u := XE n a ks) in *. assert (Hsz : 1 <= tree_size u) by apply size_pos.
  inversion X1 as [st sa sb Hn _|ix sa h' kept Hsk Hnx]; subst; [exfalso; apply (Hn 0); auto|]. clear X1. destruct Hsk as [(i & Ei & Hap) Hkept].
  rewrite Hp1 in Ei. injection Ei as <-. unfold xml_append in Hap.
  assert (Hel : is_elem (theap s1) b) by (inversion Hpl as [p0 i0 n0 a0 k0 G _|]; subst; repeat eexists; exact G).
  destruct (insert_elem_eq _ _ _ _ _ _ _ _ _ Hc Hel Hap) as (I1 & I2 & _ & I3). destruct I2 as [I2 I4]; [lia|].
  change (kids_insert (ck ++ kids_now (ABuild (n, a, ks) []) b done) (-1) b) with
    (if (-1 =? -1)%Z then (ck ++ kids_now (ABuild (n, a, ks) []) b done) ++ [b] else list_insert (ck ++ kids_now (ABuild (n, a, ks) []) b done) (-1) b) in I2.
  cbn [Z.eqb Pos.eqb] in I2.
  assert (Hpl' : placed h' (Some c) b u).
  { eapply placed_parent; [exact Hpl|rewrite Ho; cbn; apply I4; exact Ho|]. intros j Hj. apply I3; lia. }
  set (b' := b + tree_size u) in *. set (done' := done ++ [(b, u)]).
  set (s2 := mkT h' (troots s1) (tpars s1) (tctl s1) (tpar s1) (telem s1) (ttext s1) kept (tsent s1 ++ [(0, tpar s1, theap s1)])) in *.
  assert (HK : kids_now (ABuild (n, a, ks) []) b done ++ [b] = kids_now AIdle b' done').
  { unfold kids_now, done'. rewrite map_app, app_nil_r. cbn [map fst]. rewrite doubled_snoc, <- app_assoc. f_equal. destruct done; reflexivity. }
  assert (G2 : good b' (kids_now AIdle b' done') done' s2).
  { split; [cbn [theap s2]; rewrite I2, <- app_assoc, HK; reflexivity|]. split; [unfold b'; lia|]. intros i t Hit. unfold done' in Hit.
    apply in_app_iff in Hit as [Hit|[Hit|[]]].
    - destruct (Hd i t Hit) as (L1 & ids & L2 & L3). split; [rewrite <- HK; apply in_or_app; auto|]. exists ids. split.
      + eapply (proj1 (holds_same _ _)); [exact L2|]. intros j Hj. destruct (L3 j Hj) as [M1 M2]. apply I3; [exact M2|lia].
      + intros j Hj. destruct (L3 j Hj). split; auto. unfold b'. lia.
    - inversion Hit; subst i t. split; [rewrite <- HK; apply in_or_app; right; left; auto|]. exists (seq b (tree_size u)). split; [apply placed_holds; exact Hpl'|].
      intros j Hj. apply in_seq in Hj. unfold b'. lia. }
  pose proof C2 as (_ & (Kn2 & _) & A1 & A2 & A3 & A4 & A5 & A6 & A7). cbn [tpar tpars troots tsent theap s2] in A1, A2, A4, A7, Kn2.
  assert (Hr2 : nth 0 (troots s2) None = Some b) by exact H5.
  assert (Hb3 : hp (theap s3) b = Some (set_parent o (Some c))).
  { rewrite (live_stays _ _ _ C2 (live_root _ _ Hr2)). cbn [theap s2]. apply I4. exact Ho. }
  pose proof (good_collect _ _ _ _ _ K3 C2 G2) as G3.
  assert (Hq : xml_parent (theap s3) b = Some c).
  { unfold xml_parent. rewrite Hb3. destruct G3 as (G3 & _). replace (oparent (set_parent o (Some c))) with (Some c) by (destruct o; reflexivity). rewrite G3. reflexivity. }
  inversion X2 as [st sa sb Hn X2'|]; subst. inversion X2'; subst. clear X2 X2' Hn. rewrite A4, Hp1, Hq in C3.
  pose proof C3 as (_ & (Kn3 & _) & B1 & B2 & B3 & B4 & B5 & B6 & B7). cbn [tpar tpars troots tsent theap] in B1, B2, B4, B7, Kn3.
  split; [constructor|].
  - reflexivity.
  - cbn. rewrite B2, B4, A2, H2. reflexivity.
  - cbn. rewrite B1, A1. exact H3.
  - change (good b' (kids_now AIdle b' done') done' s'). eapply good_collect; [exact Hk|exact C3|]. eapply (good_same _ _ _ s3); [reflexivity|exact G3].
  - cbn [set_ctl tpar theap]. rewrite B4, Kn3, Kn2, I1. split; [unfold done'; destruct done; reflexivity|exact Hn1].
  - exists (theap s1), (seq b (tree_size u)). split; [rewrite B7, A7, Hp1; congruence|]. split; [apply placed_holds; exact Hpl|apply seq_NoDup].
Qed.

(** ** Runs *)
Lemma step_c st b stack m done s e stmts ct x s1 stack' m' out : In c (tkept s1) ->
  cinv b stack m done s -> ctl_all [st] 0 (tctl s) e = (stmts, ct, x) -> wruns sink s stmts s1 ->
  astep st stack m e = Some (stack', m', out) ->
  x = None /\ exists new, map snd new = out /\ cinv (b + total_size out) stack' m' (done ++ new) (set_ctl s1 ct).
Proof.
  intros Hk Hi Hc Hr Ha. pose proof (ci_ctl _ _ _ _ _ Hi) as Ht. rewrite Ht in Hc. cbn [ctl_all] in Hc.
  assert (Hz : forall (Hx : x = None) (Ho : out = []), cinv b stack' m' done (set_ctl s1 ct) ->
     x = None /\ exists new, map snd new = out /\ cinv (b + total_size out) stack' m' (done ++ new) (set_ctl s1 ct)).
  { intros -> -> H2. split; auto. exists []. split; auto. cbn [total_size fold_right]. rewrite Nat.add_0_r, app_nil_r. exact H2. }
  assert (Hid : forall stk, wruns sink s [TLoad 0] s1 -> cinv b stk m done (set_ctl s1 (mkC stk [depth_of m]))).
  { intros stk Hr0. apply (cinv_load _ _ _ _ _ _ _ Hk Hi) in Hr0 as (s0 & Hi0 & Hs0 & R0). inversion R0 as [u v C|]; subst.
    apply (cinv_collect _ _ _ _ _ _ Hk Hi0) in C as [C _]. eapply cinv_set_ctl; eauto. }
  destruct e as [n a anc|n anc|t]; cbn [astep ctl_one cdepths cstack] in *.
  - destruct m as [|f fs]; cbn [depth_of nth Nat.eqb] in *.
    + destruct (match_state st (stack ++ [n])) as [[]|]; [| |discriminate]; cbn [app] in Hc; inversion Hc; subst stmts ct x; inversion Ha; subst stack' m' out; apply Hz; auto.
      eapply start_idle_c in Hi; [|exact Hk|exact Hr]. apply Hi.
    + cbn [app] in Hc. inversion Hc; subst stmts ct x. inversion Ha; subst stack' m' out. cbn [set_nth] in *. eapply start_build_c in Hi; [|exact Hk|exact Hr]. apply Hz; auto. apply Hi.
  - destruct stack as [|s0 stk] eqn:Es; [discriminate|]. rewrite <- Es in *. destruct m as [|[[n0 a0] ks0] fs]; cbn [depth_of nth Nat.eqb] in *.
    + cbn [app] in Hc. inversion Hc; subst stmts ct x. inversion Ha; subst stack' m' out. apply Hz; auto.
    + destruct fs as [|[[n1 a1] ks1] fs]; cbn [length Nat.eqb app Nat.sub set_nth] in Hc; inversion Hc; subst stmts ct x; inversion Ha; subst stack' m' out.
      * eapply end_outer_c in Hi; [|exact Hk|exact Hr]. destruct Hi as (Hi & _). split; auto. exists [(b, XE n0 a0 ks0)]. split; auto.
        cbn [total_size fold_right]. rewrite Nat.add_0_r. exact Hi.
      * eapply end_inner_c in Hi; [|exact Hk|exact Hr]. apply Hz; auto. apply Hi.
  - destruct m as [|[[n0 a0] ks0] fs]; cbn [depth_of nth Nat.eqb app] in *; inversion Hc; subst stmts ct x; inversion Ha; subst stack' m' out.
    + apply Hz; auto.
    + eapply chars_build_c in Hi; [|exact Hk|exact Hr]. apply Hz; auto. apply Hi.
Qed.
Lemma run_c st evs : forall b stack m done s s' x stack' m' out, In c (tkept s') ->
  cinv b stack m done s -> whandle sink [st] s evs s' x -> arun st stack m evs = Some (stack', m', out) ->
  x = None /\ exists new b', map snd new = out /\ cinv b' stack' m' (done ++ new) s'.
Proof.
  induction evs as [|e evs IH]; intros b stack m done s s' x stack' m' out Hk Hi Hh Ha; cbn [arun] in Ha.
  - inversion Ha; subst. inversion Hh; subst. split; auto. exists [], b. rewrite app_nil_r. split; auto. eapply cinv_collect; eauto.
  - destruct (astep st stack m e) as [[[stk1 m1] o1]|] eqn:Es; [|discriminate].
    destruct (arun st stk1 m1 evs) as [[[stk2 m2] o2]|] eqn:Er; [|discriminate]. inversion Ha; subst.
    inversion Hh as [|u e0 evs0 stm ct s1 v x0 Hc Hr Hh1|u e0 evs0 stm ct s1 x0 Hc Hr]; subst.
    + pose proof (kept_handle _ _ _ _ _ Hh1 _ Hk) as K1. cbn [set_ctl tkept] in K1.
      destruct (step_c _ _ _ _ _ _ _ _ _ _ _ _ _ _ K1 Hi Hc Hr Es) as (_ & n1 & H1 & H2).
      destruct (IH _ _ _ _ _ _ _ _ _ _ Hk H2 Hh1 Er) as (-> & n2 & b2 & G1 & G2). split; auto. exists (n1 ++ n2), b2.
      split; [rewrite map_app, H1, G1; reflexivity|]. rewrite app_assoc. exact G2.
    + cbn [set_ctl tkept] in Hk. destruct (step_c _ _ _ _ _ _ _ _ _ _ _ _ _ _ Hk Hi Hc Hr Es) as (? & _). discriminate.
Qed.
End Collect.

Lemma collected_found p h c cn ca ck cp t s' x : ~ ends_deep p -> p <> [] -> is_element t ->
  hp h c = Some (OElem cn ca ck cp) -> c < nxt h ->
  whandle (appends_to c) (stateses [p]) (new_handler (new_sender_with h [c] p)) (doc_events t) s' x -> In c (tkept s') ->
  x = None /\ exists is, Forall2 (has_under (theap s') c) is (map snd (found (hits (prep p)) [] t)) /\
    hp (theap s') c = Some (OElem cn ca (ck ++ doubled is) cp).
Proof.
  intros Hd Hp Ht Hc Hn Hh Hk. assert (Hf : forall names, fails (prep p) names = false) by (intros; apply fails_never; auto).
  pose proof (arun_idle (prep p) t Hf (prep_not_matched p Hp) [] (nil_hits _)) as Ha.
  assert (Hi : cinv c cn ca ck cp (nxt h) [] AIdle [] (new_handler (new_sender_with h [c] p))).
  { constructor; try reflexivity.
    - split; [cbn; rewrite app_nil_r; exact Hc|]. split; [exact Hn|]. intros i u [].
    - split; reflexivity. }
  destruct (run_c _ _ _ _ _ _ _ _ _ _ _ _ _ _ _ _ _ Hk Hi Hh Ha) as (-> & new & b' & E & [_ _ _ (G1 & _ & G2) _]). split; auto.
  exists (map fst new). cbn [app] in *. split.
  - rewrite <- E. clear - G2. assert (K : forall l, (forall y, In y l -> In y new) -> Forall2 (has_under (theap s') c) (map fst l) (map snd l)).
    { induction l as [|[i u] l IH]; intros H; constructor; [|apply IH; intros y Hy; apply H; right; exact Hy].
      destruct (G2 i u (H _ (or_introl eq_refl))) as (_ & ids & G & _). exists ids. exact G. }
    apply K. auto.
  - unfold kids_now in G1. rewrite app_nil_r in G1. exact G1.
Qed.
Theorem collected p h c cn ca ck cp t s' x : no_deep p -> p <> [] -> is_element t ->
  hp h c = Some (OElem cn ca ck cp) -> c < nxt h ->
  whandle (appends_to c) (stateses [p]) (new_handler (new_sender_with h [c] p)) (doc_events t) s' x -> In c (tkept s') ->
  x = None /\ exists l is, listing t (fun a u => is_element u /\ matches p (path_names t a)) l /\
    Forall2 (has_under (theap s') c) is (map snd l) /\
    hp (theap s') c = Some (OElem cn ca (ck ++ doubled is) cp).
Proof.
  intros Hd Hp Ht Hc Hn Hh Hk. destruct (collected_found p h c cn ca ck cp t s' x (no_deep_ends _ Hd) Hp Ht Hc Hn Hh Hk) as (-> & is & H1 & H2). split; auto.
  exists (found (hits (prep p)) [] t), is. split; [apply found_exact; auto|]. auto.
Qed.

(** ** Executing a sender whose sink is a function on heaps *)
Definition sink_of (f : ref -> heap -> option heap) : sink_rel :=
  fun _ e h k h' k' => (exists i, e = Some i /\ f i h = Some h') /\ k' = k.
Definition wexec1 (f : ref -> heap -> option heap) (st : tstmt) (s : tstate) : option tstate :=
  match st with
  | TSend ix => match tpar s with
                | Some i => match f i (theap s) with
                            | Some h' => if Nat.leb (nxt (theap s)) (nxt h')
                                         then Some (mkT h' (troots s) (tpars s) (tctl s) (tpar s) (telem s) (ttext s) (tkept s) (tsent s ++ [(ix, tpar s, theap s)]))
                                         else None
                            | None => None
                            end
                | None => None
                end
  | _ => Some (exec1 st s)
  end.
Fixpoint wruns1 f (l : list tstmt) (s : tstate) : option tstate :=
  match l with [] => Some s | st :: r => match wexec1 f st s with Some s1 => wruns1 f r s1 | None => None end end.
Fixpoint whandle1 f (ss : list pst) (s : tstate) (evs : list event) : option tstate :=
  match evs with
  | [] => Some s
  | e :: r => match ctl_all ss 0 (tctl s) e with
              | (l, c, None) => match wruns1 f l s with Some s1 => whandle1 f ss (set_ctl s1 c) r | None => None end
              | _ => None
              end
  end.
Lemma wexec1_ok f st s s' : wexec1 f st s = Some s' -> wexec (sink_of f) st s s'.
Proof.
  intros H. destruct st as [|n a| | | |t| |ix|]; try (injection H as <-; apply we_own; [discriminate|apply exec1_ok]).
  cbn [wexec1] in H. destruct (tpar s) as [i|] eqn:E; [|discriminate]. destruct (f i (theap s)) as [h'|] eqn:F; [|discriminate].
  destruct (Nat.leb (nxt (theap s)) (nxt h')) eqn:L; [|discriminate]. injection H as <-. rewrite <- E. apply we_send; [|apply Nat.leb_le; exact L].
  split; [exists i; auto|reflexivity].
Qed.
Lemma wruns1_ok f l : forall s s', wruns1 f l s = Some s' -> wruns (sink_of f) s l s'.
Proof.
  induction l as [|st l IH]; intros s s' H; cbn [wruns1] in H; [injection H as <-; constructor; apply tcollect_refl|].
  destruct (wexec1 f st s) as [s1|] eqn:E; [|discriminate]. econstructor; [apply tcollect_refl|apply wexec1_ok; exact E|apply IH; exact H].
Qed.
Lemma whandle1_ok f ss evs : forall s s', whandle1 f ss s evs = Some s' -> whandle (sink_of f) ss s evs s' None.
Proof.
  induction evs as [|e evs IH]; intros s s' H; cbn [whandle1] in H; [injection H as <-; constructor; apply tcollect_refl|].
  destruct (ctl_all ss 0 (tctl s) e) as [[l c] [x|]] eqn:E; [discriminate|]. destruct (wruns1 f l s) as [s1|] eqn:R; [|discriminate].
  eapply wh_step; [exact E|apply wruns1_ok; exact R|apply IH; exact H].
Qed.
Lemma whandle_mono (k1 k2 : sink_rel) ss evs : (forall ix e h k h' k', k1 ix e h k h' k' -> k2 ix e h k h' k') ->
  forall s s' x, whandle k1 ss s evs s' x -> whandle k2 ss s evs s' x.
Proof.
  intros Hm. assert (He : forall st s s', wexec k1 st s s' -> wexec k2 st s s') by (intros st s s' H; inversion H; subst; [apply we_own; auto|apply we_send; auto]).
  assert (Hr : forall l s s', wruns k1 s l s' -> wruns k2 s l s').
  { induction l as [|st l IH]; intros s s' H; inversion H; subst; [constructor; auto|econstructor; eauto]. }
  induction evs as [|e evs IH]; intros s s' x H; inversion H as [u v C|u e0 evs0 l c s1 v x0 Hc Hw Hh1|u e0 evs0 l c s1 x0 Hc Hw]; subst.
  - apply wh_nil; exact C.
  - exact (wh_step k2 ss _ _ _ _ _ _ _ _ Hc (Hr _ _ _ Hw) (IH _ _ _ Hh1)).
  - exact (wh_exn k2 ss _ _ _ _ _ _ _ Hc (Hr _ _ _ Hw)).
Qed.
Definition append_fun (c : ref) (i : ref) (h : heap) : option heap := match xml_append h c (ARef i) with EOk h' => Some h' | EExn _ _ => None end.
Lemma append_fun_ok c ix e h k h' k' : sink_of (append_fun c) ix e h k h' k' -> appends_to c ix e h k h' k'.
Proof.
  intros [(i & E & H) K]. split; auto. exists i. split; auto. unfold append_fun in H. destruct (xml_append h c (ARef i)); [injection H as <-; reflexivity|discriminate].
Qed.
(** Taking away all children of the element received: [e.xml_children.clear()]. *)
Definition clear_fun (i : ref) (h : heap) : option heap :=
  match hp h i with Some (OElem n a _ None) => Some (upd h i (OElem n a [] None)) | _ => None end.
Lemma clear_loose : leaves_loose (sink_of clear_fun).
Proof.
  intros ix i h k h' k' [(j & E & H) _]. injection E as <-. unfold clear_fun in H. destruct (hp h i) as [[n a ks [p|]|]|] eqn:F; try discriminate.
  injection H as <-. unfold xml_parent, upd; cbn [hp]. rewrite Nat.eqb_refl. reflexivity.
Qed.
