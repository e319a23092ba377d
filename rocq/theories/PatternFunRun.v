(** The handler with functions in the patterns and any number of patterns: what it builds and sends. *)
From Verif Require Import PyStr Parser ParserM XTree ParserInv Heap Builder HeapSpec BuilderFacts HeapFacts BuilderMore Path Nodes.
From Verif Require Import Pattern PatternSpec PatternFacts TreeIter TreeIterSpec TreeIterFacts TreeIterMore TreeSinkFacts PatternFun PatternFunSpec PatternFunFacts PatternFunHeap.

(** ** Statements *)
Notation hinv_of k ms ids cur L extra s := (hinv k ms ids cur L extra (theap s) (troots s) (tkept s)).
Lemma col_hinv k ms ids cur L extra s s1 : hinv_of k ms ids cur L extra s -> tcollect s s1 -> hinv_of k ms ids cur L extra s1.
Proof.
  intros H (Ik & G & Er & _). rewrite Er. eapply hinv_gc; [exact H|exact G| | |exact Ik]; unfold tlive; intros x Hx; repeat (rewrite in_app_iff); auto 10.
Qed.
Lemma col_live s s1 i : tcollect s s1 -> In i (tlive s) -> hp (theap s1) i = hp (theap s) i.
Proof. intros (_ & G & _) Hi. destruct (proj2 G i) as [E|[_ N]]; auto. destruct N. apply re_root; auto. Qed.
Lemma col_pars s s1 : tcollect s s1 -> tpars s1 = tpars s. Proof. intros H; apply H. Qed.
Lemma col_par s s1 : tcollect s s1 -> tpar s1 = tpar s. Proof. intros H; apply H. Qed.
Lemma col_elem s s1 : tcollect s s1 -> telem s1 = telem s. Proof. intros H; apply H. Qed.
Lemma col_text s s1 : tcollect s s1 -> ttext s1 = ttext s. Proof. intros H; apply H. Qed.
Lemma col_roots s s1 : tcollect s s1 -> troots s1 = troots s. Proof. intros H; apply H. Qed.
Lemma col_sent s s1 : tcollect s s1 -> tsent s1 = tsent s. Proof. intros H; apply H. Qed.
Lemma live_elem s i : telem s = Some i -> In i (tlive s).
Proof. intros E. unfold tlive. rewrite E. repeat rewrite in_app_iff. cbn. auto 10. Qed.
Lemma live_text s i : ttext s = Some i -> In i (tlive s).
Proof. intros E. unfold tlive. rewrite E. repeat rewrite in_app_iff. cbn. auto 10. Qed.
Lemma live_par s i : tpar s = Some i -> In i (tlive s).
Proof. intros E. unfold tlive. rewrite E. repeat rewrite in_app_iff. cbn. auto 10. Qed.

Record rep (k : nat) (ms : nat -> amode) (ids : nat -> list ref) (cur : nat -> option ref) (L : ref -> xtree -> Prop) (s : tstate) : Prop := mkR {
  rp_h : hinv_of k ms ids cur L [] s;
  rp_len : length (tpars s) = k;
  rp_cur : forall ix, ix < k -> nth ix (tpars s) None = cur ix }.
Lemma col_rep k ms ids cur L s s1 : rep k ms ids cur L s -> tcollect s s1 -> rep k ms ids cur L s1.
Proof. intros [H1 H2 H3] C. constructor; [eapply col_hinv; eauto|rewrite (col_pars _ _ C); auto|rewrite (col_pars _ _ C); auto]. Qed.
Lemma cur_set k cur (l : list (option ref)) ix x : length l = k -> ix < k -> (forall j, j < k -> nth j l None = cur j) ->
  forall j, j < k -> nth j (set_nth ix x l) None = setf cur ix x j.
Proof.
  intros Hl Hx H j Hj. destruct (Nat.eq_dec j ix) as [->|N]; [rewrite setf_same; apply nth_set_same; lia|]. rewrite setf_other by auto. rewrite set_nth_other; auto.
Qed.
Lemma cur_build k ms ids cur L s ix f fs : rep k ms ids cur L s -> ix < k -> ms ix = ABuild f fs -> exists c, cur ix = Some c.
Proof. intros H Hx E. pose proof (hi_each _ _ _ _ _ _ _ _ _ (rp_h _ _ _ _ _ _ H) ix Hx) as K. rewrite E in K. destruct K as (r & c & _ & K & _). eauto. Qed.
Lemma cur_idle k ms ids cur L s ix : rep k ms ids cur L s -> ix < k -> ms ix = AIdle -> cur ix = None.
Proof. intros H Hx E. pose proof (hi_each _ _ _ _ _ _ _ _ _ (rp_h _ _ _ _ _ _ H) ix Hx) as K. rewrite E in K. apply K. Qed.


Lemma run_load k ms ids cur L s l ix s' : rep k ms ids cur L s -> ix < k -> truns s (TLoad ix :: l) s' ->
  exists s1, rep k ms ids cur L s1 /\ tpar s1 = cur ix /\ tsent s1 = tsent s /\ truns s1 l s'.
Proof.
  intros H Hx R. inversion R as [|? s1 s2 ? ? ? C X R']; subst. inversion X; subst. pose proof (col_rep _ _ _ _ _ _ _ H C) as [H1 H2 H3].
  eexists. split; [|split; [|split; [|exact R']]]; cbn; auto; [|apply (col_sent _ _ C)]. constructor; cbn; auto.
Qed.
Lemma run_none k ms ids cur L s ix s' : rep k ms ids cur L s -> ix < k -> truns s [TLoad ix] s' -> rep k ms ids cur L s' /\ tsent s' = tsent s.
Proof.
  intros H Hx R. destruct (run_load _ _ _ _ _ _ _ _ _ H Hx R) as (s1 & H1 & _ & E & R1). inversion R1 as [? ? C|]; subst.
  split; [eapply col_rep; eauto|]. rewrite (col_sent _ _ C). auto.
Qed.
Lemma run_text k ms ids cur L s ix n a ks fs t s' : rep k ms ids cur L s -> ix < k -> ms ix = ABuild (n, a, ks) fs ->
  truns s [TLoad ix; TNewText t; TAppendText] s' ->
  exists ids' cur', rep k (setf ms ix (ABuild (n, a, ks ++ [XT t]) fs)) ids' cur' L s' /\ tsent s' = tsent s.
Proof.
  intros H Hx Em R. destruct (cur_build _ _ _ _ _ _ _ _ _ H Hx Em) as (c & Ec).
  destruct (run_load _ _ _ _ _ _ _ _ _ H Hx R) as (s1 & H1 & Ep & E & R1). rewrite Ec in Ep. clear H R.
  inversion R1 as [|? s2 s3 ? ? ? C X R2]; subst. inversion X; subst. clear X R1. pose proof (col_rep _ _ _ _ _ _ _ H1 C) as G. pose proof (rp_h _ _ _ _ _ _ G) as G1.
  pose proof (hinv_alloc _ _ _ _ _ _ _ _ (OText t (tpar s2)) G1) as A. rewrite (col_par _ _ C), Ep in A.
  set (e := nxt (theap s2)) in *. inversion R2 as [|? s4 s5 ? ? ? C2 X R3]; subst. inversion X; subst. clear X R2.
  assert (Eo : hp (theap s4) e = Some (OText t (Some c))).
  { rewrite (col_live _ _ e C2) by (apply live_text; reflexivity). cbn [theap]. rewrite hp_alloc, (col_par _ _ C), Ep. unfold e. rewrite Nat.eqb_refl. reflexivity. }
  assert (A2 : hinv_of k ms ids cur L [e] s4).
  { eapply col_hinv; [|exact C2]. cbn [theap troots tkept]. rewrite (col_par _ _ C), Ep. exact A. }
  pose proof (text_step _ _ _ _ _ _ _ _ _ _ _ _ _ _ _ _ A2 Hx Em Ec Eo) as A3.
  assert (E4 : tpar s4 = Some c) by (rewrite (col_par _ _ C2); cbn; rewrite (col_par _ _ C); auto).
  assert (E5 : ttext s4 = Some e) by (rewrite (col_text _ _ C2); reflexivity).
  rewrite E4, E5 in R3. inversion R3 as [? ? C3|]; subst. destruct G as [_ G2 G3]. do 2 eexists. split.
  - eapply col_rep; [|exact C3]. constructor; cbn [theap troots tkept tpars]; [exact A3| |].
    + rewrite (col_pars _ _ C2). cbn. auto.
    + intros j Hj. rewrite (col_pars _ _ C2). cbn. rewrite G3 by auto. destruct (Nat.eq_dec j ix) as [->|N]; [rewrite setf_same; auto|rewrite setf_other; auto].
  - rewrite (col_sent _ _ C3). cbn. rewrite (col_sent _ _ C2). cbn. rewrite (col_sent _ _ C). auto.
Qed.
Lemma run_push k ms ids cur L s ix f fs n a s' : rep k ms ids cur L s -> ix < k -> ms ix = ABuild f fs ->
  truns s [TLoad ix; TNewElem n a; TAppendElem; TDown ix] s' ->
  exists ids' cur', rep k (setf ms ix (ABuild (n, a, []) (f :: fs))) ids' cur' L s' /\ tsent s' = tsent s.
Proof.
  intros H Hx Em R. destruct (cur_build _ _ _ _ _ _ _ _ _ H Hx Em) as (c & Ec).
  destruct (run_load _ _ _ _ _ _ _ _ _ H Hx R) as (s1 & H1 & Ep & E & R1). rewrite Ec in Ep. clear H R.
  inversion R1 as [|? s2 s3 ? ? ? C X R2]; subst. inversion X; subst. clear X R1. pose proof (col_rep _ _ _ _ _ _ _ H1 C) as G. pose proof (rp_h _ _ _ _ _ _ G) as G1.
  pose proof (hinv_alloc _ _ _ _ _ _ _ _ (OElem n a [] (tpar s2)) G1) as A. rewrite (col_par _ _ C), Ep in A.
  set (e := nxt (theap s2)) in *. inversion R2 as [|? s4 s5 ? ? ? C2 X R3]; subst. inversion X; subst. clear X R2.
  assert (Eo : hp (theap s4) e = Some (OElem n a [] (Some c))).
  { rewrite (col_live _ _ e C2) by (apply live_elem; reflexivity). cbn [theap]. rewrite hp_alloc, (col_par _ _ C), Ep. unfold e. rewrite Nat.eqb_refl. reflexivity. }
  assert (A2 : hinv_of k ms ids cur L [e] s4).
  { eapply col_hinv; [|exact C2]. cbn [theap troots tkept]. rewrite (col_par _ _ C), Ep. exact A. }
  pose proof (push_step _ _ _ _ _ _ _ _ _ _ _ _ _ _ _ A2 Hx Em Ec Eo) as A3.
  assert (E4 : tpar s4 = Some c) by (rewrite (col_par _ _ C2); cbn; rewrite (col_par _ _ C); auto).
  assert (E5 : telem s4 = Some e) by (rewrite (col_elem _ _ C2); reflexivity).
  rewrite E4, E5 in R3. inversion R3 as [|? s6 s7 ? ? ? C3 X R4]; subst. inversion X; subst. clear X R3. inversion R4 as [? ? C4|]; subst. destruct G as [_ G2 G3]. do 2 eexists. split.
  - eapply col_rep; [|exact C4]. pose proof (col_pars _ _ C3) as P3. pose proof (col_pars _ _ C2) as P2. cbn [tpars] in P3, P2. pose proof (col_elem _ _ C3) as T3. cbn [telem] in T3.
    constructor; cbn [theap troots tkept tpars].
    + eapply col_hinv; [|exact C3]. exact A3.
    + rewrite len_set, P3, P2. auto.
    + rewrite P3, P2, T3. apply cur_set; auto.
  - rewrite (col_sent _ _ C4). cbn. rewrite (col_sent _ _ C3). cbn. rewrite (col_sent _ _ C2). cbn. rewrite (col_sent _ _ C). auto.
Qed.
Lemma run_root k ms ids cur L s ix n a s' : rep k ms ids cur L s -> ix < k -> ms ix = AIdle ->
  truns s [TLoad ix; TNewElem n a; TAppendElem; TDown ix; TRoot ix] s' ->
  exists ids' cur', rep k (setf ms ix (ABuild (n, a, []) [])) ids' cur' L s' /\ tsent s' = tsent s.
Proof.
  intros H Hx Em R. pose proof (cur_idle _ _ _ _ _ _ _ H Hx Em) as Ec.
  destruct (run_load _ _ _ _ _ _ _ _ _ H Hx R) as (s1 & H1 & Ep & E & R1). rewrite Ec in Ep. clear H R.
  inversion R1 as [|? s2 s3 ? ? ? C X R2]; subst. inversion X; subst. clear X R1. pose proof (col_rep _ _ _ _ _ _ _ H1 C) as G. pose proof (rp_h _ _ _ _ _ _ G) as G1.
  pose proof (hinv_alloc _ _ _ _ _ _ _ _ (OElem n a [] (tpar s2)) G1) as A. rewrite (col_par _ _ C), Ep in A.
  set (e := nxt (theap s2)) in *. inversion R2 as [|? s4 s5 ? ? ? C2 X R3]; subst. inversion X; subst. clear X R2.
  assert (Eo : hp (theap s4) e = Some (OElem n a [] None)).
  { rewrite (col_live _ _ e C2) by (apply live_elem; reflexivity). cbn [theap]. rewrite hp_alloc, (col_par _ _ C), Ep. unfold e. rewrite Nat.eqb_refl. reflexivity. }
  assert (A2 : hinv_of k ms ids cur L [e] s4).
  { eapply col_hinv; [|exact C2]. cbn [theap troots tkept]. rewrite (col_par _ _ C), Ep. exact A. }
  assert (E4 : tpar s4 = None) by (rewrite (col_par _ _ C2); cbn; rewrite (col_par _ _ C); auto).
  assert (E5 : telem s4 = Some e) by (rewrite (col_elem _ _ C2); reflexivity).
  rewrite E4 in R3. inversion R3 as [|? s6 s7 ? ? ? C3 X R4]; subst. inversion X; subst. clear X R3.
  inversion R4 as [|? s8 s9 ? ? ? C4 X R5]; subst. inversion X; subst. clear X R4. inversion R5 as [? ? C5|]; subst.
  pose proof (col_pars _ _ C3) as P3. pose proof (col_pars _ _ C2) as P2. pose proof (col_pars _ _ C4) as P4. cbn [tpars] in P3, P2, P4.
  pose proof (col_elem _ _ C3) as T3. pose proof (col_elem _ _ C4) as T4. cbn [telem] in T3, T4. rewrite E5 in T3.
  assert (A6 : hinv_of k ms ids cur L [e] s6) by (eapply col_hinv; [|exact C3]; exact A2).
  assert (Eo6 : hp (theap s6) e = Some (OElem n a [] None)) by (rewrite (col_live _ _ e C3) by (apply live_elem; exact E5); exact Eo).
  assert (A8 : hinv_of k ms ids cur L [e] s8) by (eapply col_hinv; [|exact C4]; exact A6).
  assert (Eo8 : hp (theap s8) e = Some (OElem n a [] None)) by (rewrite (col_live _ _ e C4) by (apply live_elem; exact T3); exact Eo6).
  pose proof (root_step _ _ _ _ _ _ _ _ _ _ _ _ A8 Hx Em Eo8) as A9. destruct G as [_ G2 G3]. do 2 eexists. split.
  - eapply col_rep; [|exact C5]. constructor; cbn [theap troots tkept tpars].
    + rewrite T4, T3. exact A9.
    + rewrite P4, len_set, P3, P2. auto.
    + rewrite P4, P3, P2, T3. apply cur_set; auto.
  - rewrite (col_sent _ _ C5). cbn. rewrite (col_sent _ _ C4). cbn. rewrite (col_sent _ _ C3). cbn. rewrite (col_sent _ _ C2). cbn. rewrite (col_sent _ _ C). auto.
Qed.
Lemma run_pop k ms ids cur L s ix n a ks n' a' ks' fs s' : rep k ms ids cur L s -> ix < k -> ms ix = ABuild (n, a, ks) ((n', a', ks') :: fs) ->
  truns s [TLoad ix; TUp ix] s' ->
  exists ids' cur', rep k (setf ms ix (ABuild (n', a', ks' ++ [XE n a ks]) fs)) ids' cur' L s' /\ tsent s' = tsent s.
Proof.
  intros H Hx Em R. destruct (run_load _ _ _ _ _ _ _ _ _ H Hx R) as (s1 & H1 & Ep & E & R1). clear H R.
  inversion R1 as [|? s2 s3 ? ? ? C X R2]; subst. inversion X; subst. clear X R1. pose proof (col_rep _ _ _ _ _ _ _ H1 C) as G. pose proof (rp_h _ _ _ _ _ _ G) as G1.
  destruct (pop_step _ _ _ _ _ _ _ _ _ _ _ _ _ _ _ _ G1 Hx Em) as (c & c' & Ec & Hc & A). rewrite Ec in Ep.
  rewrite (col_par _ _ C), Ep, Hc in R2. cbn zeta in R2. inversion R2 as [? ? C2|]; subst. destruct G as [_ G2 G3]. do 2 eexists. split.
  - eapply col_rep; [|exact C2]. constructor; cbn [theap troots tkept tpars]; [exact A|rewrite len_set; auto|]. apply cur_set; auto.
  - rewrite (col_sent _ _ C2). cbn. rewrite (col_sent _ _ C). auto.
Qed.
Lemma hinv_forget k ms ids cur L extra h rts kept kept' : hinv k ms ids cur L extra h rts kept -> incl kept' kept -> hinv k ms ids cur L extra h rts kept'.
Proof. intros [H1 H2 H3 H4 H5 H6 H7] Hi. constructor; auto. Qed.
Lemma run_send k ms ids cur L s ix n a ks s' : rep k ms ids cur L s -> ix < k -> ms ix = ABuild (n, a, ks) [] ->
  truns s [TLoad ix; TSend ix; TUp ix] s' ->
  exists ids' cur' r h, rep k (setf ms ix AIdle) ids' cur' (fun i t => L i t \/ i = r /\ t = XE n a ks) s' /\
    tsent s' = tsent s ++ [(ix, Some r, h)] /\ holds_tree h r (XE n a ks).
Proof.
  intros H Hx Em R. destruct (run_load _ _ _ _ _ _ _ _ _ H Hx R) as (s1 & H1 & Ep & E & R1). clear H R.
  inversion R1 as [|? s2 s3 ? ? ? C X R2]; subst. inversion X as [ | | | | | | |? ? kept Hk|]; subst. clear X R1. pose proof (col_rep _ _ _ _ _ _ _ H1 C) as G. pose proof (rp_h _ _ _ _ _ _ G) as G1.
  destruct (done_step _ _ _ _ _ _ _ _ _ _ _ _ G1 Hx Em) as (r & Ec & Hh & Hp & A). rewrite Ec in Ep. pose proof (col_par _ _ C) as P1. rewrite Ep in P1.
  inversion R2 as [|? s4 s5 ? ? ? C2 X R3]; subst. inversion X; subst. clear X R2. pose proof (col_par _ _ C2) as P2. cbn [tpar] in P2. rewrite P1 in P2.
  assert (Ex : xml_parent (theap s4) r = None).
  { unfold xml_parent. rewrite (col_live _ _ r C2) by (apply live_par; exact P1). cbn [theap]. destruct (hp (theap s2) r) as [o|] eqn:Eo; auto. rewrite (Hp o eq_refl). reflexivity. }
  rewrite P2, Ex in R3. cbn zeta in R3. inversion R3 as [? ? C3|]; subst. destruct G as [_ G2 G3]. exists (setf ids ix []), (setf cur ix None), r, (theap s2). split; [|split].
  - eapply col_rep; [|exact C3]. pose proof (col_pars _ _ C2) as Q2. cbn [tpars] in Q2.
    assert (A4 : hinv_of k (setf ms ix AIdle) (setf ids ix []) (setf cur ix None) (fun i t => L i t \/ i = r /\ t = XE n a ks) [] s4).
    { eapply col_hinv; [|exact C2]. cbn [theap troots tkept]. eapply hinv_forget; [exact A|]. destruct Hk as [->| ->]; [|rewrite P1]; cbn; [apply incl_tl|]; apply incl_refl. }
    constructor; cbn [theap troots tkept tpars]; [exact A4|rewrite len_set, Q2; auto|]. rewrite Q2. apply cur_set; auto.
  - rewrite (col_sent _ _ C3). cbn. rewrite (col_sent _ _ C2). cbn. rewrite (col_sent _ _ C), P1, E. reflexivity.
  - exact Hh.
Qed.

(** ** One event *)
(** What becomes of a sink that reads an event; [b]: the element is to be built. *)
Definition mstep (b : bool) (m : amode) (e : event) : amode * list xtree :=
  match e, m with
  | EvStart n a _, AIdle => (if b then ABuild (n, a, []) [] else AIdle, [])
  | EvStart n a _, ABuild f fs => (ABuild (n, a, []) (f :: fs), [])
  | EvChars t, ABuild (n, a, ks) fs => (ABuild (n, a, ks ++ [XT t]) fs, [])
  | EvEnd _ _, ABuild (n, a, ks) [] => (AIdle, [XE n a ks])
  | EvEnd _ _, ABuild (n, a, ks) ((n', a', ks') :: fs) => (ABuild (n', a', ks' ++ [XE n a ks]) fs, [])
  | _, AIdle => (AIdle, [])
  end.
Definition decide (st : fst_) (stack : list event) : bool := match fmatch st stack with inl b => b | inr _ => false end.

(** What was sent: sink, object and tree. *)
Definition logged (x : nat * option ref * heap) (r : nat * ref * xtree) : Prop :=
  exists h, x = (fst (fst r), Some (snd (fst r)), h) /\ holds_tree h (snd (fst r)) (snd r).
Definition sents (s s' : tstate) (rs : list (nat * ref * xtree)) : Prop := exists l, tsent s' = tsent s ++ l /\ Forall2 logged l rs.
Definition with_ (L : ref -> xtree -> Prop) (rs : list (nat * ref * xtree)) : ref -> xtree -> Prop := fun i t => L i t \/ exists ix, In (ix, i, t) rs.
Definition to_ix (ix : nat) (rs : list (nat * ref * xtree)) : list xtree := map snd (filter (fun r => Nat.eqb (fst (fst r)) ix) rs).
Lemma to_ix_app ix a b : to_ix ix (a ++ b) = to_ix ix a ++ to_ix ix b.
Proof. unfold to_ix. rewrite filter_app, map_app. reflexivity. Qed.
Lemma sents_refl s s' : tsent s' = tsent s -> sents s s' [].
Proof. intros E. exists []. rewrite app_nil_r. split; auto. Qed.
Lemma sents_trans s s1 s2 a b : sents s s1 a -> sents s1 s2 b -> sents s s2 (a ++ b).
Proof. intros (l & E & F) (l' & E' & F'). exists (l ++ l'). rewrite E', E, app_assoc. split; auto. apply Forall2_app; auto. Qed.
Lemma hinv_L k ms ids cur (L L' : ref -> xtree -> Prop) extra h rts kept : (forall i t, L' i t -> L i t) -> hinv k ms ids cur L extra h rts kept -> hinv k ms ids cur L' extra h rts kept.
Proof. intros HL [H1 H2 H3 H4 H5 H6 H7]. constructor; auto. intros i t H. apply (H6 i t); auto. Qed.
Lemma rep_L k ms ids cur (L L' : ref -> xtree -> Prop) s : (forall i t, L' i t -> L i t) -> rep k ms ids cur L s -> rep k ms ids cur L' s.
Proof. intros HL [H1 H2 H3]. constructor; auto. eapply hinv_L; eauto. Qed.
Lemma with_nil L i t : with_ L [] i t -> L i t. Proof. intros [H|(ix & [])]; auto. Qed.
Lemma with_app L a b i t : with_ L (a ++ b) i t -> with_ (with_ L a) b i t.
Proof. unfold with_. intros [H|(ix & H)]; auto. apply in_app_or in H as [H|H]; eauto. Qed.
Lemma truns_split a : forall s b s', truns s (a ++ b) s' -> exists s1, truns s a s1 /\ truns s1 b s'.
Proof.
  induction a as [|x a IH]; intros s b s' R; [exists s; split; auto; constructor; apply tcollect_refl|].
  inversion R as [|? s1 s2 ? ? ? C X R']; subst. destruct (IH _ _ _ R') as (s3 & R1 & R2). exists s3. split; auto. econstructor; eauto.
Qed.

Definition depths_ok (k : nat) (ms : nat -> amode) (c : fctl) : Prop :=
  length (fdepths c) = k /\ forall jx, jx < k -> nth jx (fdepths c) 0 = depth_of (ms jx).
Lemma rep_set k ms ids cur L s ix : rep k ms ids cur L s -> rep k (setf ms ix (ms ix)) ids cur L s.
Proof.
  intros [[H1 H2 H3 H4 H5 H6 H7] G2 G3]. constructor; auto. constructor; auto. intros jx Hj. unfold setf. destruct (Nat.eqb_spec jx ix) as [->|]; auto.
Qed.
Lemma depths_set k ms c ix m st : depths_ok k ms c -> ix < k -> depths_ok k (setf ms ix m) (mkF st (set_nth ix (depth_of m) (fdepths c))).
Proof.
  intros (H1 & H2) Hx. split; cbn; [rewrite len_set; auto|]. intros jx Hj. destruct (Nat.eq_dec jx ix) as [->|N].
  - rewrite setf_same. apply nth_set_same. lia.
  - rewrite setf_other, set_nth_other; auto.
Qed.
Lemma depths_same k ms c ix st : depths_ok k ms c -> depths_ok k (setf ms ix (ms ix)) (mkF st (fdepths c)).
Proof. intros (H1 & H2). split; cbn; auto. intros jx Hj. unfold setf. destruct (Nat.eqb_spec jx ix) as [->|]; auto. Qed.

Lemma one_ok k ms ids cur L s ix st c e l c' x s' : rep k ms ids cur L s -> ix < k -> depths_ok k ms c -> fctl_one st ix c e = (l, c', x) -> truns s l s' ->
  match x with
  | Some y => rep k ms ids cur L s' /\ tsent s' = tsent s /\ (is_start e /\ fmatch st (fstack c ++ [e]) = inr y \/ is_end e /\ fstack c = [])
  | None => exists ids' cur' rs, rep k (setf ms ix (fst (mstep (decide st (fstack c ++ [e])) (ms ix) e))) ids' cur' (with_ L rs) s' /\
      sents s s' rs /\ to_ix ix rs = snd (mstep (decide st (fstack c ++ [e])) (ms ix) e) /\ (forall r, In r rs -> fst (fst r) = ix) /\
      depths_ok k (setf ms ix (fst (mstep (decide st (fstack c ++ [e])) (ms ix) e))) c' /\
      fstack c' = match e with EvStart _ _ _ => fstack c ++ [e] | EvEnd _ _ => removelast (fstack c) | EvChars _ => fstack c end
  end.
Proof.
  intros H Hx Hd E R. pose proof (proj2 Hd ix Hx) as Ed. unfold fctl_one in E. rewrite Ed in E. clear Ed.
  assert (Hw : forall ms' ids' cur' s1, rep k ms' ids' cur' L s1 -> rep k ms' ids' cur' (with_ L []) s1) by (intros; eapply rep_L; [apply with_nil|auto]).
  assert (Hn : forall r : nat * ref * xtree, In r [] -> fst (fst r) = ix) by (intros r []).
  destruct e as [n a anc|n anc|t].
  - destruct (ms ix) as [|f fs] eqn:Em; cbn [depth_of Nat.eqb] in E.
    + destruct (fmatch st (fstack c ++ [EvStart n a anc])) as [[]|y] eqn:Ef; injection E as <- <- <-; unfold decide; rewrite ?Ef.
      * destruct (run_root _ _ _ _ _ _ _ _ _ _ H Hx Em R) as (ids' & cur' & H' & Es). exists ids', cur', []. cbn [mstep fst snd fstack].
        split; [auto|]. split; [apply sents_refl; auto|]. split; [reflexivity|]. split; [auto|]. split; [apply depths_set; auto|reflexivity].
      * destruct (run_none _ _ _ _ _ _ _ _ H Hx R) as [H' Es]. exists ids, cur, []. cbn [mstep fst snd fstack]. rewrite <- Em.
        split; [apply Hw, rep_set; auto|]. split; [apply sents_refl; auto|]. split; [reflexivity|]. split; [auto|]. split; [apply depths_same; auto|reflexivity].
      * destruct (run_none _ _ _ _ _ _ _ _ H Hx R) as [H' Es]. split; auto. split; auto. left. split; auto. repeat eexists.
    + injection E as <- <- <-. destruct (run_push _ _ _ _ _ _ _ _ _ _ _ _ H Hx Em R) as (ids' & cur' & H' & Es). exists ids', cur', []. cbn [mstep fst snd fstack].
      split; [auto|]. split; [apply sents_refl; auto|]. split; [reflexivity|]. split; [auto|]. split; [apply (depths_set _ _ _ _ (ABuild (n, a, []) (f :: fs))); auto|reflexivity].
  - destruct (fstack c) as [|e0 r0] eqn:Ek.
    + injection E as <- <- <-. destruct (run_none _ _ _ _ _ _ _ _ H Hx R) as [H' Es]. split; auto. split; auto. right. split; auto. repeat eexists.
    + destruct (ms ix) as [|[[n1 a1] ks1] fs] eqn:Em; cbn [depth_of Nat.eqb] in E.
      * injection E as <- <- <-. destruct (run_none _ _ _ _ _ _ _ _ H Hx R) as [H' Es]. exists ids, cur, []. cbn [mstep fst snd fstack]. rewrite <- Em.
        split; [apply Hw, rep_set; auto|]. split; [apply sents_refl; auto|]. split; [reflexivity|]. split; [auto|]. split; [apply depths_same; auto|reflexivity].
      * destruct fs as [|[[n2 a2] ks2] fs]; cbn [length Nat.eqb app Nat.sub] in E; injection E as <- <- <-.
        -- destruct (run_send _ _ _ _ _ _ _ _ _ _ _ H Hx Em R) as (ids' & cur' & r & h & H' & Es & Hh). exists ids', cur', [(ix, r, XE n1 a1 ks1)]. cbn [mstep fst snd fstack].
           split; [eapply rep_L; [|exact H']; intros i t [K|(jx & [K|[]])]; [left; auto|injection K as -> -> ->; right; auto]|].
           split; [exists [(ix, Some r, h)]; split; auto; constructor; [exists h; auto|constructor]|].
           split; [unfold to_ix; cbn; rewrite Nat.eqb_refl; reflexivity|]. split; [intros y [<-|[]]; auto|]. split; [apply (depths_set _ _ _ _ AIdle); auto|reflexivity].
        -- destruct (run_pop _ _ _ _ _ _ _ _ _ _ _ _ _ _ _ H Hx Em R) as (ids' & cur' & H' & Es). exists ids', cur', []. cbn [mstep fst snd fstack].
           split; [auto|]. split; [apply sents_refl; auto|]. split; [reflexivity|]. split; [auto|]. split; [apply (depths_set _ _ _ _ (ABuild (n2, a2, ks2 ++ [XE n1 a1 ks1]) fs)); auto|reflexivity].
  - destruct (ms ix) as [|[[n1 a1] ks1] fs] eqn:Em; cbn [depth_of Nat.eqb] in E; injection E as <- <- <-.
    + destruct (run_none _ _ _ _ _ _ _ _ H Hx R) as [H' Es]. exists ids, cur, []. cbn [mstep fst snd fstack]. rewrite <- Em. destruct c as [st0 ds0].
      split; [apply Hw, rep_set; auto|]. split; [apply sents_refl; auto|]. split; [reflexivity|]. split; [auto|]. split; [apply (depths_same _ _ (mkF st0 ds0) _ st0); auto|reflexivity].
    + destruct (run_text _ _ _ _ _ _ _ _ _ _ _ _ _ H Hx Em R) as (ids' & cur' & H' & Es). exists ids', cur', []. cbn [mstep fst snd fstack]. destruct c as [st0 ds0].
      split; [auto|]. split; [apply sents_refl; auto|]. split; [reflexivity|]. split; [auto|]. split; [|reflexivity].
      destruct Hd as (D1 & D2). split; auto. intros jx Hj. destruct (Nat.eq_dec jx ix) as [->|N]; [rewrite setf_same, (D2 ix Hx), Em; reflexivity|rewrite setf_other by auto; auto].
Qed.

(** The stack while the sinks before [ix] have read the event. *)
Definition ecopies (k : nat) (path : list event) : list event := flat_map (fun e => repeat e k) path.
Definition mid (k ix : nat) (path : list event) (e : event) : list event :=
  match e with
  | EvStart _ _ _ => ecopies k path ++ repeat e ix
  | EvEnd _ _ => ecopies k (removelast path) ++ match rev path with x :: _ => repeat x (k - ix) | [] => [] end
  | EvChars _ => ecopies k path
  end.
Definition next_path (path : list event) (e : event) : list event :=
  match e with EvStart _ _ _ => path ++ [e] | EvEnd _ _ => removelast path | EvChars _ => path end.
Lemma ecopies_snoc k path e : ecopies k (path ++ [e]) = ecopies k path ++ repeat e k.
Proof. unfold ecopies. rewrite flat_map_app. cbn. rewrite app_nil_r. reflexivity. Qed.
Lemma mid_first k path e : (is_end e -> path <> []) -> mid k 0 path e = ecopies k path.
Proof.
  intros He. destruct e as [n a anc|n anc|t]; cbn [mid repeat]; auto; [apply app_nil_r|]. destruct path as [|x l] using rev_ind; [destruct He; auto; repeat eexists|].
  rewrite removelast_last, rev_app_distr, ecopies_snoc, Nat.sub_0_r. reflexivity.
Qed.
Lemma mid_last k path e : (is_end e -> path <> []) -> mid k k path e = ecopies k (next_path path e).
Proof.
  intros He. destruct e as [n a anc|n anc|t]; cbn [mid next_path]; auto; [rewrite ecopies_snoc; auto|]. destruct path as [|x l] using rev_ind; [destruct He; auto; repeat eexists|].
  rewrite rev_app_distr. cbn. rewrite Nat.sub_diag. cbn. rewrite app_nil_r. reflexivity.
Qed.
Lemma mid_step k ix path e : ix < k -> (is_end e -> path <> []) ->
  mid k (S ix) path e = match e with EvStart _ _ _ => mid k ix path e ++ [e] | EvEnd _ _ => removelast (mid k ix path e) | EvChars _ => mid k ix path e end.
Proof.
  intros Hx He. destruct e as [n a anc|n anc|t]; cbn [mid]; auto; [rewrite repeat_snoc, app_assoc; auto|]. destruct path as [|x l] using rev_ind; [destruct He; auto; repeat eexists|].
  rewrite rev_app_distr. cbn [rev app]. replace (k - ix) with (S (k - S ix)) by lia. rewrite repeat_snoc, app_assoc, !removelast_last. reflexivity.
Qed.
Lemma mid_nonempty k ix path e : ix < k -> is_end e -> path <> [] -> mid k ix path e <> [].
Proof.
  intros Hx (n & anc & ->) Hp. destruct path as [|x l] using rev_ind; [congruence|]. cbn [mid]. rewrite rev_app_distr. cbn [rev app]. replace (k - ix) with (S (k - S ix)) by lia. cbn.
  intros K. apply app_eq_nil in K as [_ K]. discriminate.
Qed.

Lemma all_ok k e path : (is_end e -> path <> []) -> forall ss ix ms ids cur L s c l c' x s', ix + length ss = k ->
  rep k ms ids cur L s -> depths_ok k ms c -> fstack c = mid k ix path e -> fctl_all ss ix c e = (l, c', x) -> truns s l s' ->
  exists ms' ids' cur' rs, rep k ms' ids' cur' (with_ L rs) s' /\ sents s s' rs /\
    match x with
    | Some y => rs = [] /\ is_start e /\ exists jx, ix <= jx < k /\ fmatch (nth (jx - ix) ss SMatched) (ecopies k path ++ repeat e (S jx)) = inr y
    | None => depths_ok k ms' c' /\ fstack c' = mid k k path e /\ (forall jx, jx < ix -> ms' jx = ms jx /\ to_ix jx rs = []) /\
        forall jx, ix <= jx < k -> (ms' jx, to_ix jx rs) = mstep (decide (nth (jx - ix) ss SMatched) (mid k jx path e ++ [e])) (ms jx) e
    end.
Proof.
  intros He ss. induction ss as [|st ss IH]; intros ix ms ids cur L s c l c' x s' Hk H Hd Es E R; cbn [fctl_all length] in E, Hk.
  - injection E as <- <- <-. inversion R as [? ? C|]; subst. exists ms, ids, cur, []. split; [eapply rep_L; [apply with_nil|eapply col_rep; eauto]|].
    split; [apply sents_refl, (col_sent _ _ C)|]. split; auto. rewrite Nat.add_0_r in *. split; auto. split; [intros; split; auto|]. intros; lia.
  - assert (Hx : ix < k) by lia. destruct (fctl_one st ix c e) as [[l1 c1] x1] eqn:E1. destruct x1 as [y|].
    + injection E as <- <- <-. pose proof (one_ok _ _ _ _ _ _ _ _ _ _ _ _ _ _ H Hx Hd E1 R) as (H' & Et & K). exists ms, ids, cur, [].
      split; [eapply rep_L; [apply with_nil|auto]|]. split; [apply sents_refl; auto|]. split; auto. destruct K as [[Hs Ef]|[Hs Ef]].
      * split; auto. exists ix. split; [lia|]. rewrite Nat.sub_diag. cbn [nth]. rewrite Es in Ef. destruct Hs as (n & a & anc & ->). cbn [mid] in Ef. rewrite repeat_snoc, app_assoc. exact Ef.
      * exfalso. rewrite Es in Ef. eapply mid_nonempty; eauto.
    + destruct (fctl_all ss (S ix) c1 e) as [[l2 c2] x2] eqn:E2. injection E as <- <- <-. apply truns_split in R as (s1 & R1 & R2).
      pose proof (one_ok _ _ _ _ _ _ _ _ _ _ _ _ _ _ H Hx Hd E1 R1) as (ids1 & cur1 & rs1 & H1 & S1 & T1 & I1 & D1 & F1). rewrite Es in *.
      set (m1 := mstep (decide st (mid k ix path e ++ [e])) (ms ix) e) in *.
      assert (F1' : fstack c1 = mid k (S ix) path e) by (rewrite mid_step by auto; exact F1).
      destruct (IH (S ix) _ _ _ _ _ _ _ _ _ _ ltac:(lia) H1 D1 F1' E2 R2) as (ms' & ids' & cur' & rs2 & H2 & S2 & K).
      exists ms', ids', cur', (rs1 ++ rs2). split; [eapply rep_L; [apply with_app|auto]|]. split; [eapply sents_trans; eauto|].
      assert (O1 : forall jx, jx <> ix -> to_ix jx rs1 = []).
      { intros jx N. clear - I1 N. induction rs1 as [|r rs IHr]; auto. unfold to_ix in *. cbn [filter]. rewrite (I1 r (or_introl eq_refl)).
        apply not_eq_sym, Nat.eqb_neq in N. rewrite N. apply IHr. intros; apply I1; right; auto. }
      destruct x2 as [y|].
      * destruct K as (-> & Hs & jx & Hj & Ef). rewrite app_nil_r. split.
        { assert (G : snd m1 = []) by (unfold m1; destruct Hs as (n & a & anc & ->); destruct (ms ix); reflexivity). rewrite G in T1.
          destruct rs1 as [|r rs1]; auto. exfalso. unfold to_ix in T1. cbn in T1. rewrite (I1 r (or_introl eq_refl)), Nat.eqb_refl in T1. discriminate. }
        split; auto. exists jx. split; [lia|]. replace (jx - ix) with (S (jx - S ix)) by lia. exact Ef.
      * destruct K as (D2 & F2 & O2 & G2). split; auto. split; auto. split.
        -- intros jx Hj. destruct (O2 jx ltac:(lia)) as [A B]. rewrite A, setf_other, to_ix_app, B, O1 by lia. auto.
        -- intros jx Hj. rewrite to_ix_app. destruct (Nat.eq_dec jx ix) as [->|N].
           ++ destruct (O2 ix ltac:(lia)) as [A B]. rewrite A, setf_same, B, app_nil_r, T1, Nat.sub_diag. cbn [nth]. fold m1. destruct m1; reflexivity.
           ++ rewrite (O1 jx N). cbn [app]. rewrite (G2 jx) by lia. rewrite setf_other by auto. replace (jx - ix) with (S (jx - S ix)) by lia. reflexivity.
Qed.
