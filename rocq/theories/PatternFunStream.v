(** Whole documents through a sender with functions in the patterns and any number of patterns. *)
From Verif Require Import PyStr Parser ParserM XTree ParserInv Heap Builder HeapSpec BuilderFacts HeapFacts BuilderMore Path Nodes.
From Verif Require Import Pattern PatternSpec PatternFacts TreeIter TreeIterSpec TreeIterFacts TreeIterMore TreeSinkFacts PatternFun PatternFunSpec PatternFunFacts PatternFunHeap PatternFunRun.

Fixpoint srun (D : list event -> bool) (path : list event) (m : amode) (evs : list event) : list event * amode * list xtree :=
  match evs with
  | [] => (path, m, [])
  | e :: r => let '(m1, o1) := mstep (D (path ++ [e])) m e in let '(p2, m2, o2) := srun D (next_path path e) m1 r in (p2, m2, o1 ++ o2)
  end.
Lemma srun_app D a : forall path m b, srun D path m (a ++ b) =
  let '(p1, m1, o1) := srun D path m a in let '(p2, m2, o2) := srun D p1 m1 b in (p2, m2, o1 ++ o2).
Proof.
  induction a as [|e a IH]; intros path m b; cbn [app srun]; [destruct (srun D path m b) as [[? ?] ?]; reflexivity|].
  destruct (mstep (D (path ++ [e])) m e) as [m1 o1]. rewrite IH. destruct (srun D (next_path path e) m1 a) as [[p2 m2] o2]. destruct (srun D p2 m2 b) as [[p3 m3] o3]. rewrite app_assoc. reflexivity.
Qed.
Lemma srun_build D t : forall path anc n a ks fs, srun D path (ABuild (n, a, ks) fs) (tree_events anc t) = (path, ABuild (n, a, ks ++ [t]) fs, []).
Proof.
  induction t as [n0 a0 ks0 IH|x] using xtree_ind'; intros path anc n a ks fs; [|reflexivity].
  cbn [tree_events srun mstep next_path]. rewrite srun_app.
  assert (G : forall l l0, (forall k, In k l -> In k ks0) -> srun D (path ++ [EvStart n0 a0 anc]) (ABuild (n0, a0, l0) ((n, a, ks) :: fs)) (flat_map (tree_events (anc ++ [n0])) l) =
              (path ++ [EvStart n0 a0 anc], ABuild (n0, a0, l0 ++ l) ((n, a, ks) :: fs), [])).
  { induction l as [|k l IHl]; intros l0 Hl; cbn [flat_map]; [rewrite app_nil_r; reflexivity|]. rewrite srun_app. rewrite Forall_forall in IH. rewrite IH by (apply Hl; left; auto).
    rewrite IHl by (intros; apply Hl; right; auto). rewrite <- app_assoc. reflexivity. }
  rewrite (G ks0 []) by auto. cbn [app srun mstep next_path]. rewrite removelast_last. reflexivity.
Qed.
Lemma over_tail (f : xtree -> list (list nat * xtree)) k : forall ks, map snd (over f (S k) ks) = map snd (over f k ks).
Proof.
  intros ks. revert k. induction ks as [|x ks IH]; intros k; cbn [over]; auto. rewrite !map_app, IH. f_equal. unfold under. rewrite !map_map. reflexivity.
Qed.
Lemma srun_idle D t : forall path anc, srun D path AIdle (tree_events anc t) = (path, AIdle, map snd (ffound D path anc t)).
Proof.
  induction t as [n a ks IH|x] using xtree_ind'; intros path anc; [|reflexivity]. cbn [tree_events srun mstep next_path ffound]. rewrite srun_app.
  destruct (D (path ++ [EvStart n a anc])).
  - assert (G : forall l l0, srun D (path ++ [EvStart n a anc]) (ABuild (n, a, l0) []) (flat_map (tree_events (anc ++ [n])) l) = (path ++ [EvStart n a anc], ABuild (n, a, l0 ++ l) [], [])).
    { induction l as [|k l IHl]; intros l0; cbn [flat_map]; [rewrite app_nil_r; reflexivity|]. rewrite srun_app, srun_build, IHl, <- app_assoc. reflexivity. }
    rewrite (G ks []). cbn [app srun mstep next_path]. rewrite removelast_last. reflexivity.
  - assert (G : forall l, (forall k, In k l -> In k ks) -> srun D (path ++ [EvStart n a anc]) AIdle (flat_map (tree_events (anc ++ [n])) l) =
                (path ++ [EvStart n a anc], AIdle, map snd (over (ffound D (path ++ [EvStart n a anc]) (anc ++ [n])) 0 l))).
    { induction l as [|k l IHl]; intros Hl; cbn [flat_map over]; [reflexivity|]. rewrite srun_app. rewrite Forall_forall in IH. rewrite IH by (apply Hl; left; auto).
      rewrite IHl by (intros; apply Hl; right; auto). rewrite map_app, over_tail. unfold under. rewrite map_map. reflexivity. }
    rewrite G by auto. cbn [srun mstep next_path]. rewrite removelast_last, !app_nil_r. reflexivity.
Qed.

Fixpoint nested (d : nat) (evs : list event) : Prop :=
  match evs with
  | [] => True
  | EvStart _ _ _ :: r => nested (S d) r
  | EvEnd _ _ :: r => match d with O => False | S d => nested d r end
  | EvChars _ :: r => nested d r
  end.
Lemma nested_tree t : forall anc d r, nested d r -> nested d (tree_events anc t ++ r).
Proof.
  induction t as [n a ks IH|x] using xtree_ind'; intros anc d r H; [|exact H]. cbn [tree_events app nested]. rewrite <- app_assoc.
  assert (G : forall l, (forall k, In k l -> In k ks) -> nested (S d) (flat_map (tree_events (anc ++ [n])) l ++ [EvEnd n anc] ++ r)).
  { induction l as [|k l IHl]; intros Hl; cbn [flat_map app nested]; [exact H|]. rewrite <- app_assoc. rewrite Forall_forall in IH. apply IH; [apply Hl; left; auto|].
    apply IHl. intros; apply Hl; right; auto. }
  apply G. auto.
Qed.
Lemma nested_next e r path : nested (length path) (e :: r) -> nested (length (next_path path e)) r /\ (is_end e -> path <> []).
Proof.
  destruct e as [n a anc|n anc|t]; cbn [nested next_path].
  - rewrite app_length, Nat.add_1_r. intros H. split; auto. intros (? & ? & E). discriminate.
  - destruct path as [|x l] using rev_ind; [intros []|]. rewrite app_length, Nat.add_1_r, removelast_last. intros H. split; auto. intros _ K. destruct l; discriminate.
  - intros H. split; auto. intros (? & ? & E). discriminate.
Qed.

(** What decides for sink [ix]. *)
Definition decision (ss : list fst_) (ix : nat) (path : list event) : bool := decide (nth ix ss SMatched) (seen (length ss) ix path).
Lemma seen_snoc k ix path e : seen k ix (path ++ [e]) = ecopies k path ++ repeat e (S ix).
Proof. unfold seen. rewrite removelast_last, rev_app_distr. reflexivity. Qed.
Lemma mstep_decision ss ix path m e : mstep (decide (nth ix ss SMatched) (mid (length ss) ix path e ++ [e])) m e = mstep (decision ss ix (path ++ [e])) m e.
Proof.
  destruct e as [n a anc|n anc|t]; [|destruct m as [|[[? ?] ?] [|[[? ?] ?] ?]]; reflexivity|destruct m as [|[[? ?] ?] ?]; reflexivity].
  unfold decision. rewrite seen_snoc, repeat_snoc, app_assoc. reflexivity.
Qed.

Lemma handle_ok ss c s evs c' s' x : fhandle ss c s evs c' s' x -> forall path ms ids cur L,
  rep (length ss) ms ids cur L s -> depths_ok (length ss) ms c -> fstack c = ecopies (length ss) path -> nested (length path) evs -> Forall is_start path ->
  exists ms' ids' cur' rs, rep (length ss) ms' ids' cur' (with_ L rs) s' /\ sents s s' rs /\
    match x with
    | None => depths_ok (length ss) ms' c' /\ exists path', fstack c' = ecopies (length ss) path' /\
        forall ix, ix < length ss -> srun (decision ss ix) path (ms ix) evs = (path', ms' ix, to_ix ix rs)
    | Some y => (forall ix, ix < length ss -> exists p2 m2 rest, srun (decision ss ix) path (ms ix) evs = (p2, m2, to_ix ix rs ++ rest)) /\
        exists ix p, ix < length ss /\ Forall is_start p /\ p <> [] /\ fmatch (nth ix ss SMatched) (seen (length ss) ix p) = inr y
    end.
Proof.
  set (k := length ss). intros H. induction H as [c s s' C|c s e evs l c1 s1 c' s' x E R H IH|c s e evs l c1 s1 y E R]; intros path ms ids cur L Hr Hd Hs Hn Hp.
  - exists ms, ids, cur, []. split; [eapply rep_L; [apply with_nil|eapply col_rep; eauto]|]. split; [apply sents_refl, (col_sent _ _ C)|]. split; auto. exists path. split; auto.
  - apply nested_next in Hn as [Hn He]. rewrite <- (mid_first k path e He) in Hs.
    destruct (all_ok k e path He ss 0 ms ids cur L s c l c1 None s1 eq_refl Hr Hd Hs E R) as (ms1 & ids1 & cur1 & rs1 & Hr1 & Hs1 & Hd1 & Hf1 & _ & Hm1).
    rewrite mid_last in Hf1 by auto.
    assert (Hp1 : Forall is_start (next_path path e)).
    { destruct e as [n a anc|n anc|t]; cbn; auto; [apply Forall_app; split; auto; constructor; auto; repeat eexists|].
      destruct path as [|z q] using rev_ind; [constructor|]. rewrite removelast_last. apply Forall_app in Hp. apply Hp. }
    destruct (IH (next_path path e) ms1 ids1 cur1 (with_ L rs1) Hr1 Hd1 Hf1 Hn Hp1) as (ms' & ids' & cur' & rs2 & Hr2 & Hs2 & K).
    exists ms', ids', cur', (rs1 ++ rs2). split; [eapply rep_L; [apply with_app|auto]|]. split; [eapply sents_trans; eauto|].
    assert (St : forall ix, ix < k -> mstep (decision ss ix (path ++ [e])) (ms ix) e = (ms1 ix, to_ix ix rs1)).
    { intros ix Hx. rewrite Hm1 by lia. rewrite Nat.sub_0_r. symmetry. apply mstep_decision. }
    destruct x as [y|].
    + destruct K as [K1 K2]. split; auto. intros ix Hx. destruct (K1 ix Hx) as (p2 & m2 & rest & Er). exists p2, m2, rest. cbn [srun]. rewrite (St ix Hx), Er, to_ix_app, <- app_assoc. reflexivity.
    + destruct K as (K1 & path' & K2 & K3). split; auto. exists path'. split; auto. intros ix Hx. cbn [srun]. rewrite (St ix Hx), (K3 ix Hx), to_ix_app. reflexivity.
  - apply nested_next in Hn as [Hn He]. rewrite <- (mid_first k path e He) in Hs.
    destruct (all_ok k e path He ss 0 ms ids cur L s c l c1 (Some y) s1 eq_refl Hr Hd Hs E R) as (ms1 & ids1 & cur1 & rs1 & Hr1 & Hs1 & -> & Hst & jx & Hj & Ef).
    exists ms1, ids1, cur1, []. split; auto. split; auto. split.
    + intros ix Hx. destruct (srun (decision ss ix) path (ms ix) (e :: evs)) as [[p2 m2] o]. exists p2, m2, o. reflexivity.
    + exists jx, (path ++ [e]). split; [lia|]. split; [apply Forall_app; auto|]. split; [destruct path; discriminate|]. rewrite Nat.sub_0_r in Ef. rewrite seen_snoc. exact Ef.
Qed.

(** ** Between documents *)
Definition fready (k : nat) (c : fctl) (s : tstate) : Prop :=
  fstack c = [] /\ depths_ok k (fun _ => AIdle) c /\ allocated (theap s) /\ length (troots s) = k /\ length (tpars s) = k /\ forall ix, ix < k -> nth ix (tpars s) None = None.
Lemma fready_rep k c s : fready k c s -> rep k (fun _ => AIdle) (fun _ => []) (fun _ => None) (fun i t => holds_tree (theap s) i t /\ In i (tkept s)) (new_handler s).
Proof.
  intros (_ & _ & Ha & Hr & Hp & Hn). constructor; cbn; auto. constructor; auto.
  - intros ix Hx. cbn. auto.
  - intros i t ((ids & H & Nd) & _). split; [|split; auto]. destruct (holds_obj _ _ _ _ _ H) as (o & Ho & _). eapply Ha; eauto.
  - intros i t ((ids & H & Nd) & Hi) _. exists ids. split; auto.
Qed.
Lemma len_fprep next ps : length (fprep_all next ps) = length ps.
Proof. revert next. induction ps as [|p ps IH]; intros next; cbn; auto. Qed.
Lemma len_fstates ps : length (fstates ps) = length ps. Proof. apply len_fprep. Qed.

Definition chosen (ps : list (list fstage)) (ix : nat) (path : list event) : bool := decision (fstates ps) ix path.
Lemma one_doc ps c s t c' s' x : fready (length ps) c s -> fhandle (fstates ps) c (new_handler s) (doc_events t) c' s' x ->
  kept_intact s s' /\
  (forall ix, ix < length ps -> exists ts rest, sent_to s s' ix ts /\ map snd (ffound (chosen ps ix) [] [] t) = ts ++ rest /\ (x = None -> rest = [])) /\
  match x with
  | None => fready (length ps) c' s'
  | Some y => exists ix p, ix < length ps /\ Forall is_start p /\ p <> [] /\ fmatch (nth ix (fstates ps) SMatched) (seen (length ps) ix p) = inr y
  end.
Proof.
  intros Hr H. pose proof (fready_rep _ _ _ Hr) as Rp. destruct Hr as (E1 & E2 & Ha & _). rewrite <- (len_fstates ps) in Rp, E2.
  destruct (handle_ok _ _ _ _ _ _ _ H [] _ _ _ _ Rp E2 E1) as (ms' & ids' & cur' & rs & R' & (l & El & Fl) & K); [|constructor|].
  { unfold doc_events. rewrite <- (app_nil_r (tree_events [] t)). apply nested_tree. exact I. }
  cbn [tsent new_handler] in El. rewrite (len_fstates ps) in *. split; [|split].
  - pose proof (hi_kept _ _ _ _ _ _ _ _ _ (rp_h _ _ _ _ _ _ R')) as Hk. split.
    + intros i u Hi Hi' Hu. destruct (Hk i u) as (ids & G1 & G2 & _); auto; [left; split; auto|exists ids; auto].
    + intros ix i h u Hin Hni Hi Hu. rewrite El in Hin. apply in_app_or in Hin as [Hin|Hin]; [contradiction|].
      assert (Hx : exists r, In r rs /\ logged (ix, Some i, h) r).
      { clear - Hin Fl. induction Fl as [|y r l rs Hl F IH]; [destruct Hin|]. destruct Hin as [->|Hin]; [exists r; split; [left|]; auto|]. destruct (IH Hin) as (r' & G1 & G2). exists r'. split; [right|]; auto. }
      destruct Hx as ([[jx j] u'] & Hr & h' & Eq & Hh). cbn in Eq, Hh. injection Eq as -> -> ->. rewrite (holds_tree_det _ _ _ _ Hh Hu) in *.
      destruct (Hk j u') as (ids & G1 & G2 & _); auto; [right; exists jx; auto|exists ids; auto].
  - intros ix Hx. exists (to_ix ix rs).
    assert (Hsent : sent_to s s' ix (to_ix ix rs)).
    { exists l. split; auto. clear - Fl. induction Fl as [|y [[jx j] u] l rs (h & -> & Hh) F IH]; [constructor|]. unfold to_ix, to_sink in *. cbn [filter fst snd] in *.
      destruct (Nat.eqb_spec jx ix) as [->|N]; auto. cbn. constructor; auto. exists j, h. auto. }
    destruct x as [y|].
    + destruct K as (K & _). destruct (K ix Hx) as (p2 & m2 & rest & Er). exists rest. split; auto. unfold doc_events in Er. rewrite srun_idle in Er. injection Er as _ _ Er. split; auto. discriminate.
    + destruct K as (_ & p' & _ & K). specialize (K ix Hx). exists []. split; auto. unfold doc_events in K. rewrite srun_idle in K. injection K as _ _ K. rewrite app_nil_r. auto.
  - destruct x as [y|]; [apply K|]. destruct K as (D & p' & Ef & K).
    assert (Hms : forall ix, ix < length ps -> ms' ix = AIdle).
    { intros ix Hx. specialize (K ix Hx). unfold doc_events in K. rewrite srun_idle in K. injection K as _ K _. auto. }
    assert (Ep : ecopies (length ps) p' = []).
    { destruct ps as [|p ps]; [clear; induction p'; auto|]. specialize (K 0 ltac:(cbn; lia)). unfold doc_events in K. rewrite srun_idle in K. injection K as <- _ _. reflexivity. }
    pose proof (rp_h _ _ _ _ _ _ R') as Rh. split; [congruence|]. split; [split; [apply D|intros jx Hj; rewrite (proj2 D jx Hj), Hms; auto]|].
    split; [apply (hi_alloc _ _ _ _ _ _ _ _ _ Rh)|]. split; [apply (hi_len _ _ _ _ _ _ _ _ _ Rh)|]. split; [apply (rp_len _ _ _ _ _ _ R')|].
    intros ix Hx. rewrite (rp_cur _ _ _ _ _ _ R' ix Hx). eapply cur_idle; eauto.
Qed.
Lemma nth_repeat_same {A} (d : A) k i : nth i (repeat d k) d = d.
Proof. revert i. induction k as [|k IH]; intros [|i]; cbn; auto. Qed.
Lemma fserved_ready ps c s : fserved ps c s -> fready (length ps) c s.
Proof.
  intros H. induction H as [h Ha|c s t c' s' H IH He Hh].
  - split; auto. split; [split; cbn; [apply repeat_length|intros; rewrite nth_repeat_same; auto]|]. split; auto. cbn. rewrite !repeat_length. split; auto. split; auto. intros. apply nth_repeat_same.
  - apply (one_doc _ _ _ _ _ _ _ IH Hh).
Qed.

(** ** The patterns of several sinks run together *)
Lemma fprep_from_app a b next : fprep_from next (a ++ b) = fprep_from (fprep_from next b) a.
Proof. unfold fprep_from. apply fold_right_app. Qed.
Lemma fstates_nth ps : forall next ix, ix < length ps -> nth ix (fprep_all next ps) SMatched = fprep_from next (joined ps ix).
Proof.
  unfold joined. induction ps as [|p ps IH]; intros next ix H; [cbn in H; lia|]. cbn [fprep_all]. destruct ix as [|ix].
  - cbn. rewrite app_nil_r. reflexivity.
  - cbn [nth]. rewrite IH by (cbn in H; lia). change (firstn (S (S ix)) (p :: ps)) with (p :: firstn (S ix) ps). cbn [rev]. rewrite concat_app. cbn [concat]. rewrite app_nil_r, fprep_from_app. reflexivity.
Qed.
Lemma chosen_joined ps ix path : ix < length ps -> chosen ps ix path = decide (fprep (joined ps ix)) (seen (length ps) ix path).
Proof. intros H. unfold chosen, decision, fstates. rewrite fstates_nth by auto. rewrite len_fprep. reflexivity. Qed.
Lemma seen_starts k ix path : Forall is_start path -> Forall is_start (seen k ix path).
Proof.
  intros F. unfold seen. assert (G : forall e n, is_start e -> Forall is_start (repeat e n)) by (intros e n He; apply Forall_forall; intros x Hx; apply repeat_spec in Hx as ->; auto).
  apply Forall_app. split.
  - destruct path as [|z q] using rev_ind; [constructor|]. rewrite removelast_last. apply Forall_app in F as [F _]. clear - F G. induction F; cbn; [constructor|]. apply Forall_app; auto.
  - destruct path as [|z q] using rev_ind; [constructor|]. rewrite rev_app_distr. cbn [rev app]. apply Forall_app in F as [_ F]. apply G. inversion F; auto.
Qed.
Lemma chosen_sound ps ix path : ix < length ps -> Forall is_start path -> chosen ps ix path = true -> reached ps ix path.
Proof.
  intros Hx F H. rewrite chosen_joined in H by auto. unfold decide in H. destruct (fmatch (fprep (joined ps ix)) (seen (length ps) ix path)) as [b|y] eqn:E; [subst b|discriminate].
  destruct (fmatch_sound _ _ (seen_starts (length ps) ix path F) E) as (x & y & E' & M). exists x, y. auto.
Qed.
Definition exact_pattern (q : list fstage) : Prop := forall es, Forall is_start es -> exists b, fmatch (fprep q) es = inl b /\ (b = true <-> begins q es).
Lemma chosen_exact ps ix path : ix < length ps -> exact_pattern (joined ps ix) -> Forall is_start path -> (chosen ps ix path = true <-> reached ps ix path).
Proof.
  intros Hx He F. rewrite chosen_joined by auto. unfold decide. destruct (He _ (seen_starts (length ps) ix path F)) as (b & -> & Ib). rewrite Ib. unfold reached, begins. split; intros (x & y & K); exists x, y; auto.
Qed.
Lemma starts_start t : forall anc a, Forall is_start (starts anc t a).
Proof.
  induction t as [n a0 ks IH|s] using xtree_ind'; intros anc a; [|destruct a; constructor].
  destruct a as [|i a]; cbn [starts]; (constructor; [repeat eexists|]); [constructor|]. destruct (nth_error ks i) as [k|] eqn:E; [|constructor]. rewrite Forall_forall in IH. apply IH. eapply nth_error_In; eauto.
Qed.
