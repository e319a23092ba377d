(** Facts about documents that break off. *)
From Verif Require Import PyStr Parser XTree Grammar ParserSpec ParserInv ParserMore ParserVal TreeUtil Expat ExpatSpec ExpatFacts.
From Verif Require Import Heap Builder HeapSpec BuilderFacts HeapFacts BuilderMore CutSpec.

Definition fcut (ks' ks : list xtree) : Prop :=
  (exists k2, ks = ks' ++ k2) \/ exists k1 c' c k2, ks = k1 ++ c :: k2 /\ ks' = k1 ++ [c'] /\ cut c' c.
Lemma cut_inv t u : cut t u -> exists n a ks' ks, t = XE n a ks' /\ u = XE n a ks /\ fcut ks' ks.
Proof. intros H. destruct H as [n a k1 k2|n a k1 c' c k2 H]; do 4 eexists; (split; [reflexivity|]; split; [reflexivity|]); [left|right]; eauto 10. Qed.
Lemma fcut_cut n a ks' ks : fcut ks' ks -> cut (XE n a ks') (XE n a ks).
Proof. intros [(k2 & ->)|(k1 & c' & c & k2 & -> & -> & H)]; [apply cut_here|apply cut_below; exact H]. Qed.
Lemma fcut_cons k ks' ks : fcut ks' ks -> fcut (k :: ks') (k :: ks).
Proof. intros [(k2 & ->)|(k1 & c' & c & k2 & -> & -> & H)]; [left; exists k2; reflexivity|right; exists (k :: k1), c', c, k2; auto]. Qed.
Lemma fcut_nil ks : fcut [] ks.
Proof. left. exists ks. reflexivity. Qed.
Lemma cut_refl n a ks : cut (XE n a ks) (XE n a ks).
Proof. apply fcut_cut. left. exists []. rewrite app_nil_r. reflexivity. Qed.

(** ** Beginnings of the events of a tree *)
Definition begins (anc : list str) (u : xtree) : Prop := forall evs rest, tree_events anc u = evs ++ rest -> evs <> [] ->
  exists t ends, tree_events anc t = evs ++ ends /\ Forall is_end ends /\ (t = u \/ cut t u).
Lemma forest_begins anc ks : Forall (begins anc) ks -> forall evs rest, forest_events anc ks = evs ++ rest ->
  exists ks' ends, forest_events anc ks' = evs ++ ends /\ Forall is_end ends /\ fcut ks' ks.
Proof.
  induction 1 as [|k ks Hk _ IH]; intros evs rest E.
  - cbn in E. symmetry in E. apply app_eq_nil in E as [-> ->]. exists [], []. split; [reflexivity|]. split; [constructor|apply fcut_nil].
  - cbn [forest_events flat_map] in E. change (flat_map (tree_events anc) ks) with (forest_events anc ks) in E.
    destruct evs as [|e evs]; [exists [], []; split; [reflexivity|]; split; [constructor|apply fcut_nil]|].
    destruct (Nat.le_gt_cases (length (e :: evs)) (length (tree_events anc k))) as [L|L].
    + pose proof (f_equal (firstn (length (e :: evs))) E) as E1. rewrite firstn_app, firstn_app, firstn_all in E1.
      replace (length (e :: evs) - length (tree_events anc k)) with 0 in E1 by lia. rewrite Nat.sub_diag in E1. cbn [firstn] in E1. rewrite !app_nil_r in E1.
      destruct (Hk (e :: evs) (skipn (length (e :: evs)) (tree_events anc k))) as (t & ends & H1 & H2 & H3); [|discriminate|].
      { rewrite <- E1 at 1. symmetry. apply firstn_skipn. }
      exists [t], ends. split; [cbn [forest_events flat_map]; rewrite app_nil_r; exact H1|]. split; [exact H2|].
      destruct H3 as [->|H3]; [left; exists ks; reflexivity|right; exists [], t, k, ks; auto].
    + pose proof (f_equal (firstn (length (tree_events anc k))) E) as E1. rewrite firstn_app, firstn_app, firstn_all, Nat.sub_diag in E1.
      replace (length (tree_events anc k) - length (e :: evs)) with 0 in E1 by lia. cbn [firstn] in E1. rewrite !app_nil_r in E1.
      rewrite <- (firstn_skipn (length (tree_events anc k)) (e :: evs)), <- E1, <- app_assoc in E. apply app_inv_head in E.
      destruct (IH _ _ E) as (ks' & ends & H1 & H2 & H3). exists (k :: ks'), ends. split; [|split; [exact H2|apply fcut_cons, H3]].
      cbn [forest_events flat_map]. change (flat_map (tree_events anc) ks') with (forest_events anc ks'). rewrite H1, app_assoc. f_equal.
      rewrite E1 at 1. apply firstn_skipn.
Qed.
Lemma tree_begins u : forall anc, begins anc u.
Proof.
  induction u as [n a ks IH|s] using xtree_ind'; intros anc evs rest E Hne.
  - destruct evs as [|e evs]; [congruence|]. cbn [tree_events] in E. injection E as <- E. change (flat_map (tree_events (anc ++ [n])) ks) with (forest_events (anc ++ [n]) ks) in E.
    destruct rest as [|r rest] using rev_ind.
    + rewrite app_nil_r in E. exists (XE n a ks), []. rewrite app_nil_r. split; [cbn [tree_events]; f_equal; exact E|]. split; [constructor|left; reflexivity].
    + clear IHrest. rewrite app_assoc in E. apply app_inj_tail in E as [E _].
      destruct (forest_begins (anc ++ [n]) ks) with (evs := evs) (rest := rest) as (ks' & ends & H1 & H2 & H3); [|exact E|].
      { eapply Forall_impl; [|exact IH]. intros k Hk. apply Hk. }
      exists (XE n a ks'), (ends ++ [EvEnd n anc]). split; [|split; [apply Forall_app; split; [exact H2|constructor; [do 2 eexists; reflexivity|constructor]]|right; apply fcut_cut, H3]].
      cbn [tree_events app]. f_equal. change (flat_map (tree_events (anc ++ [n])) ks') with (forest_events (anc ++ [n]) ks'). rewrite H1, <- app_assoc. reflexivity.
  - destruct evs as [|e evs]; [congruence|]. cbn [tree_events] in E. injection E as <- E. symmetry in E. apply app_eq_nil in E as [-> ->].
    exists (XT s), []. split; [reflexivity|]. split; [constructor|left; reflexivity].
Qed.
(** The tree of the events so far is a beginning of the tree. *)
Theorem partial_cut n a ks evs rest : doc_events (XE n a ks) = evs ++ rest -> evs <> [] -> exists t, partial_tree evs t /\ cut t (XE n a ks).
Proof.
  intros E Hne. destruct (tree_begins (XE n a ks) [] evs rest E Hne) as (t & ends & H1 & H2 & H3). exists t.
  assert (C : cut t (XE n a ks)) by (destruct H3 as [->|H3]; [apply cut_refl|exact H3]). split; [|exact C].
  destruct (cut_inv _ _ C) as (n' & a' & k1 & k2 & -> & _). split; [eauto|]. exists ends. auto.
Qed.

(** ** The tree builders *)
Theorem micro_cut (p f : str) u : lenient_doc (p ++ f) u -> ~ blank f ->
  (forall s, exists s' r, tree_parse s p s' r) /\
  (forall s s' r, tree_parse s p s' r -> (r = None /\ fst (feed [p]) = []) \/ exists i t, r = Some i /\ holds_tree (bheap s') i t /\ cut t u).
Proof.
  intros H Hb. destruct (truncated_suspends p f u H Hb) as (evs & g & later & Hf & _ & E). split.
  - intros s. eapply tree_parse_exists; eauto.
  - intros s s' r Hp. destruct (tree_parse_feed _ _ _ _ _ _ Hf Hp) as [Hr ->]. destruct evs as [|e evs].
    + left. apply run_nothing in Hr. split; [exact Hr|rewrite Hf; reflexivity].
    + right. destruct (BuilderMore.lenient_doc_elem _ _ H) as (n & a & ks & ->). destruct (partial_cut _ _ _ _ _ E) as (t & Ht & Hc); [discriminate|].
      destruct (build_partial (reset s) _ _ _ eq_refl eq_refl Ht Hr) as (i & A1 & _ & A3). eauto.
Qed.
Lemma run_nothing_xml h s r : xml_tree_parse (new_builder h) [] s r -> r = None.
Proof. intros H. inversion H; subst. cbn in *. match goal with R : run_events _ [] _ |- _ => apply run_nothing in R; exact R end. Qed.
Theorem xml_cut cs1 cs2 u h s r : report (cs1 ++ cs2) [u] -> (exists n a ks, u = XE n a ks) -> xml_tree_parse (new_builder h) (fst (callbacks [] cs1)) s r ->
  snd (callbacks [] cs1) <> None /\
  ((r = None /\ fst (callbacks [] cs1) = []) \/ exists i t, r = Some i /\ holds_tree (bheap s) i t /\ cut t u).
Proof.
  intros H (n & a & ks & ->) P. destruct (report_prefix cs1 cs2 n a ks H) as (evs & stk & rest & E1 & E2 & _). rewrite E1 in P |- *. cbn [fst snd] in P |- *.
  split; [discriminate|]. destruct evs as [|e evs].
  - left. split; [eapply run_nothing_xml; exact P|reflexivity].
  - right. destruct (partial_cut _ _ _ _ _ E2) as (t & Ht & Hc); [discriminate|]. inversion P as [x1 x2 x3 Hr]; subst.
    destruct (build_partial (mkB h None None None None) _ _ _ eq_refl eq_refl Ht Hr) as (i & A1 & _ & A3). eauto.
Qed.

(** ** Every beginning occurs *)
Lemma report_split cs ks : report cs ks -> forall ks', fcut ks' ks -> exists cs1 cs2, cs = cs1 ++ cs2 /\
  forall stk, exists evs stk' ends, callbacks stk cs1 = (evs, Some stk') /\ forest_events stk ks' = evs ++ ends /\ Forall is_end ends.
Proof.
  assert (Z : forall cs0 : list cb, exists cs1 cs2, cs0 = cs1 ++ cs2 /\
    forall stk, exists evs stk' ends, callbacks stk cs1 = (evs, Some stk') /\ forest_events stk [] = evs ++ ends /\ Forall is_end ends).
  { intros cs0. exists [], cs0. split; [reflexivity|]. intros stk. exists [], stk, []. repeat split. constructor. }
  induction 1 as [|cs ks H IH|s cs ks H IH|q ats d cs0 ks0 cs ks Hq Ha Hd H0 IH0 H IH]; intros ks' F.
  - destruct F as [(k2 & E)|(k1 & c' & c & k2 & E & _)]; [|destruct k1; discriminate]. symmetry in E. apply app_eq_nil in E as [-> ->]. apply Z.
  - destruct (IH ks' F) as (cs1 & cs2 & -> & K). exists (CbNamespace :: cs1), cs2. split; [reflexivity|]. intros stk. destruct (K stk) as (evs & stk' & ends & K1 & K2 & K3).
    exists evs, stk', ends. cbn [callbacks callback]. rewrite K1. auto.
  - destruct ks' as [|k ks']; [apply Z|].
    assert (F' : k = XT s /\ fcut ks' ks).
    { destruct F as [(k2 & E)|([|x k1] & c' & c & k2 & E & E' & C)].
      - injection E as -> ->. split; [reflexivity|left; eauto].
      - injection E as <- <-. inversion C.
      - injection E as <- ->. injection E' as -> ->. split; [reflexivity|right; eauto 10]. }
    destruct F' as [-> F']. destruct (IH ks' F') as (cs1 & cs2 & -> & K). exists (CbChars s :: cs1), cs2. split; [reflexivity|].
    intros stk. destruct (K stk) as (evs & stk' & ends & K1 & K2 & K3). exists (EvChars s :: evs), stk', ends. cbn [callbacks callback]. rewrite K1.
    split; [reflexivity|]. split; [|exact K3]. cbn [forest_events flat_map tree_events app]. f_equal. exact K2.
  - destruct ks' as [|k ks']; [apply Z|].
    assert (F' : (k = XE (snd q) d ks0 /\ fcut ks' ks) \/ (ks' = [] /\ exists kc, k = XE (snd q) d kc /\ fcut kc ks0)).
    { destruct F as [(k2 & E)|([|x k1] & c' & c & k2 & E & E' & C)].
      - injection E as -> ->. left. split; [reflexivity|left; eauto].
      - injection E as <- <-. injection E' as -> ->. right. split; [reflexivity|]. destruct (cut_inv _ _ C) as (n & a & kc & kk & -> & E2 & F). injection E2 as <- <- <-. eauto.
      - injection E as <- ->. injection E' as -> ->. left. split; [reflexivity|right; eauto 10]. }
    destruct F' as [[-> F']|(-> & kc & -> & F')].
    + destruct (IH ks' F') as (cs1 & cs2 & -> & K). exists (CbStart (expanded q) (reported ats) :: cs0 ++ CbEnd (expanded q) :: cs1), cs2.
      split; [cbn [app]; f_equal; rewrite <- app_assoc; reflexivity|]. intros stk. destruct (K stk) as (evs & stk' & ends & K1 & K2 & K3).
      assert (R : report (CbStart (expanded q) (reported ats) :: cs0 ++ CbEnd (expanded q) :: []) [XE (snd q) d ks0]) by (apply rp_elem; auto; constructor).
      pose proof (report_events _ _ R stk) as E. exists (forest_events stk [XE (snd q) d ks0] ++ evs), stk', ends.
      replace (CbStart (expanded q) (reported ats) :: cs0 ++ CbEnd (expanded q) :: cs1) with ((CbStart (expanded q) (reported ats) :: cs0 ++ [CbEnd (expanded q)]) ++ cs1) by (cbn [app]; rewrite <- app_assoc; reflexivity).
      rewrite callbacks_app, E, K1. split; [reflexivity|]. split; [|exact K3]. cbn [forest_events flat_map]. rewrite app_nil_r, <- app_assoc. f_equal. exact K2.
    + destruct (IH0 kc F') as (cs1 & cs2 & -> & K). exists (CbStart (expanded q) (reported ats) :: cs1), (cs2 ++ CbEnd (expanded q) :: cs).
      split; [cbn [app]; f_equal; rewrite <- app_assoc; reflexivity|]. intros stk. destruct (K (stk ++ [snd q])) as (evs & stk' & ends & K1 & K2 & K3).
      exists (EvStart (snd q) d stk :: evs), stk', (ends ++ [EvEnd (snd q) stk]).
      change (CbStart (expanded q) (reported ats) :: cs1) with ([CbStart (expanded q) (reported ats)] ++ cs1). rewrite callbacks_app. cbn [callbacks].
      rewrite (start_event q ats d stk Hq Ha Hd), K1. split; [reflexivity|]. split; [|apply Forall_app; split; [exact K3|constructor; [do 2 eexists; reflexivity|constructor]]].
      cbn [forest_events flat_map tree_events app]. rewrite app_nil_r. f_equal. change (flat_map (tree_events (stk ++ [snd q])) kc) with (forest_events (stk ++ [snd q]) kc). rewrite K2, <- app_assoc. reflexivity.
Qed.
Theorem xml_every_cut cs u t h : report cs [u] -> cut t u -> exists cs1 cs2, cs = cs1 ++ cs2 /\ fst (callbacks [] cs1) <> [] /\
  forall s r, xml_tree_parse (new_builder h) (fst (callbacks [] cs1)) s r -> exists i, r = Some i /\ holds_tree (bheap s) i t.
Proof.
  intros H C. destruct (report_split _ _ H [t]) as (cs1 & cs2 & -> & K); [right; exists [], t, u, []; auto|]. exists cs1, cs2. split; [reflexivity|].
  destruct (K []) as (evs & stk' & ends & K1 & K2 & K3). rewrite K1. cbn [fst]. destruct (cut_inv _ _ C) as (n & a & k1 & k2 & -> & -> & _).
  cbn [forest_events flat_map] in K2. rewrite app_nil_r in K2.
  assert (Hne : evs <> []) by (intros ->; cbn in K2; subst ends; inversion K3 as [|? ? (m & b & D) _]; discriminate). split; [exact Hne|].
  intros s r P. inversion P as [x1 x2 x3 Hr]; subst.
  destruct (build_partial (mkB h None None None None) evs (XE n a k1) s eq_refl eq_refl) as (i & A1 & _ & A3); [|exact Hr|eauto].
  split; [eauto|]. exists ends. auto.
Qed.
