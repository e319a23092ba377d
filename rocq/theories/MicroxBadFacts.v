(** Proofs about microx with sources that are not well-formed. *)
From Coq Require Import Sorting.Sorted.
From Verif Require Import PyStr Parser XTree ParserSpec Heap HeapSpec Builder BuilderFacts BuilderMore Expat ExpatSpec ExpatFacts CutSpec CutFacts Path Pattern PatternSpec PatternFacts TreeUtil TreeSpec.
From Verif Require Import TreeIter TreeIterSpec TreeIterFacts TreeIterMore XmlIterSpec XmlIterFacts.
From Verif Require Import XPath XPathSpec XGram XLex XQuery XQueryFacts Microx MicroxSpec MicroxFacts MicroxMain MicroxMainSpec MicroxMainFacts MicroxPart MicroxBad MicroxBadSpec.

Section Sources.
  Variable go : xtree -> list str * fin.
  Lemma sources_fine srcs : forall s ls e, read_sources go s (map fine srcs) (ls, e) <-> exists f, e = Ends f /\ print_sources go s srcs (ls, f).
  Proof.
    induction srcs as [|cs srcs IH]; intros s ls e; cbn [map]; split.
    - intros H. inversion H; subst. exists Done. split; [reflexivity|constructor].
    - intros (f & -> & H). inversion H; subst. constructor.
    - intros H. inversion H as [|s0 cs0 srcs0 evs stk s' i t l1 l2 f E P T G R|s0 cs0 srcs0 evs stk s' i t l1 f E P T G N|]; subst.
      + apply IH in R as (f' & -> & R). exists f'. split; [reflexivity|]. eapply so_next; eassumption.
      + exists f. split; [reflexivity|]. eapply so_stop; eassumption.
    - intros (f & -> & H). inversion H as [|s0 cs0 srcs0 evs stk s' i t l1 l2 f' E P T G R|s0 cs0 srcs0 evs stk s' i t l1 f' E P T G N]; subst.
      + eapply rs_next; try eassumption. apply IH. eauto.
      + eapply rs_stop; eassumption.
  Qed.
  Lemma sources_then good bad more : reads_well bad -> forall s o, read_sources go s (map fine good ++ (bad, true) :: more) o <-> exists o', print_sources go s good o' /\ o = then_error o'.
  Proof.
    intros (evs & stk & W). induction good as [|cs good IH]; intros s o; cbn [map app]; split.
    - intros H. inversion H; subst. exists ([], Done). split; [constructor|reflexivity].
    - intros (o' & H & ->). inversion H; subst. cbn. eapply rs_bad; exact W.
    - intros H. inversion H as [|s0 cs0 srcs0 evs0 stk0 s' i t l1 l2 f E P T G R|s0 cs0 srcs0 evs0 stk0 s' i t l1 f E P T G N|]; subst.
      + apply IH in R as ([l2' f'] & R & X). injection X as -> ->. exists (l1 ++ l2', f'). split; [eapply so_next; eassumption|reflexivity].
      + exists (l1, f). split; [eapply so_stop; eassumption|]. unfold then_error. cbn. destruct f; congruence.
    - intros (o' & H & ->). inversion H as [|s0 cs0 srcs0 evs0 stk0 s' i t l1 l2 f' E P T G R|s0 cs0 srcs0 evs0 stk0 s' i t l1 f' E P T G N]; subst.
      + unfold then_error. cbn [fst snd]. eapply rs_next; try eassumption. apply IH. exists (l2, f'). split; [exact R|reflexivity].
      + unfold then_error. cbn [fst snd]. destruct f'; [congruence|eapply rs_stop; eassumption|eapply rs_stop; eassumption].
  Qed.
  Lemma parts_fine p srcs : forall ls e, read_parts go p (map fine srcs) (ls, e) <-> exists f, e = Ends f /\ print_parts go p srcs (ls, f).
  Proof.
    induction srcs as [|cs srcs IH]; intros ls e; cbn [map]; split.
    - intros H. inversion H; subst. exists Done. split; [reflexivity|constructor].
    - intros (f & -> & H). inversion H; subst. constructor.
    - intros H. inversion H as [|h cs0 srcs0 evs stk s' ts l1 l2 f E A T S G R|h cs0 b srcs0 evs stk s' x ts l1 f E A T S G N|h cs0 b srcs0 evs stk s' x ts l1 E A T S G|]; subst.
      + apply IH in R as (f' & -> & R). exists f'. split; [reflexivity|]. eapply pa_next; eassumption.
      + exists f. split; [reflexivity|]. eapply pa_stop; eassumption.
      + eexists. split; [reflexivity|]. eapply pa_type; eassumption.
    - intros (f & -> & H). inversion H as [|h cs0 srcs0 evs stk s' ts l1 l2 f' E A T S G R|h cs0 srcs0 evs stk s' x ts l1 f' E A T S G N|h cs0 srcs0 evs stk s' x ts l1 E A T S G]; subst.
      + eapply rq_next; try eassumption. apply IH. eauto.
      + eapply rq_stop; eassumption.
      + eapply rq_type; eassumption.
  Qed.
  (** [ts]: what the sink gets of the source that is rejected. *)
  Lemma parts_then p good bad evs stk ts more : callbacks [] bad = (evs, Some stk) ->
    (forall h s' x, allocated h -> thandle (stateses [p]) (new_handler (new_sender h [p])) evs s' x -> x = None /\ sent_since (new_sender h [p]) s' 0 ts) ->
    forall o, read_parts go p (map fine good ++ (bad, true) :: more) o <->
      (exists o', print_parts go p good o' /\ snd o' <> Done /\ o = (fst o', Ends (snd o'))) \/
      (exists ls o', print_parts go p good (ls, Done) /\ in_turn go ts o' /\ o = then_error (ls ++ fst o', snd o')).
  Proof.
    intros W K. induction good as [|cs good IH]; intros o; cbn [map app]; split.
    - intros H. right. inversion H as [| |h cs0 b srcs0 evs0 stk0 s' x ts0 l1 f E A T S G N|h cs0 b srcs0 evs0 stk0 s' x ts0 l1 E A T S G|h cs0 srcs0 evs0 stk0 s' ts0 l1 E A T S G]; subst;
        rewrite W in E; injection E as <- <-; destruct (K _ _ _ A T) as (X & S'); try discriminate; rewrite (sent_det _ _ _ _ _ S S') in G; apply each_turn in G.
      + exists [], (l1, f). split; [constructor|]. split; [exact G|]. unfold then_error. cbn. destruct f; congruence.
      + exists [], (l1, Done). split; [constructor|]. split; [exact G|reflexivity].
    - assert (A : allocated empty_heap) by (intros j o0 Hj; discriminate).
      destruct (thandle_exists (stateses [p]) evs (new_handler (new_sender empty_heap [p]))) as (s' & x & T). destruct (K _ _ _ A T) as (-> & S').
      intros [(o' & H & N & ->)|(ls & o' & H & G & ->)]; inversion H; subst; [cbn in N; congruence|]. destruct o' as [l1 f]. apply each_turn in G. unfold then_error. cbn [app fst snd].
      destruct f; [eapply rq_bad; eassumption|eapply rq_stop; try eassumption; discriminate|eapply rq_stop; try eassumption; discriminate].
    - intros H. inversion H as [|h cs0 srcs0 evs0 stk0 s' ts0 l1 l2 f E A T S G R|h cs0 b srcs0 evs0 stk0 s' x ts0 l1 f E A T S G N|h cs0 b srcs0 evs0 stk0 s' x ts0 l1 E A T S G|]; subst.
      + apply IH in R as [([l2' f'] & R & N & X)|(l2' & o' & R & Q & X)].
        * injection X as -> ->. left. exists (l1 ++ l2', f'). split; [eapply pa_next; eassumption|]. split; [exact N|reflexivity].
        * injection X as -> ->. right. exists (l1 ++ l2'), o'. split; [eapply pa_next; eassumption|]. split; [exact Q|]. unfold then_error. cbn [fst snd]. now rewrite app_assoc.
      + left. exists (l1, f). split; [eapply pa_stop; eassumption|]. split; [exact N|reflexivity].
      + left. eexists (l1, _). split; [eapply pa_type; eassumption|]. split; [discriminate|reflexivity].
    - intros [([l1 f1] & H & N & ->)|(ls & o' & H & Q & ->)].
      + cbn [fst snd] in *. inversion H as [|h cs0 srcs0 evs0 stk0 s' ts0 l2 l3 f' E A T S G R|h cs0 srcs0 evs0 stk0 s' x ts0 l2 f' E A T S G N'|h cs0 srcs0 evs0 stk0 s' x ts0 l2 E A T S G]; subst.
        * eapply rq_next; try eassumption. apply IH. left. exists (l3, f1). auto.
        * eapply rq_stop; eassumption.
        * eapply rq_type; eassumption.
      + inversion H as [|h cs0 srcs0 evs0 stk0 s' ts0 l2 l3 f' E A T S G R|h cs0 srcs0 evs0 stk0 s' x ts0 l2 f' E A T S G N'|]; subst; [|congruence].
        unfold then_error. cbn [fst snd]. rewrite <- app_assoc. eapply rq_next; try eassumption. apply IH. right. exists l3, o'. split; [exact R|]. split; [exact Q|reflexivity].
  Qed.
End Sources.

(** ** What a sender has sent when the events break off *)
Lemma prefix_complete p u evs rest stk m out : p <> [] -> ~ ends_deep p -> doc_events u = evs ++ rest -> arun (prep p) [] AIdle evs = Some (stk, m, out) ->
  exists l l', found (hits (prep p)) [] u = l ++ l' /\ out = map snd l /\ (forall a v, In (a, v) l -> complete_in u evs a v) /\ (forall a v, In (a, v) l' -> ~ complete_in u evs a v).
Proof.
  intros Hp He E R. assert (Hf : forall names, fails (prep p) names = false) by (intros; apply fails_never; auto). pose proof (prep_not_matched p Hp) as Hm.
  set (fd := found (hits (prep p)) [] u).
  pose proof (arun_idle (prep p) u Hf Hm [] (nil_hits _)) as All. fold (doc_events u) in All. fold fd in All. rewrite E, arun_app, R in All.
  destruct (arun (prep p) stk m rest) as [[[s2 m2] o2]|] eqn:R2; [|discriminate]. injection All as _ _ Ho.
  assert (Hl : length out + length o2 = length fd) by (rewrite <- app_length, Ho, map_length; reflexivity).
  exists (firstn (length out) fd), (skipn (length out) fd). split; [symmetry; apply firstn_skipn|].
  assert (Eo : out = map snd (firstn (length out) fd)).
  { rewrite <- firstn_map. change (map snd fd) with (map (@snd addr xtree) fd). rewrite <- Ho. rewrite firstn_app, firstn_all, Nat.sub_diag. cbn. now rewrite app_nil_r. }
  split; [exact Eo|].
  (* the element number [length l1] *)
  assert (K : forall l1 a v l2, fd = l1 ++ (a, v) :: l2 -> (complete_in u evs a v /\ S (length l1) <= length out) \/ (~ complete_in u evs a v /\ length out <= length l1)).
  { intros l1 a v l2 El. assert (Hin : In (a, v) fd) by (rewrite El; apply in_or_app; right; left; reflexivity).
    destruct (arun_before (prep p) Hf Hm a u [] v (nil_hits _) Hin) as (H1 & (n & ats & ks & -> & H2) & (rest' & H3) & pre & post & H4 & H5). cbn [app] in *. fold fd in H4.
    assert (Epre : l1 = pre).
    { apply (same_place l1 l2 pre post a (XE n ats ks) (XE n ats ks)); [|congruence]. rewrite <- El. apply sorted_NoDup. apply found_sorted. }
    subst pre. set (here := removelast (path_names u a)) in *. set (b := events_before [] u a) in *. change (tree_events [] u) with (doc_events u) in H3.
    assert (F : complete_in u evs a (XE n ats ks) -> S (length l1) <= length out).
    { intros (r & Er). fold here in Er. fold b in Er. pose proof (arun_idle (prep p) (XE n ats ks) Hf Hm _ H1) as Hr. rewrite Er, app_assoc, arun_app, arun_app, H5, Hr in R. cbn [found] in R. rewrite H2 in R.
      destruct (arun (prep p) here AIdle r) as [[[s3 m3] o3]|]; [|discriminate]. injection R as _ _ <-. rewrite !app_length, map_length. cbn. lia. }
    destruct (Nat.le_gt_cases (length (b ++ tree_events here (XE n ats ks))) (length evs)) as [L|L].
    - left. assert (C : complete_in u evs a (XE n ats ks)); [|split; [exact C|exact (F C)]].
      exists (skipn (length (b ++ tree_events here (XE n ats ks))) evs). fold here. fold b.
      rewrite app_assoc. rewrite <- (firstn_skipn (length (b ++ tree_events here (XE n ats ks))) evs) at 1. f_equal.
      assert (X : firstn (length (b ++ tree_events here (XE n ats ks))) (evs ++ rest) = b ++ tree_events here (XE n ats ks)).
      { rewrite <- E, H3, app_assoc, firstn_app, firstn_all, Nat.sub_diag. cbn [firstn]. now rewrite app_nil_r. }
      rewrite firstn_app in X. replace (length (b ++ tree_events here (XE n ats ks)) - length evs) with 0 in X by lia. cbn [firstn] in X. rewrite app_nil_r in X. exact X.
    - right. assert (Le : length out <= length l1); [|split; [intros C; specialize (F C); lia|exact Le]].
      assert (X : exists q, b ++ tree_events here (XE n ats ks) = evs ++ q /\ q <> []).
      { exists (skipn (length evs) (b ++ tree_events here (XE n ats ks))). split.
        - rewrite <- (firstn_skipn (length evs) (b ++ tree_events here (XE n ats ks))) at 1. f_equal.
          assert (X : firstn (length evs) (doc_events u) = evs) by (rewrite E, firstn_app, firstn_all, Nat.sub_diag; cbn [firstn]; now rewrite app_nil_r).
          rewrite H3, app_assoc, firstn_app in X. replace (length evs - length (b ++ tree_events here (XE n ats ks))) with 0 in X by lia. cbn [firstn] in X. rewrite app_nil_r in X. exact X.
        - intros Z. apply (f_equal (@length _)) in Z. rewrite skipn_length in Z. cbn [length] in Z. lia. }
      destruct X as (q & X & Nq). destruct q as [|e q _] using rev_ind; [congruence|].
      assert (Y : exists part, tree_events here (XE n ats ks) = part ++ [e] /\ b ++ part = evs ++ q).
      { rewrite app_assoc in X. cbn [tree_events] in X |- *. rewrite app_comm_cons, app_assoc in X. apply app_inj_tail in X as [X <-]. eexists. split; [rewrite app_comm_cons; reflexivity|exact X]. }
      destruct Y as (part & Y1 & Y2). destruct (arun_inside (prep p) n ats ks here part e [] Hf Hm H1 H2 Y1) as (s3 & m3 & Hr).
      assert (Z : arun (prep p) [] AIdle (b ++ part) = Some (s3, m3, map snd l1)) by (rewrite arun_app, H5, Hr, app_nil_r; reflexivity).
      rewrite Y2, arun_app, R in Z. destruct (arun (prep p) stk m q) as [[[s4 m4] o4]|]; [|discriminate]. injection Z as _ _ Z. apply (f_equal (@length _)) in Z. rewrite app_length, map_length in Z. lia. }
  split; intros a v Hin; destruct (in_split _ _ Hin) as (l1 & l2 & El).
  - assert (El' : fd = l1 ++ (a, v) :: (l2 ++ skipn (length out) fd)) by (rewrite <- (firstn_skipn (length out) fd) at 1; rewrite El, <- app_assoc; reflexivity).
    destruct (K _ _ _ _ El') as [[C _]|[_ L]]; [exact C|]. exfalso. apply (f_equal (@length _)) in El. rewrite firstn_length, app_length in El. cbn [length] in El. lia.
  - assert (El' : fd = (firstn (length out) fd ++ l1) ++ (a, v) :: l2) by (rewrite <- (firstn_skipn (length out) fd) at 1; rewrite El, <- app_assoc; reflexivity).
    destruct (K _ _ _ _ El') as [[_ L]|[C _]]; [|exact C]. exfalso. rewrite app_length, firstn_length in L. lia.
Qed.

Lemma prefix_sent p u evs rest : p <> [] -> ~ ends_deep p -> doc_events u = evs ++ rest ->
  exists l l', found (hits (prep p)) [] u = l ++ l' /\ (forall a v, In (a, v) l -> complete_in u evs a v) /\ (forall a v, In (a, v) l' -> ~ complete_in u evs a v) /\
  forall h s' x, allocated h -> thandle (stateses [p]) (new_handler (new_sender h [p])) evs s' x -> x = None /\ sent_since (new_sender h [p]) s' 0 (map snd l).
Proof.
  intros Hp He E. assert (Hf : forall names, fails (prep p) names = false) by (intros; apply fails_never; auto). pose proof (prep_not_matched p Hp) as Hm.
  pose proof (arun_idle (prep p) u Hf Hm [] (nil_hits _)) as All. fold (doc_events u) in All. rewrite E, arun_app in All.
  destruct (arun (prep p) [] AIdle evs) as [[[stk m] out]|] eqn:R; [|discriminate].
  destruct (prefix_complete p u evs rest stk m out Hp He E R) as (l & l' & H1 & H2 & H3 & H4). exists l, l'. split; [exact H1|]. split; [exact H3|]. split; [exact H4|].
  intros h s' x A T. subst out. apply (machine_sends p (new_sender h [p]) evs s' x stk m); auto. constructor. exact A.
Qed.
(** The outermost ones among those that are complete. *)
Lemma part_listing st u evs rest : st <> StDeep -> is_element u -> doc_events u = evs ++ rest ->
  exists l, listing u (fun a v => outermost [StDeep; st] u a v /\ complete_in u evs a v) l /\
  forall h s' x, allocated h -> thandle (stateses [[StDeep; st]]) (new_handler (new_sender h [[StDeep; st]])) evs s' x -> x = None /\ sent_since (new_sender h [[StDeep; st]]) s' 0 (map snd l).
Proof.
  intros D I E. set (p := [StDeep; st]). assert (Hp : p <> []) by discriminate. pose proof (deep_last_not_ends [] st D) as He. change ([] ++ [StDeep; st]) with p in He.
  destruct (prefix_sent p u evs rest Hp He E) as (l & l' & H1 & H2 & H3 & H4). exists l. split; [|exact H4].
  assert (L : listing u (outermost p u) (l ++ l')).
  { rewrite <- H1. apply (deep_found [] st u); auto. intros []. }
  destruct L as [S L]. split.
  - rewrite map_app in S. clear - S. induction (map fst l) as [|x k IH]; [constructor|]. cbn [app] in S. apply StronglySorted_inv in S as [S F]. constructor; [apply IH, S|]. apply Forall_app in F. apply F.
  - intros a v. split.
    + intros Hin. destruct (proj1 (L a v)) as [G1 G2]; [apply in_or_app; left; exact Hin|]. split; [exact G1|]. split; [exact G2|exact (H2 _ _ Hin)].
    + intros (G1 & G2 & G3). assert (Hin : In (a, v) (l ++ l')) by (apply L; auto). apply in_app_or in Hin as [Hin|Hin]; [exact Hin|]. destruct (H3 _ _ Hin G3).
Qed.

(** ** The program *)
Section Main.
  Variables (v : lexenv) (tf : str -> option flt) (fs : flt -> str) (n : nat) (h : heap) (a : options).
  Theorem files_fine srcs o : microx_files v tf fs n h a (map fine srcs) o <-> exists o', microx v tf fs n h a srcs o' /\ o = ends o'.
  Proof.
    destruct o as [ls e]. split.
    - intros M. inversion M as [x E|c fe o' E E' Q|c fe p o' E E' Q]; subst.
      + exists ([], Exn x). split; [apply mx_fail, E|reflexivity].
      + apply sources_fine in Q as (f & -> & Q). exists (ls, f). split; [eapply mx_sources; eassumption|reflexivity].
      + apply parts_fine in Q as (f & -> & Q). exists (ls, f). split; [eapply mx_parts; eassumption|reflexivity].
    - intros ([ls' f] & M & X). injection X as -> ->. inversion M as [x E|c fe o' E E' Q|c fe p o' E E' Q]; subst.
      + apply mf_fail, E.
      + eapply mf_sources; [exact E|exact E'|]. apply sources_fine. eauto.
      + eapply mf_parts; [exact E|exact E'|]. apply parts_fine. eauto.
  Qed.
  Theorem files_rejected good bad more o : absent (o_partition a) -> reads_well bad ->
    microx_files v tf fs n h a (map fine good ++ (bad, true) :: more) o <-> exists o', microx v tf fs n h a good o' /\ o = then_error o'.
  Proof.
    intros P W. apply absent_truthy in P. split.
    - intros M. inversion M as [x E|c fe o' E E' Q|c fe p o' E E' Q]; subst; try congruence.
      + exists ([], Exn x). split; [apply mx_fail, E|reflexivity].
      + apply sources_then in Q as (o' & Q & ->); auto. exists o'. split; [eapply mx_sources; eassumption|reflexivity].
    - intros (o' & M & ->). inversion M as [x E|c fe o1 E E' Q|c fe p o1 E E' Q]; subst; try congruence.
      + apply mf_fail, E.
      + eapply mf_sources; [exact E|exact E'|]. apply sources_then; eauto.
  Qed.
  Lemma fine_sources c fe sh srcs o : asks v a c fe -> shows a sh -> absent (o_partition a) ->
    microx_files v tf fs n h a (map fine srcs) o <-> exists o', print_sources (fun t => run (world v [] tf fs t) n c fe (o_limit a) sh) (new_builder h) srcs o' /\ o = ends o'.
  Proof.
    intros A S P. apply prepare_asks in A. apply shows_attrs in S. subst sh. apply absent_truthy in P. rewrite files_fine. split; intros (o' & M & ->); exists o'; (split; [|reflexivity]).
    - inversion M as [x E|c' fe' o1 E E' Q|c' fe' p o1 E E' Q]; subst; try congruence. rewrite A in E. injection E as <- <-. exact Q.
    - eapply mx_sources; eassumption.
  Qed.
  Lemma begin_parse cs1 cs2 u : report (cs1 ++ cs2) [u] -> is_element u -> fst (callbacks [] cs1) <> [] ->
    exists stk t, callbacks [] cs1 = (fst (callbacks [] cs1), Some stk) /\ partial_tree (fst (callbacks [] cs1)) t /\ CutSpec.cut t u.
  Proof.
    intros R (m & b & ks & ->) N. destruct (report_prefix cs1 cs2 m b ks R) as (evs & stk & rest & E1 & E2 & _). rewrite E1 in N |- *. cbn [fst] in N |- *.
    destruct (partial_cut _ _ _ _ _ E2 N) as (t & Ht & Hc). exists stk, t. split; [reflexivity|]. split; [exact Ht|exact Hc].
  Qed.
  Lemma parse_partial evs t s r : partial_tree evs t -> xml_tree_parse (new_builder h) evs s r -> exists i, r = Some i /\ holds_tree (bheap s) i t.
  Proof.
    intros T P. inversion P as [x1 x2 x3 Hr]; subst. destruct (build_partial (mkB h None None None None) _ _ _ eq_refl eq_refl T Hr) as (i & A1 & _ & A3). eauto.
  Qed.
  Lemma some_parse s evs : exists s' r, xml_tree_parse s evs s' r.
  Proof. eexists; eexists; constructor; apply runs_exec. Qed.
  Theorem files_cut c fe sh cs1 cs2 u : asks v a c fe -> shows a sh -> absent (o_partition a) -> report (cs1 ++ cs2) [u] -> is_element u -> fst (callbacks [] cs1) <> [] ->
    exists t, CutSpec.cut t u /\ partial_tree (fst (callbacks [] cs1)) t /\ forall o, microx_files v tf fs n h a [(cs1, false)] o <-> o = ends (run (world v [] tf fs t) n c fe (o_limit a) sh).
  Proof.
    intros A S P R I N. destruct (begin_parse cs1 cs2 u R I N) as (stk & t & E & T & C). exists t. split; [exact C|]. split; [exact T|]. intros o.
    change [(cs1, false)] with (map fine [cs1]). rewrite (fine_sources c fe sh [cs1] o A S P). set (go := fun t => run (world v [] tf fs t) n c fe (o_limit a) sh). split.
    - intros (o' & Q & ->). inversion Q as [|s0 cs0 srcs0 evs stk0 s' i t0 ls ls' f E0 P0 T0 G R0|s0 cs0 srcs0 evs stk0 s' i t0 ls f E0 P0 T0 G N0]; subst; rewrite E in E0; injection E0 as <- <-;
        destruct (parse_partial _ _ _ _ T P0) as (i' & X & Ht); injection X as <-; pose proof (holds_tree_det _ _ _ _ T0 Ht) as Et; subst t0; unfold go in G; rewrite G; [|reflexivity].
      inversion R0; subst. rewrite app_nil_r. reflexivity.
    - intros ->. destruct (some_parse (new_builder h) (fst (callbacks [] cs1))) as (s' & r & P0). destruct (parse_partial _ _ _ _ T P0) as (i & -> & Ht).
      exists (go t). split; [|reflexivity]. destruct (go t) as [ls f] eqn:G. destruct f.
      + replace ls with (ls ++ []) by apply app_nil_r. eapply so_next; [exact E|exact P0|exact Ht|exact G|constructor].
      + eapply so_stop; [exact E|exact P0|exact Ht|exact G|discriminate].
      + eapply so_stop; [exact E|exact P0|exact Ht|exact G|discriminate].
  Qed.
  (** The second document lands in the first one. *)
  Theorem files_graft c fe sh cs1 cs2 u m open cs' u' : asks v a c fe -> shows a sh -> absent (o_partition a) -> report (cs1 ++ cs2) [u] -> is_element u ->
    document_events (fst (callbacks [] cs1)) (m :: open) -> report cs' [u'] -> is_element u' ->
    exists t t', CutSpec.cut t u /\ partial_tree (fst (callbacks [] cs1)) t /\ partial_tree (fst (callbacks [] cs1) ++ tree_events (rev (m :: open)) u') t' /\
      forall o, microx_files v tf fs n h a [(cs1, false); (cs', false)] o <-> exists o', in_turn (fun t => run (world v [] tf fs t) n c fe (o_limit a) sh) [t; t'] o' /\ o = ends o'.
  Proof.
    intros A S P R I D R' I'. assert (N : fst (callbacks [] cs1) <> []) by (destruct D as (? & ? & ? & -> & _); discriminate).
    destruct (begin_parse cs1 cs2 u R I N) as (stk & t & E & T & C). pose proof (report_document _ _ R') as E'.
    assert (G : forall s1 r1 s2 r2, xml_tree_parse (new_builder h) (fst (callbacks [] cs1)) s1 r1 -> xml_tree_parse s1 (doc_events u') s2 r2 ->
      exists i t', r2 = Some i /\ holds_tree (bheap s2) i t' /\ partial_tree (fst (callbacks [] cs1) ++ tree_events (rev (m :: open)) u') t').
    { intros s1 r1 s2 r2 P1 P2. exact (xml_graft h _ m open u' s1 r1 s2 r2 D I' P1 P2). }
    destruct (some_parse (new_builder h) (fst (callbacks [] cs1))) as (s1 & r1 & P1). destruct (some_parse s1 (doc_events u')) as (s2 & r2 & P2).
    destruct (G _ _ _ _ P1 P2) as (i2 & t' & -> & H2 & T'). destruct (parse_partial _ _ _ _ T P1) as (i1 & -> & H1).
    exists t, t'. split; [exact C|]. split; [exact T|]. split; [exact T'|]. intros o. change [(cs1, false); (cs', false)] with (map fine [cs1; cs']). rewrite (fine_sources c fe sh [cs1; cs'] o A S P).
    set (go := fun t => run (world v [] tf fs t) n c fe (o_limit a) sh). split; intros (o' & Q & ->); exists o'; (split; [|reflexivity]).
    - inversion Q as [|s0 cs0 srcs0 evs stk0 s' i t0 ls ls' f E0 P0 T0 G0 R0|s0 cs0 srcs0 evs stk0 s' i t0 ls f E0 P0 T0 G0 N0]; subst; rewrite E in E0; injection E0 as <- <-;
        destruct (parse_partial _ _ _ _ T P0) as (i' & X & Ht); injection X as <-; pose proof (holds_tree_det _ _ _ _ T0 Ht) as Et; subst t0; [|apply it_stop; assumption].
      apply it_ok; [exact G0|]. inversion R0 as [|s3 cs3 srcs3 evs3 stk3 s'' i3 t3 l3 l3' f3 E3 P3 T3 G3 R3|s3 cs3 srcs3 evs3 stk3 s'' i3 t3 l3 f3 E3 P3 T3 G3 N3]; subst; rewrite E' in E3; injection E3 as <- <-;
        destruct (G _ _ _ _ P0 P3) as (j & t4 & X & H4 & T4); injection X as <-; pose proof (holds_tree_det _ _ _ _ T3 H4) as Et; subst t3; pose proof (partial_unique _ _ _ T' T4) as Et; subst t4.
      + inversion R3; subst. apply it_ok; [exact G3|constructor].
      + apply it_stop; assumption.
    - inversion Q as [|x l ls ls' f G0 Q'|x l ls f G0 N0]; subst; [|eapply so_stop; [exact E|exact P1|exact H1|exact G0|exact N0]].
      eapply so_next; [exact E|exact P1|exact H1|exact G0|]. inversion Q' as [|x l l3 l3' f3 G3 Q3|x l l3 f3 G3 N3]; subst; [|eapply so_stop; [exact E'|exact P2|exact H2|exact G3|exact N3]].
      inversion Q3; subst. eapply so_next; [exact E'|exact P2|exact H2|exact G3|constructor].
  Qed.
  Lemma files_stage c fe sh p st good us cs1 cs2 u more : asks v a c fe -> shows a sh -> o_partition a = Some p -> p <> [] -> partition_pattern p = [StDeep; st] -> st <> StDeep ->
    Forall2 (fun cs u => report cs [u] /\ is_element u) good us -> report (cs1 ++ cs2) [u] -> is_element u ->
    exists ls l, Forall2 (fun u l => listing u (outermost [StDeep; st] u) l) us ls /\
      listing u (fun b w => outermost [StDeep; st] u b w /\ complete_in u (fst (callbacks [] cs1)) b w) l /\
      forall o, microx_files v tf fs n h a (map fine good ++ (cs1, true) :: more) o <->
        exists o', in_turn (fun t => run (world v [] tf fs t) n c fe (o_limit a) sh) (map snd (concat ls ++ l)) o' /\ o = then_error o'.
  Proof.
    intros A S P N1 ST D F R I. apply prepare_asks in A. apply shows_attrs in S. subst sh. assert (T : truthy_opt (o_partition a) = Some p) by (apply truthy_some; auto).
    set (go := fun t => run (world v [] tf fs t) n c fe (o_limit a) (show_attrs a)).
    destruct (parts_outermost go (st) good us D F) as (ls & L & K).
    assert (X : exists evs stk rest, callbacks [] cs1 = (evs, Some stk) /\ doc_events u = evs ++ rest).
    { destruct I as (m & b & ks & ->). destruct (report_prefix cs1 cs2 m b ks R) as (evs & stk & rest & E1 & E2 & _). eauto. }
    destruct X as (evs & stk & rest & E1 & E2). rewrite E1. cbn [fst].
    destruct (part_listing (st) u evs rest D I E2) as (l & Hl & Hs). exists ls, l. split; [exact L|]. split; [exact Hl|]. intros o.
    transitivity (read_parts go (partition_pattern p) (map fine good ++ (cs1, true) :: more) o).
    { split.
      - intros M. inversion M as [x E|c' fe' o' E E' Q|c' fe' p' o' E E' Q]; subst; try congruence. rewrite A in E. injection E as <- <-. rewrite T in E'. injection E' as <-. exact Q.
      - intros Q. eapply mf_parts; eassumption. }
    rewrite ST, (parts_then go [StDeep; st] good cs1 evs stk (map snd l) more E1 Hs o). rewrite map_app. split.
    - intros [([l1 f1] & Q & N & ->)|(l1 & [l2 f2] & Q & Q2 & ->)].
      + exists (l1, f1). split; [apply turn_app; right; split; [exact N|apply K, Q]|]. unfold then_error. cbn [fst snd] in *. destruct f1; congruence.
      + exists (l1 ++ l2, f2). split; [|reflexivity]. apply turn_app. left. exists l1, l2, f2. split; [apply K, Q|]. auto.
    - intros (o' & Q & ->). apply turn_app in Q as [(l1 & l2 & f & Q & Q2 & ->)|(N & Q)].
      + right. exists l1, (l2, f). split; [apply K, Q|]. auto.
      + left. exists o'. split; [apply K, Q|]. split; [exact N|]. unfold then_error. destruct (snd o'); congruence.
  Qed.
  Theorem files_parts c fe sh p good us cs1 cs2 u more : asks v a c fe -> shows a sh -> o_partition a = Some p -> p <> [] -> p <> lit "*" -> p <> lit "**" ->
    Forall2 (fun cs u => report cs [u] /\ is_element u) good us -> report (cs1 ++ cs2) [u] -> is_element u ->
    exists ls l, Forall2 (fun u l => listing u (outermost [StDeep; StName p] u) l) us ls /\
      listing u (fun b w => outermost [StDeep; StName p] u b w /\ complete_in u (fst (callbacks [] cs1)) b w) l /\
      forall o, microx_files v tf fs n h a (map fine good ++ (cs1, true) :: more) o <->
        exists o', in_turn (fun t => run (world v [] tf fs t) n c fe (o_limit a) sh) (map snd (concat ls ++ l)) o' /\ o = then_error o'.
  Proof.
    intros A S P N1 N2 N3 F R I. apply (files_stage c fe sh p (StName p) good us cs1 cs2 u more A S P N1); [|discriminate|exact F|exact R|exact I].
    unfold partition_pattern, stage_of. destruct (str_eqb p (lit "*")) eqn:E1; [apply (proj1 (ParserInv.str_eqb_eq _ _)) in E1; congruence|].
    destruct (str_eqb p (lit "**")) eqn:E2; [apply (proj1 (ParserInv.str_eqb_eq _ _)) in E2; congruence|]. reflexivity.
  Qed.
  (** With * the documents that have been read to their end. *)
  Lemma files_star c fe sh good us cs1 cs2 u more : asks v a c fe -> shows a sh -> o_partition a = Some (lit "*") ->
    Forall2 (fun cs u => report cs [u] /\ is_element u) good us -> report (cs1 ++ cs2) [u] -> is_element u ->
    exists l, (fst (callbacks [] cs1) = doc_events u -> l = [u]) /\ (fst (callbacks [] cs1) <> doc_events u -> l = []) /\
      forall o, microx_files v tf fs n h a (map fine good ++ (cs1, true) :: more) o <->
        exists o', in_turn (fun t => run (world v [] tf fs t) n c fe (o_limit a) sh) (us ++ l) o' /\ o = then_error o'.
  Proof.
    intros A S P F R I. destruct (files_stage c fe sh (lit "*") StAny good us cs1 cs2 u more A S P ltac:(discriminate) eq_refl ltac:(discriminate) F R I) as (ls & l & L & L' & H).
    assert (Eu : map snd (concat ls) = us).
    { clear - L F. revert L. revert ls. induction F as [|cs u srcs us (_ & E) _ IH]; intros ls L; inversion L as [|x l y ls' Hl L']; subst; [reflexivity|].
      cbn [concat]. rewrite map_app, (IH _ L'), <- (listing_unique _ _ _ _ (root_outermost u E) Hl). reflexivity. }
    assert (X : exists evs stk rest, callbacks [] cs1 = (evs, Some stk) /\ doc_events u = evs ++ rest).
    { destruct I as (m & b & ks & ->). destruct (report_prefix cs1 cs2 m b ks R) as (evs & stk & rest & E1 & E2 & _). eauto. }
    destruct X as (evs & stk & rest & E1 & E2). rewrite E1 in L' |- *. cbn [fst] in L' |- *.
    assert (C : complete_in u evs [] u <-> evs = doc_events u).
    { unfold complete_in. assert (Ed : tree_events (removelast (path_names u [])) u = doc_events u) by (destruct I as (m & b & ks & ->); reflexivity).
      rewrite Ed. split.
      - intros (r & E). change (events_before [] u []) with (@nil event) in E. cbn [app] in E. rewrite E2 in E. rewrite <- app_assoc in E. assert (Z : rest ++ r = []) by (apply (app_inv_head evs); rewrite app_nil_r; symmetry; exact E).
        apply app_eq_nil in Z as [-> _]. rewrite E2. now rewrite app_nil_r.
      - intros E. exists []. change (events_before [] u []) with (@nil event). cbn [app]. rewrite app_nil_r. exact E. }
    pose proof (root_outermost u I) as Ro. exists (map snd l). split; [|split].
    - intros E. rewrite <- (listing_unique u (fun b w => outermost [StDeep; StAny] u b w /\ complete_in u evs b w) [([], u)] l); [reflexivity| |exact L']. eapply listing_ext; [|exact Ro]. intros b w Sb. split; [|intros [O _]; exact O]. intros O. split; [exact O|].
      assert (Hin : In (b, w) [([], u)]) by (apply (proj2 Ro); split; [exact Sb|exact O]). destruct Hin as [X|[]]. injection X as <- <-. apply C, E.
    - intros E. destruct l as [|[b w] l]; [reflexivity|]. exfalso. destruct (proj1 (proj2 L' b w) (or_introl eq_refl)) as (Sb & O & Cm).
      assert (Hin : In (b, w) [([], u)]) by (apply (proj2 Ro); split; [exact Sb|exact O]). destruct Hin as [X|[]]. injection X as <- <-. apply E, C, Cm.
    - intros o. rewrite H, map_app, Eu. reflexivity.
  Qed.
  (** With ** the first start tag ends the program. *)
  Theorem files_deep c fe cs1 cs2 b u more : asks v a c fe -> o_partition a = Some (lit "**") -> report (cs1 ++ cs2) [u] -> is_element u -> fst (callbacks [] cs1) <> [] ->
    forall o, microx_files v tf fs n h a ((cs1, b) :: more) o <-> o = ([], Ends (Exn TypeErr)).
  Proof.
    intros A P R I Ne o. apply prepare_asks in A. assert (T : truthy_opt (o_partition a) = Some (lit "**")) by (rewrite P; reflexivity).
    set (go := fun t => run (world v [] tf fs t) n c fe (o_limit a) (show_attrs a)).
    assert (X : exists m at_ evs stk, callbacks [] cs1 = (EvStart m at_ [] :: evs, Some stk)).
    { destruct I as (m & at_ & ks & ->). destruct (report_prefix cs1 cs2 m at_ ks R) as (evs & stk & rest & E1 & E2 & _). rewrite E1 in Ne |- *. cbn [fst] in Ne.
      destruct evs as [|e evs]; [congruence|]. cbn [doc_events tree_events app] in E2. injection E2 as <- _. eauto. }
    destruct X as (m & at_ & evs & stk & D).
    assert (K : forall h0 s' x ts, thandle (stateses [[StDeep; StDeep]]) (new_handler (new_sender h0 [[StDeep; StDeep]])) (EvStart m at_ [] :: evs) s' x -> sent_since (new_sender h0 [[StDeep; StDeep]]) s' 0 ts ->
      x = Some TreeIter.TypeErr /\ ts = []).
    { intros h0 s' x ts Th Se. pose proof (trailing_deep [StDeep; StDeep] (new_handler (new_sender h0 [[StDeep; StDeep]])) _ _ _ (ex_intro _ [StDeep] eq_refl) eq_refl Th) as Z. split.
      - inversion Th as [|s0 e evs0 l c0 s1 s2 x2 E R0 T'|s0 e evs0 l c0 s1 x2 E R0]; subst; cbn in E; [discriminate|]. injection E as <- <- <-. reflexivity.
      - destruct Se as (l & E1 & F). rewrite Z in E1. cbn in E1. subst l. inversion F. reflexivity. }
    transitivity (read_parts go (partition_pattern (lit "**")) ((cs1, b) :: more) o).
    { split.
      - intros M. inversion M as [x E|c' fe' o' E E' Q|c' fe' p' o' E E' Q]; subst; try congruence. rewrite A in E. injection E as <- <-. rewrite T in E'. injection E' as <-. exact Q.
      - intros Q. eapply mf_parts; eassumption. }
    change (partition_pattern (lit "**")) with [StDeep; StDeep]. split.
    - intros Q. inversion Q as [|h0 cs0 srcs0 evs0 stk0 s' ts ls ls' f E0 A0 T0 S G Q'|h0 cs0 b0 srcs0 evs0 stk0 s' x ts ls f E0 A0 T0 S G N'|h0 cs0 b0 srcs0 evs0 stk0 s' x ts ls E0 A0 T0 S G|h0 cs0 srcs0 evs0 stk0 s' ts ls E0 A0 T0 S G]; subst; rewrite D in E0; injection E0 as <- <-;
        destruct (K _ _ _ _ T0 S) as [X ->]; cbn in G; try discriminate; injection G; intros; subst; congruence.
    - intros ->. assert (A0 : allocated empty_heap) by (intros j ob Hj; discriminate).
      destruct (thandle_exists (stateses [[StDeep; StDeep]]) (EvStart m at_ [] :: evs) (new_handler (new_sender empty_heap [[StDeep; StDeep]]))) as (s0 & x0 & T0).
      pose proof (trailing_deep [StDeep; StDeep] (new_handler (new_sender empty_heap [[StDeep; StDeep]])) _ _ _ (ex_intro _ [StDeep] eq_refl) eq_refl T0) as Z.
      assert (Se : sent_since (new_sender empty_heap [[StDeep; StDeep]]) s0 0 []) by (exists []; split; [rewrite Z; reflexivity|constructor]).
      destruct (K _ _ _ _ T0 Se) as [-> _]. eapply (rq_type go _ empty_heap); [exact D|exact A0|exact T0|exact Se|reflexivity].
  Qed.
End Main.
