(** Consequences for whole runs of the parser. *)
From Verif Require Import PyStr CharClass Parser ParserS ParserM XTree Grammar ParserSpec ParserFrag ParserInv ParserGram.

(** ** Empty pieces (C03) *)
Definition nonempty (f : str) : bool := match f with [] => false | _ => true end.
Lemma feed_empty_pieces pieces : feed pieces = feed (filter nonempty pieces).
Proof.
  unfold feed. assert (H : forall s, sends (GRun s) (nf pieces) = sends (GRun s) (nf (filter nonempty pieces)) ).
  { induction pieces as [|f l IH]; intros s; [reflexivity|]. cbn [nf map filter]. destruct f as [|c f].
    - cbn [nonempty]. rewrite sends_cons. cbn [send]. unfold add_events. cbn [app].
      rewrite <- surjective_pairing. apply IH.
    - cbn [nonempty map]. rewrite !sends_cons.
      destruct (send (GRun s) (c :: f) false) eqn:E; auto. f_equal.
      assert (exists s', g = GRun s') as (s' & ->).
      { unfold send in E. destruct (loop _ _ _); inversion E; eauto. }
      apply IH. }
  apply H.
Qed.

(** ** Feeding one piece *)
Lemma feed_one (text : str) : text <> [] ->
  match M false (start_state text) with
  | LStop t e => exists s, feed [text] = (e, Suspended (GRun s)) /\ ok_in text s /\ abs s = t
  | LRaise x e => feed [text] = (e, Raised x)
  | LHang e => feed [text] = (e, Hung)
  end.
Proof.
  intros Ht. unfold feed; cbn [map]. rewrite sends_cons.
  pose proof (send_M [] init_pst text false ok_init Ht) as Hs. rewrite abs_init in Hs.
  change new_parser with (GRun init_pst).
  destruct (M false (start_state text)) as [t e|x e|e].
  - destruct Hs as (g & -> & s & -> & Hok & Ha). exists s. split; [|auto].
    unfold add_events; cbn. rewrite app_nil_r. reflexivity.
  - rewrite Hs. reflexivity.
  - rewrite Hs. reflexivity.
Qed.

Lemma final_one (text : str) : text <> [] ->
  sends new_parser [(text, true)] =
  match M true (start_state text) with
  | LStop t e => (e, Suspended GFinal)
  | LRaise x e => (e, Raised x)
  | LHang e => (e, Hung)
  end.
Proof.
  intros Ht. rewrite sends_cons.
  pose proof (send_M [] init_pst text true ok_init Ht) as Hs. rewrite abs_init in Hs.
  change new_parser with (GRun init_pst).
  destruct (M true (start_state text)) as [t e|x e|e].
  - destruct Hs as (g & -> & ->). unfold add_events; cbn. rewrite app_nil_r. reflexivity.
  - rewrite Hs. reflexivity.
  - rewrite Hs. reflexivity.
Qed.

(** Closing a suspended parser with an empty final piece always succeeds. *)
Lemma sends_app g l m : sends g (l ++ m) =
  match sends g l with
  | (e, Suspended g') => add_events e (sends g' m)
  | r => r
  end.
Proof.
  revert g. induction l as [|[f d] l IH]; intros g; cbn [app].
  - cbn [sends]. unfold add_events. cbn. destruct (sends g m); reflexivity.
  - rewrite !sends_cons. destruct (send g f d); auto. rewrite IH.
    destruct (sends g0 l) as [e o]. unfold add_events; cbn. destruct o; cbn; auto.
    rewrite app_assoc. reflexivity.
Qed.

Lemma feed_suspended pieces evs g : feed pieces = (evs, Suspended g) -> exists s, g = GRun s.
Proof.
  unfold feed. change new_parser with (GRun init_pst). generalize init_pst. revert evs.
  induction pieces as [|f l IH]; intros evs s H; cbn [map] in H.
  - cbn in H. inversion H; eauto.
  - rewrite sends_cons in H. destruct (send (GRun s) f false) eqn:E; try discriminate.
    assert (exists s', g0 = GRun s') as (s' & ->).
    { unfold send in E. destruct f; [inversion E; eauto|]. destruct (loop _ _ _); inversion E; eauto. }
    destruct (sends (GRun s') (map (fun f => (f, false)) l)) as [e o] eqn:E2. unfold add_events in H; cbn in H.
    inversion H; subst. eapply IH; eauto.
Qed.

Lemma close_suspended pieces evs g : feed pieces = (evs, Suspended g) ->
  sends new_parser (map (fun f => (f, false)) pieces ++ [([], true)]) = (evs, Suspended GFinal).
Proof.
  intros H. rewrite sends_app. unfold feed in H. rewrite H.
  apply feed_suspended in H as (s & ->). cbn. unfold add_events; cbn. rewrite app_nil_r. reflexivity.
Qed.

(** ** Completion *)
Lemma nest_det a evs b : nest a evs b -> forall c, nest a evs c -> b = c.
Proof. induction 1; intros c Hc; inversion Hc; subst; auto. Qed.
Lemma document_events_det evs a b : document_events evs a -> document_events evs b -> a = b.
Proof.
  intros (n & at0 & e & -> & H1) (n' & at' & e' & He & H2). inversion He; subst. eapply nest_det; eauto.
Qed.
Lemma document_events_nonnil open : ~ document_events [] open.
Proof. intros (n & a & e & H & _). discriminate. Qed.

Lemma suspended_inv pieces evs s : feed pieces = (evs, Suspended (GRun s)) -> inv_nest evs (abs s).
Proof.
  intros H.
  assert (Hi := sends_inv inv_nest well_nested_prefix).
  destruct (Hi (conj eq_refl eq_refl) (fun evs s f H => H) inv_nest_step inv_nest_prefix (nf pieces)) as [_ H2].
  unfold feed in H. unfold nf in H2. rewrite H in H2. exact H2.
Qed.

Lemma complete_iff pieces evs s : feed pieces = (evs, Suspended (GRun s)) ->
  (complete_document evs <-> sc (abs s) = CompleteDoc).
Proof.
  intros H. apply suspended_inv in H. unfold inv_nest in H.
  split; intros Hc.
  - destruct (sc (abs s)); auto; exfalso;
      repeat match goal with
      | H : _ \/ _ |- _ => destruct H
      | H : _ /\ _ |- _ => destruct H
      end; subst; try (eapply document_events_nonnil; eassumption);
      match goal with H1 : document_events evs ?x, H2 : ?x <> [] |- _ =>
        apply H2; symmetry; eapply document_events_det; eassumption end.
  - rewrite Hc in H. apply H.
Qed.

Lemma tree_nest : forall t open evs open', open <> [] ->
  nest open evs open' -> nest open (tree_events (rev open) t ++ evs) open'.
Proof.
  intros t. induction t as [n a ks IH|s] using xtree_ind'; intros open evs open' Ho H.
  - cbn [tree_events app]. apply nest_start; auto.
    rewrite <- app_assoc. cbn [app].
    assert (G : forall ks, Forall (fun t => forall open evs open', open <> [] -> nest open evs open' ->
        nest open (tree_events (rev open) t ++ evs) open') ks ->
      nest (n :: open) (flat_map (tree_events (rev open ++ [n])) ks ++ EvEnd n (rev open) :: evs) open').
    { induction ks0 as [|k ks0 IHk]; intros Hk; cbn [flat_map app].
      - apply nest_end. exact H.
      - inversion Hk; subst. rewrite <- app_assoc. apply (H2 (n :: open)); [discriminate|]. auto. }
    apply G. exact IH.
  - cbn. apply nest_chars; auto.
Qed.

Lemma doc_events_complete n a ks : complete_document (doc_events (XE n a ks)).
Proof.
  exists n, a, (flat_map (tree_events [n]) ks ++ [EvEnd n []]). split; [reflexivity|].
  induction ks as [|k ks IH]; cbn [flat_map app].
  - apply (nest_end [] n). constructor.
  - rewrite <- app_assoc. apply (tree_nest k [n]); [discriminate|]. exact IH.
Qed.

Lemma lenient_doc_elem text t : lenient_doc text t -> exists n a ks, t = XE n a ks.
Proof. intros (w1 & e & w2 & _ & _ & _ & H). inversion H; eauto. Qed.
Lemma lenient_doc_nonempty text t : lenient_doc text t -> text <> [].
Proof.
  intros (w1 & e & w2 & -> & _ & _ & H). apply lenient_elem_lt in H. rewrite H. destruct w1; discriminate.
Qed.

Theorem parse_lenient text t : lenient_doc text t ->
  (exists g, feed [text] = (doc_events t, Suspended g)) /\
  sends new_parser [(text, true)] = (doc_events t, Suspended GFinal).
Proof.
  intros H. pose proof (lenient_doc_nonempty _ _ H) as Hne. split.
  - pose proof (feed_one text Hne) as Hf. destruct (lenient_doc_run false text t H) as (g & Hg).
    rewrite Hg in Hf. destruct Hf as (s & Hf & _). eauto.
  - rewrite final_one by auto. destruct (lenient_doc_run true text t H) as (g & ->). reflexivity.
Qed.

Theorem parse_complete_iff text evs :
  ((exists g, feed [text] = (evs, Suspended g)) /\ complete_document evs) <->
  (exists t, lenient_doc text t /\ evs = doc_events t).
Proof.
  split.
  - intros [(g & Hg) Hc]. destruct (feed_suspended _ _ _ Hg) as (s & ->).
    rewrite (complete_iff _ _ _ Hg) in Hc.
    assert (Hne : text <> []) by (intros ->; cbn in Hg; inversion Hg; subst; discriminate Hc).
    pose proof (feed_one text Hne) as Hf.
    pose proof (completes_doc text) as Hd.
    destruct (M false (start_state text)) as [s' e|x e|e];
      [|rewrite Hg in Hf; discriminate Hf|rewrite Hg in Hf; discriminate Hf].
    destruct Hf as (s2 & Hf & _ & Habs). rewrite Hg in Hf. inversion Hf; subst. destruct Hd as (t & Ht & He); [exact Hc|].
    exists t. auto.
  - intros (t & Ht & ->). split; [apply parse_lenient; auto|].
    destruct (lenient_doc_elem _ _ Ht) as (n & a & ks & ->). apply doc_events_complete.
Qed.

(** ** The strict grammar is part of the lenient one *)
Lemma cdata_strict p drop raw v : cdata no_drop p raw v -> cdata drop p raw v.
Proof. induction 1; try (constructor; auto; fail). destruct H. Qed.

Lemma dict_set_new {A} (d : dict A) n v : ~ In n (map fst d) -> dict_set d n v = d ++ [(n, v)].
Proof.
  induction d as [|[k x] d IH]; cbn; auto. intros H. destruct (str_eqb k n) eqn:E.
  - apply str_eqb_eq in E. tauto.
  - rewrite IH; tauto.
Qed.

Lemma strict_attrs_lenient text d : strict_attrs text d -> forall d0,
  (forall n, In n (map fst d) -> ~ In n (map fst d0)) -> lattrs text d0 (d0 ++ d).
Proof.
  induction 1 as [w Hw|w n w1 q raw v rest0 d Hw Hne Hn Hw1 Hq Hc H IH Hnin]; intros d0 Hd.
  - rewrite app_nil_r. constructor. auto.
  - destruct Hn as (c & r & -> & Hc0 & Hr).
    replace (w ++ (c :: r) ++ w1 ++ c_eq :: q :: raw ++ q :: rest0) with
      (w ++ (c :: r ++ w1 ++ c_eq :: q :: raw ++ [q]) ++ rest0)
      by (cbn [app]; repeat (rewrite <- ?app_assoc; cbn [app]); reflexivity).
    eapply las_cons; auto.
    + exists c. eexists. split; [reflexivity|auto].
    + apply la_value; auto. eapply cdata_strict; eauto.
    + rewrite dict_set_new by (apply Hd; left; auto).
      specialize (IH (d0 ++ [(c :: r, v)])). rewrite <- app_assoc in IH.
      apply IH. intros m Hm Hin. rewrite map_app in Hin. apply in_app_or in Hin as [Hin|[Hin|[]]].
      * eapply Hd; eauto. right; auto.
      * cbn in Hin. subst m. auto.
Qed.

Lemma strict_attrs_head text d : strict_attrs text d -> ~ head_is is_namechar text.
Proof.
  intros H (c & r & Ht & Hc).
  assert (Hws : is_ws c = true); [|rewrite (namechar_ws _ Hws) in Hc; discriminate].
  destruct H.
  - apply H. rewrite Ht. left; auto.
  - destruct w as [|c0 w]; [congruence|]. inversion Ht; subst. apply H. left; auto.
Qed.

Lemma strict_lenient :
  (forall e t, strict_elem e t -> lenient_elem e t) /\
  (forall c ks, strict_content c ks -> lenient_content c ks).
Proof.
  assert (H1 : forall n attrs d content kids w, name n -> strict_attrs attrs d ->
     strict_content content kids -> lenient_content content kids -> blank w ->
     lenient_elem (c_lt :: n ++ attrs ++ c_gt :: content ++ c_lt :: c_slash :: n ++ w ++ [c_gt]) (XE n d kids)).
  { intros n attrs d content kids w Hn Ha _ Hc Hw.
    replace (c_lt :: n ++ attrs ++ c_gt :: content ++ c_lt :: c_slash :: n ++ w ++ [c_gt]) with
      ((c_lt :: [] ++ n ++ attrs ++ [c_gt]) ++ content ++ (c_lt :: [] ++ c_slash :: [] ++ n ++ w ++ [c_gt]))
      by (cbn [app]; repeat (rewrite <- ?app_assoc; cbn [app]); reflexivity).
    econstructor; eauto.
    - constructor; try (intros x []; fail).
      + right; auto.
      + apply (strict_attrs_lenient _ _ Ha []). auto.
      + eapply strict_attrs_head; eauto.
      + destruct Hn as (c & r & -> & _). discriminate.
    - constructor; try (intros x []; fail); auto. right; auto. }
  assert (H2 : forall raw v, cdata no_drop is_datachar raw v -> lenient_content raw (text_node v)).
  { intros. constructor. eapply cdata_strict; eauto. }
  assert (H3 : forall raw v e t rest0 ks, cdata no_drop is_datachar raw v ->
     strict_elem e t -> lenient_elem e t -> strict_content rest0 ks -> lenient_content rest0 ks ->
     lenient_content (raw ++ e ++ rest0) (text_node v ++ t :: ks)).
  { intros. apply lc_elem; auto. eapply cdata_strict; eauto. }
  split.
  - intros e t H. eapply (strict_elem_mut lenient_elem lenient_content); eauto.
  - intros c ks H. eapply (strict_content_mut lenient_elem lenient_content); eauto.
Qed.

Lemma strict_doc_lenient text t : strict_doc text t -> lenient_doc text t.
Proof.
  intros (w1 & e & w2 & -> & H1 & H2 & H). exists w1, e, w2. repeat split; auto. apply strict_lenient; auto.
Qed.

(** ** Beginnings of documents *)
Lemma text_events_any anc v : forest_events anc (text_node v) = forest_events [] (text_node v).
Proof. destruct v; reflexivity. Qed.

Lemma beginnings done :
  (forall t evs open, at_markup t evs open -> exists g pe, forall k,
     M done (start_state (t ++ c_lt :: k)) = lprepend evs (M done (mkS k PreTagGi g pe open []))) /\
  (forall p evs open, after_tag p evs open -> exists g pe, forall k,
     M done (start_state (p ++ k)) = after done (mkS k (state_in open) g pe open []) evs).
Proof.
  set (P := fun t evs open => exists g pe, forall k,
     M done (start_state (t ++ c_lt :: k)) = lprepend evs (M done (mkS k PreTagGi g pe open []))).
  set (Q := fun p evs open => exists g pe, forall k,
     M done (start_state (p ++ k)) = after done (mkS k (state_in open) g pe open []) evs).
  assert (H1 : forall w, blank w -> P w [] []).
  { intros w Hw. exists [], PendStart. intros k. unfold start_state. rewrite M_eq.
    unfold mstep, s_pre_element; cbn [sc ParserS.rest]. rewrite blank_drop by auto.
    change (c_lt =? c_lt)%N with true. red_s. reflexivity. }
  assert (H2 : forall p evs top open raw v, after_tag p evs (top :: open) -> Q p evs (top :: open) ->
     cdata (droppable c_lt) is_datachar raw v -> P (p ++ raw) (evs ++ forest_events [] (text_node v)) (top :: open)).
  { intros p evs top open raw v _ (g & pe & HQ) Hc. exists g, pe. intros k.
    rewrite <- app_assoc, HQ. cbn [state_in]. rewrite after_more by (destruct raw; discriminate).
    rewrite (text_step done _ _ _ _ _ _ Hc), lprepend_app, (text_events_any (rev _)). reflexivity. }
  assert (H3 : forall t evs open st n d, at_markup t evs open -> P t evs open -> lstart st n d ->
     Q (t ++ st) (evs ++ [EvStart n d (rev open)]) (n :: open)).
  { intros t evs open st n d _ (g & pe & HP) Hs. exists n, PendStart. intros k.
    rewrite <- app_assoc. rewrite (lstart_lt _ _ _ Hs). cbn [app]. rewrite HP.
    rewrite (lstart_run done _ _ _ Hs). apply lprepend_app_after. }
  assert (H4 : forall t evs n open en, at_markup t evs (n :: open) -> P t evs (n :: open) -> lend en n ->
     Q (t ++ en) (evs ++ [EvEnd n (rev open)]) open).
  { intros t evs n open en _ (g & pe & HP) He. exists n, PendEnd. intros k.
    rewrite <- app_assoc. rewrite (lend_lt _ _ He). cbn [app]. rewrite HP.
    rewrite (lend_run done _ _ He). apply lprepend_app_after. }
  split.
  - intros t evs open H. apply (at_markup_mut P Q H1 H2 H3 H4 _ _ _ H).
  - intros p evs open H. apply (after_tag_mut P Q H1 H2 H3 H4 _ _ _ H).
Qed.

Lemma after_tag_run done p evs open : after_tag p evs open -> exists g pe, forall k, k <> [] ->
  M done (start_state (p ++ k)) = lprepend evs (M done (mkS k (state_in open) g pe open [])).
Proof.
  intros H. destruct (proj2 (beginnings done) _ _ _ H) as (g & pe & HM). exists g, pe.
  intros k Hk. rewrite HM. apply after_more. exact Hk.
Qed.
Lemma after_tag_run_false p evs open : after_tag p evs open -> exists g pe, forall k,
  M false (start_state (p ++ k)) = lprepend evs (M false (mkS k (state_in open) g pe open [])).
Proof.
  intros H. destruct (proj2 (beginnings false) _ _ _ H) as (g & pe & HM). exists g, pe.
  intros k. rewrite HM. apply after_false. destruct open; cbn; auto.
Qed.
Lemma after_tag_ne p evs open : after_tag p evs open -> p <> [].
Proof.
  intros H. destruct H as [t evs open st n d _ H|t evs n open en _ H].
  - rewrite (lstart_lt _ _ _ H). destruct t; discriminate.
  - rewrite (lend_lt _ _ H). destruct t; discriminate.
Qed.
Lemma app_ne {A} (a b : list A) : a <> [] -> a ++ b <> [].
Proof. destruct a; [congruence|discriminate]. Qed.

(** Beginnings have the events they claim. *)
Lemma after_tag_feed p evs open : after_tag p evs open -> exists s, feed [p] = (evs, Suspended (GRun s)).
Proof.
  intros H. pose proof (feed_one p (after_tag_ne _ _ _ H)) as Hf.
  destruct (after_tag_run_false _ _ _ H) as (g & pe & HM). specialize (HM []). rewrite app_nil_r in HM.
  rewrite HM in Hf. destruct open as [|o open]; cbn [state_in] in Hf.
  - rewrite complete_blank in Hf by (intros x []). cbn in Hf. rewrite app_nil_r in Hf.
    destruct Hf as (s & Hf & _). eauto.
  - rewrite (M_eq false) in Hf. unfold mstep, s_in_element in Hf; cbn [sc ParserS.rest] in Hf.
    rewrite s_cdata_eq in Hf. cbn in Hf. rewrite app_nil_r in Hf. destruct Hf as (s & Hf & _). eauto.
Qed.

(** ** Mismatched end tags (C12) *)
Theorem mismatched_end p evs top open raw v en n k :
  after_tag p evs (top :: open) -> cdata (droppable c_lt) is_datachar raw v -> lend en n -> n <> top ->
  feed [p ++ raw ++ en ++ k] = (evs ++ forest_events [] (text_node v), Raised RtExpectedClose).
Proof.
  intros Hp Hc He Hn.
  pose proof (feed_one (p ++ raw ++ en ++ k) (app_ne _ _ (after_tag_ne _ _ _ Hp))) as Hf.
  pose proof (am_text _ _ _ _ _ _ Hp Hc) as Hm.
  destruct (proj1 (beginnings false) _ _ _ Hm) as (g & pe & HM).
  rewrite (lend_lt _ _ He) in Hf. rewrite app_assoc in Hf. cbn [app] in Hf. rewrite HM in Hf.
  assert (Hr : M false (mkS (tl en ++ k) PreTagGi g pe (top :: open) []) = LRaise RtExpectedClose []).
  { clear - He Hn. destruct He as [w1 w2 n w3 H1 H2 Hl H3]. cbn [tl].
    repeat (rewrite <- !app_assoc; cbn [app]).
    rewrite M_eq. unfold mstep, s_tag, s_tag_body; cbn [sc ParserS.rest w_pend].
    rewrite blank_drop by auto. change (c_slash =? c_slash)%N with true. cbn [andb]. red_s. rewrite lprepend_nil.
    rewrite M_eq. unfold mstep, s_tag, s_tag_body; cbn [sc ParserS.rest w_pend andb].
    assert (Hend : forall w, blank w -> M false (mkS (w ++ c_gt :: k) CompleteTag n PendEnd (top :: open) []) = LRaise RtExpectedClose []).
    { intros w Hw. rewrite M_eq. unfold mstep, s_complete_tag; cbn [sc ParserS.rest spend andb sstk sgi].
      rewrite blank_drop by auto. change (c_gt =? c_gt)%N with true. cbn match.
      destruct (str_eqb top n) eqn:E; [apply str_eqb_eq in E; congruence|]. reflexivity. }
    destruct Hl as [->|(c & r & -> & Hc & Hr)].
    - cbn [app]. rewrite app_assoc. rewrite blank_drop by (auto using blank_app).
      change (is_namestart c_gt) with false. red_s. rewrite lprepend_nil. apply (Hend []). intros x [].
    - cbn [app]. rewrite blank_drop by (auto using namestart_ws). rewrite Hc.
      destruct (name_drop r w3 c_gt k Hr H3 eq_refl) as [-> ->].
      destruct (w3 ++ c_gt :: k) eqn:E; [destruct w3; discriminate|]. rewrite <- E.
      red_s. rewrite lprepend_nil. apply Hend; auto. }
  replace (p ++ raw ++ en ++ k) with ((p ++ raw) ++ c_lt :: tl en ++ k)
    by (rewrite (lend_lt _ _ He) at 2; rewrite <- app_assoc; reflexivity).
  rewrite Hr in Hf. cbn in Hf. rewrite app_nil_r in Hf. exact Hf.
Qed.

(** An end tag as first tag. *)
Theorem surplus_end w en n k : blank w -> lend en n -> feed [w ++ en ++ k] = ([], Raised IndexErr).
Proof.
  intros Hw He. rewrite (lend_lt _ _ He). cbn [app].
  pose proof (feed_one (w ++ c_lt :: tl en ++ k) ltac:(destruct w; discriminate)) as Hf.
  destruct (proj1 (beginnings false) _ _ _ (am_root w Hw)) as (g & pe & HM).
  rewrite HM in Hf. 
  assert (Hr : M false (mkS (tl en ++ k) PreTagGi g pe [] []) = LRaise IndexErr []).
  { clear - He. destruct He as [w1 w2 n w3 H1 H2 Hl H3]. cbn [tl].
    repeat (rewrite <- !app_assoc; cbn [app]).
    rewrite M_eq. unfold mstep, s_tag, s_tag_body; cbn [sc ParserS.rest w_pend].
    rewrite blank_drop by auto. change (c_slash =? c_slash)%N with true. cbn [andb]. red_s. rewrite lprepend_nil.
    rewrite M_eq. unfold mstep, s_tag, s_tag_body; cbn [sc ParserS.rest w_pend andb].
    assert (Hend : forall w, blank w -> M false (mkS (w ++ c_gt :: k) CompleteTag n PendEnd [] []) = LRaise IndexErr []).
    { intros w0 Hw0. rewrite M_eq. unfold mstep, s_complete_tag; cbn [sc ParserS.rest spend andb sstk sgi].
      rewrite blank_drop by auto. change (c_gt =? c_gt)%N with true. reflexivity. }
    destruct Hl as [->|(c & r & -> & Hc & Hr)].
    - cbn [app]. rewrite app_assoc. rewrite blank_drop by (auto using blank_app).
      change (is_namestart c_gt) with false. red_s. rewrite lprepend_nil. apply (Hend []). intros x [].
    - cbn [app]. rewrite blank_drop by (auto using namestart_ws). rewrite Hc.
      destruct (name_drop r w3 c_gt k Hr H3 eq_refl) as [-> ->].
      destruct (w3 ++ c_gt :: k) eqn:E; [destruct w3; discriminate|]. rewrite <- E.
      red_s. rewrite lprepend_nil. apply Hend; auto. }
  rewrite Hr in Hf. exact Hf.
Qed.

(** ** After the document element (C13) *)
Lemma complete_feed s more w : ok_in w s -> sc (abs s) = CompleteDoc -> rest (abs s) = [] \/ blank (rest (abs s)) ->
  exists r, sends (GRun s) (nf more) = ([], r) /\
    (if forallb is_ws (concat more) then exists g, r = Suspended g else r = Raised RtJunk).
Proof.
  revert s w. induction more as [|f more IH]; intros s w Hok Hsc Hr; cbn [nf map].
  - cbn. eexists; split; [reflexivity|]. eauto.
  - rewrite sends_cons. destruct f as [|c f].
    + cbn [send]. unfold add_events; cbn [app fst snd concat].
      destruct (IH s w Hok Hsc Hr) as (r & Hr1 & Hr2). unfold nf in Hr1. rewrite Hr1. cbn. eauto.
    + set (F := c :: f). pose proof (send_M w s F false Hok ltac:(discriminate)) as Hs.
      assert (Hb : blank (rest (abs s))) by (destruct Hr as [-> |Hr]; [intros x []|auto]). clear Hr.
      assert (HM : M false (ext (abs s) F) = if forallb is_ws F then LStop (w_rest (abs s) []) [] else LRaise RtJunk []).
      { rewrite M_eq. unfold mstep, s_complete_doc. change (sc (ext (abs s) F)) with (sc (abs s)). rewrite Hsc.
        rewrite ext_rest. destruct (rest (abs s) ++ F) as [|z l] eqn:E. { destruct (rest (abs s)); discriminate. }
        rewrite <- E. rewrite dropw_skip by (apply forallb_In; exact Hb). clear E.
        destruct (forallb is_ws F) eqn:EF.
        - assert (dropw is_ws F = []) as ->.
          { clear - EF. induction F as [|x l IH]; auto. cbn [forallb dropw] in *.
            apply andb_true_iff in EF as [-> ?]. auto. }
          reflexivity.
        - destruct (dropw is_ws F) as [|y l'] eqn:E2.
          + apply dropw_nil_all in E2. congruence.
          + reflexivity. }
      rewrite HM in Hs. cbn [concat]. rewrite forallb_app. destruct (forallb is_ws F) eqn:EF; cbn [andb].
      * destruct Hs as (g & -> & s' & -> & Hok' & Ha).
        destruct (IH s' _ Hok') as (r & Hr1 & Hr2).
        -- rewrite Ha. exact Hsc.
        -- rewrite Ha. auto.
        -- unfold nf in Hr1. rewrite Hr1. unfold add_events; cbn. eauto.
      * rewrite Hs. eauto.
Qed.

(** Suspended in the completed state: everything read. *)
Lemma complete_rest : forall k s, mu s <= k ->
  match M false s with LStop s' e => sc s' = CompleteDoc -> rest s' = [] | _ => True end.
Proof.
  induction k as [k IHk] using lt_wf_ind. intros s Hk. rewrite M_eq.
  assert (Hgo : forall s' e, (mstep false s = Fall s' e \/ mstep false s = Again s' e) ->
    match lprepend e (M false s') with LStop s'' e => sc s'' = CompleteDoc -> rest s'' = [] | _ => True end).
  { intros s' e E. destruct (mstep_decreasing false s s' e E) as [Hd|Hd].
    - pose proof (IHk (mu s') ltac:(lia) s' ltac:(lia)) as H. destruct (M false s'); cbn; auto.
    - rewrite (M_stuck _ _ Hd). cbn. auto. }
  destruct (mstep false s) as [s' e|s' e|s' e|s' e|x e] eqn:E; cbn [flow_run]; [apply Hgo; auto|apply Hgo; auto| | |exact Logic.I].
  - pose proof (mstep_kind false s) as Hkd. rewrite E in Hkd. intros Hsc.
    unfold mstep in E. destruct s as [r c g pe st at0]. cbn [sc] in E. destruct c.
    + unfold s_pre_element in E; cbn [sc ParserS.rest] in E. destruct (dropw is_ws r) as [|c0 l]; [inversion E; subst; discriminate|].
      destruct (_ =? _)%N; discriminate.
    + unfold s_in_element in E; cbn [sc ParserS.rest] in E. destruct (s_cdata _ _ _); inversion E; subst; discriminate.
    + unfold s_tag, s_tag_body in E; cbn [sc ParserS.rest w_pend] in E. destruct (dropw is_ws r) as [|c0 l]; [inversion E; subst; discriminate|].
      destruct (_ && _); [discriminate|]. destruct (is_namestart _); [|discriminate].
      destruct (dropw is_namechar _); inversion E; subst; discriminate.
    + unfold s_tag, s_tag_body in E; cbn [sc ParserS.rest w_pend] in E. destruct (dropw is_ws r) as [|c0 l]; [inversion E; subst; discriminate|].
      destruct (_ && _); [discriminate|]. destruct (is_namestart _); [|discriminate].
      destruct (dropw is_namechar _); inversion E; subst; discriminate.
    + unfold s_complete_tag, s_after_gt in E; cbn [sc ParserS.rest] in E. destruct (dropw is_ws r) as [|c0 l]; [inversion E; subst; discriminate|].
      destruct (_ && _); [discriminate|]. destruct (_ =? _)%N; [|discriminate]. destruct pe.
      * cbn [ParserS.rest spend] in E. destruct l; inversion E; subst; discriminate.
      * cbn [spend sstk sgi] in E. destruct st; [discriminate|]. destruct (str_eqb _ _); [|discriminate].
        cbn [ParserS.rest] in E. destruct l; inversion E; subst; reflexivity.
    + unfold s_complete_doc in E; cbn [sc ParserS.rest] in E. destruct r; [discriminate|].
      destruct (dropw _ _); inversion E; subst; reflexivity.
    + unfold s_attribute, s_noa in E; cbn [sc ParserS.rest] in E.
      repeat match type of E with
      | (match ?x with _ => _ end) = _ => destruct x; try discriminate; try (inversion E; subst; discriminate)
      end.
  - intros Hsc. unfold mstep in E. destruct s as [r c g pe st at0]. cbn [sc] in E. destruct c.
    + unfold s_pre_element in E; cbn [sc ParserS.rest] in E. destruct (dropw is_ws r) as [|c0 l]; [discriminate|].
      destruct (_ =? _)%N; discriminate.
    + unfold s_in_element in E; cbn [sc ParserS.rest] in E. destruct (s_cdata _ _ _); discriminate.
    + unfold s_tag, s_tag_body in E; cbn [sc ParserS.rest w_pend] in E. destruct (dropw is_ws r) as [|c0 l]; [discriminate|].
      destruct (_ && _); [discriminate|]. destruct (is_namestart _); [|discriminate].
      destruct (dropw is_namechar _); discriminate.
    + unfold s_tag, s_tag_body in E; cbn [sc ParserS.rest w_pend] in E. destruct (dropw is_ws r) as [|c0 l]; [discriminate|].
      destruct (_ && _); [discriminate|]. destruct (is_namestart _); [|discriminate].
      destruct (dropw is_namechar _); discriminate.
    + unfold s_complete_tag, s_after_gt in E; cbn [sc ParserS.rest] in E. destruct (dropw is_ws r) as [|c0 l]; [discriminate|].
      destruct (_ && _); [discriminate|]. destruct (_ =? _)%N; [|discriminate]. destruct pe.
      * cbn [ParserS.rest spend] in E. destruct l; discriminate.
      * cbn [spend sstk sgi] in E. destruct st; [discriminate|]. destruct (str_eqb _ _); [|discriminate].
        cbn [ParserS.rest] in E. destruct l; discriminate.
    + unfold s_complete_doc in E; cbn [sc ParserS.rest] in E. destruct r; [inversion E; subst; reflexivity|].
      destruct (dropw _ _); discriminate.
    + unfold s_attribute, s_noa in E; cbn [sc ParserS.rest] in E.
      repeat match type of E with
      | (match ?x with _ => _ end) = _ => destruct x; try discriminate; try (inversion E; subst; discriminate)
      end.
Qed.

Lemma feed_ok pieces : forall w s, ok_in w s -> (sc (abs s) = CompleteDoc -> blank (rest (abs s))) ->
  match sends (GRun s) (nf pieces) with
  | (_, Suspended (GRun s')) => (exists w', ok_in w' s') /\ (sc (abs s') = CompleteDoc -> blank (rest (abs s')))
  | _ => True
  end.
Proof.
  induction pieces as [|f l IH]; intros w s Hok Hb; cbn [nf map].
  - cbn. eauto.
  - rewrite sends_cons. destruct f as [|c f].
    + cbn [send]. unfold add_events; cbn [app]. specialize (IH w s Hok Hb). unfold nf in IH.
      destruct (sends _ _); exact IH.
    + set (F := c :: f). pose proof (send_M w s F false Hok ltac:(discriminate)) as Hs.
      pose proof (complete_rest _ (ext (abs s) F) (le_n _)) as Hc.
      destruct (M false (ext (abs s) F)) as [t e|x e|e].
      * destruct Hs as (g & -> & s' & -> & Hok' & Ha).
        specialize (IH _ s' Hok'). unfold nf in IH. unfold add_events.
        destruct (sends (GRun s') _); cbn [fst snd]. apply IH. rewrite Ha. intros H. rewrite (Hc H). intros x [].
      * rewrite Hs. auto.
      * rewrite Hs. auto.
Qed.

Theorem after_complete_document pieces evs g more :
  feed pieces = (evs, Suspended g) -> complete_document evs ->
  exists o, feed (pieces ++ more) = (evs, o) /\
    (if forallb is_ws (concat more) then exists g', o = Suspended g' else o = Raised RtJunk).
Proof.
  intros H Hc. destruct (feed_suspended _ _ _ H) as (s & ->).
  rewrite (complete_iff _ _ _ H) in Hc.
  unfold feed in *. rewrite map_app, sends_app, H.
  pose proof (feed_ok pieces [] init_pst ok_init) as Hok. unfold nf in Hok.
  change (GRun init_pst) with new_parser in Hok. rewrite H in Hok.
  destruct Hok as [(w & Hok) Hb]; [discriminate|].
  destruct (complete_feed s more w Hok Hc (or_intror (Hb Hc))) as (r & Hr1 & Hr2).
  unfold nf in Hr1. rewrite Hr1. exists r. unfold add_events; cbn. rewrite app_nil_r. auto.
Qed.

(** ** Termination (C09) *)
Lemma stuck_pre s : stuck (mstep false) s -> sc s = PreElement.
Proof.
  intros H. destruct s as [r c g pe st at0]. unfold stuck, mstep in H. cbn [sc] in *. destruct c; auto; exfalso.
  - unfold s_in_element, s_noa in H; cbn [sc ParserS.rest] in H. destruct (s_cdata _ _ _); destruct H as [H|H]; inversion H.
  - unfold s_tag, s_tag_body, s_noa in H; cbn [sc ParserS.rest w_pend] in H.
    destruct (dropw is_ws r) as [|c0 l]; [destruct H as [H|H]; inversion H|].
    destruct (_ && _); [destruct H as [H|H]; inversion H|].
    destruct (is_namestart _); [|destruct H as [H|H]; inversion H].
    destruct (dropw is_namechar _); destruct H as [H|H]; inversion H.
  - unfold s_tag, s_tag_body, s_noa in H; cbn [sc ParserS.rest w_pend andb] in H.
    destruct (dropw is_ws r) as [|c0 l]; [destruct H as [H|H]; inversion H|].
    destruct (is_namestart _); [|destruct H as [H|H]; inversion H].
    destruct (dropw is_namechar _); destruct H as [H|H]; inversion H.
  - unfold s_complete_tag, s_after_gt, s_noa in H; cbn [sc ParserS.rest] in H.
    destruct (dropw is_ws r) as [|c0 l]; [destruct H as [H|H]; inversion H|].
    destruct (_ && _); [destruct H as [H|H]; inversion H|].
    destruct (_ =? _)%N; [|destruct H as [H|H]; inversion H]. destruct pe.
    + cbn [ParserS.rest spend] in H. destruct l; destruct H as [H|H]; inversion H.
    + cbn [spend sstk sgi] in H. destruct st; [destruct H as [H|H]; inversion H|].
      destruct (str_eqb _ _); [|destruct H as [H|H]; inversion H].
      cbn [ParserS.rest] in H. destruct l; destruct H as [H|H]; inversion H.
  - unfold s_complete_doc, s_noa in H; cbn [sc ParserS.rest] in H. destruct r; [destruct H as [H|H]; inversion H|].
    destruct (dropw _ _); destruct H as [H|H]; inversion H.
  - unfold s_attribute, s_noa in H; cbn [sc ParserS.rest] in H.
    destruct r as [|c0 r0]; [destruct H as [H|H]; inversion H|].
    destruct (dropw is_namechar r0) as [|c1 r1] eqn:E1; [destruct H as [H|H]; inversion H|].
    destruct (dropw is_ws (c1 :: r1)) as [|c r2] eqn:E2; [destruct H as [H|H]; inversion H|].
    destruct (_ =? _)%N; [|destruct H as [H|H]; inversion H].
    destruct r2 as [|q r3]; [destruct H as [H|H]; inversion H|].
    pose proof (dropw_cons_lt _ _ _ _ E1). pose proof (dropw_cons_lt _ _ _ _ E2). cbn [length] in *.
    destruct (is_quote q).
    + destruct (s_cdata _ _ _); destruct H as [H|H]; inversion H.
    + destruct H as [H|H]; inversion H. subst r3. cbn in *. lia.
Qed.

Lemma no_hang : forall k s, mu s <= k -> sc s <> PreElement ->
  match M false s with LStop s' _ => sc s' <> PreElement | LRaise _ _ => True | LHang _ => False end.
Proof.
  induction k as [k IHk] using lt_wf_ind. intros s Hk Hp. rewrite M_eq.
  pose proof (mstep_kind false s) as Hkd.
  assert (Hne : forall s' e, step_kind false s s' e -> sc s' <> PreElement).
  { intros s' e Hs. inversion Hs; subst; try congruence.
    - destruct (sc s) eqn:E; try congruence; repeat (destruct H2 as [H2|H2]); congruence.
    - rewrite H3. destruct (sstk s'); discriminate. }
  assert (Hgo : forall s' e, (mstep false s = Fall s' e \/ mstep false s = Again s' e) -> sc s' <> PreElement ->
    match lprepend e (M false s') with LStop s'' e => sc s'' <> PreElement | LRaise _ _ => True | LHang _ => False end).
  { intros s' e E Hs'. destruct (mstep_decreasing false s s' e E) as [Hd|Hd].
    - pose proof (IHk (mu s') ltac:(lia) s' ltac:(lia) Hs') as H. destruct (M false s'); cbn; auto.
    - apply stuck_pre in Hd. congruence. }
  destruct (mstep false s) as [s' e|s' e|s' e|s' e|x e] eqn:E; cbn [flow_run]; [apply Hgo; eauto|apply Hgo; eauto|eauto|eauto|exact Logic.I].
Qed.

(** What the machine does before the document element. *)
Lemma pre_element_cases s : sc s = PreElement ->
  (blank (rest s) /\ M false s = LStop (w_rest s []) []) \/
  (exists w k, rest s = w ++ c_lt :: k /\ blank w /\ M false s = M false (w_sc (w_rest s k) PreTagGi)) \/
  (junk_first (rest s) /\ M false s = LHang []).
Proof.
  intros Hs. destruct (dropw is_ws (rest s)) as [|c x] eqn:E.
  - left. split; [intros z; revert z; rewrite forallb_In; apply dropw_nil_all; auto|].
    rewrite M_eq. unfold mstep. rewrite Hs. unfold s_pre_element. rewrite Hs, E. reflexivity.
  - pose proof (ws_split _ _ _ E) as Hr. destruct (c =? c_lt)%N eqn:Ec.
    + right; left. apply N.eqb_eq in Ec; subst c. exists (takew is_ws (rest s)), x.
      split; auto. split; [apply takew_blank|].
      rewrite M_eq. unfold mstep. rewrite Hs. unfold s_pre_element. rewrite Hs, E.
      change (c_lt =? c_lt)%N with true. cbn match. cbn [flow_run]. apply lprepend_nil.
    + right; right. split.
      * exists (takew is_ws (rest s)), c, x. split; auto. split; [apply takew_blank|].
        split; [eapply dropw_head; eauto|apply N.eqb_neq; auto].
      * rewrite M_eq. unfold mstep. rewrite Hs. unfold s_pre_element. rewrite Hs, E, Ec. cbn [flow_run].
        rewrite M_stuck; [reflexivity|]. right. unfold mstep, s_pre_element, w_rest; cbn [sc ParserS.rest sgi spend sstk satt].
        rewrite Hs. cbn [dropw]. rewrite (dropw_head _ _ _ _ E), Ec. reflexivity.
Qed.

Lemma junk_blank_app w s : blank w -> (junk_first (w ++ s) <-> junk_first s).
Proof.
  intros Hw. split.
  - intros (u & c & r & H & Hu & Hc & Hn). unfold junk_first.
    assert (Hd : dropw is_ws (w ++ s) = c :: r) by (rewrite H; apply blank_drop; auto).
    rewrite dropw_skip in Hd by (apply forallb_In; exact Hw).
    exists (takew is_ws s), c, r. split; [apply ws_split; auto|]. split; [apply takew_blank|auto].
  - intros (u & c & r & -> & Hu & Hc & Hn). exists (w ++ u), c, r. rewrite <- app_assoc.
    split; [reflexivity|]. split; [apply blank_app; auto|auto].
Qed.
Lemma junk_not_blank s : blank s -> ~ junk_first s.
Proof.
  intros Hs (u & c & r & -> & Hu & Hc & Hn). assert (is_ws c = true); [|congruence].
  apply Hs, in_or_app. right; left; auto.
Qed.
Lemma junk_lt w k : blank w -> ~ junk_first (w ++ c_lt :: k).
Proof.
  intros Hw. rewrite (junk_blank_app w _ Hw). intros (u & c & r & H & Hu & Hc & Hn).
  destruct u as [|u0 u]; cbn in H; inversion H; subst; [congruence|].
  assert (is_ws c_lt = true) by (apply Hu; left; auto). discriminate.
Qed.

Lemma junk_app s k : junk_first s -> junk_first (s ++ k).
Proof.
  intros (u & c & r & -> & Hu & Hc & Hn). exists u, c, (r ++ k). rewrite <- app_assoc. cbn. auto.
Qed.

Lemma sends_hang_iff pieces : forall w s, ok_in w s -> (sc (abs s) = PreElement -> rest (abs s) = []) ->
  (snd (sends (GRun s) (nf pieces)) = Hung <-> sc (abs s) = PreElement /\ junk_first (concat pieces)).
Proof.
  induction pieces as [|f l IH]; intros w s Hok Hp; cbn [nf map].
  - cbn. split; [discriminate|]. intros [_ (u & c & r & H & _)]. destruct u; discriminate.
  - rewrite sends_cons. destruct f as [|c f].
    + cbn [send concat app]. unfold add_events; cbn [snd]. apply (IH w s Hok Hp).
    + set (F := c :: f). pose proof (send_M w s F false Hok ltac:(discriminate)) as Hs. cbn [concat].
      destruct (sc (abs s)) eqn:Esc.
      2-7: assert (Hnp : sc (ext (abs s) F) <> PreElement) by (change (sc (ext (abs s) F)) with (sc (abs s)); congruence);
        pose proof (no_hang _ _ (le_n _) Hnp) as Hn; destruct (M false (ext (abs s) F)) as [t e|x e|e];
        [destruct Hs as (g & -> & s' & -> & Hok' & Ha); unfold add_events; cbn [snd];
         specialize (IH _ s' Hok'); unfold nf in IH; rewrite IH;
         [rewrite Ha; intuition congruence | rewrite Ha; congruence]
        | rewrite Hs; cbn; intuition congruence
        | destruct Hn].
      specialize (Hp eq_refl).
      destruct (pre_element_cases (ext (abs s) F) Esc) as [[Hb HM]|[(u & k & Hr & Hu & HM)|[Hj HM]]];
        rewrite HM in Hs; try rewrite ext_rest, Hp in *; cbn [app] in *.
      * destruct Hs as (g & -> & s' & -> & Hok' & Ha). unfold add_events; cbn [snd].
        specialize (IH _ s' Hok'). unfold nf in IH. rewrite IH.
        -- rewrite Ha. change (sc (w_rest (ext (abs s) F) [])) with (sc (abs s)). rewrite Esc.
           rewrite (junk_blank_app F _ Hb). tauto.
        -- rewrite Ha. reflexivity.
      * assert (Hnj : ~ junk_first (F ++ concat l)).
        { rewrite Hr, <- app_assoc. cbn [app]. apply junk_lt; auto. }
        set (t0 := w_sc (w_rest (ext (abs s) F) k) PreTagGi) in *.
        assert (Hnp : sc t0 <> PreElement) by discriminate.
        pose proof (no_hang _ _ (le_n _) Hnp) as Hn.
        destruct (M false t0) as [t e|x e|e].
        -- destruct Hs as (g & -> & s' & -> & Hok' & Ha). unfold add_events; cbn [snd].
           specialize (IH _ s' Hok'). unfold nf in IH. rewrite IH; rewrite Ha; [intuition congruence|congruence].
        -- rewrite Hs. cbn. intuition congruence.
        -- destruct Hn.
      * rewrite Hs. cbn. split; auto. intros _. split; auto. apply (junk_app F); auto.
Qed.

Theorem feed_hang_iff pieces : snd (feed pieces) = Hung <-> junk_first (concat pieces).
Proof.
  unfold feed. change new_parser with (GRun init_pst).
  pose proof (sends_hang_iff pieces [] init_pst ok_init (fun _ => eq_refl)) as H. unfold nf in H. rewrite H.
  intuition.
Qed.
