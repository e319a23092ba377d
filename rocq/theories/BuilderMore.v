(** What the builders return (C20-C25). *)
From Verif Require Import PyStr CharClass Parser ParserM XTree Grammar ParserSpec ParserFrag ParserInv ParserMore ParserVal ParserClass.
From Verif Require Import Tree TreeSpec TreeFacts TreeMore Heap Builder HeapSpec BuilderFacts HeapFacts.

Lemma lenient_doc_elem text t : lenient_doc text t -> exists n a ks, t = XE n a ks.
Proof. intros (w1 & e & w2 & _ & _ & _ & H). inversion H; subst; eauto. Qed.
Lemma doc_partial t : (exists n a ks, t = XE n a ks) -> partial_tree (doc_events t) t.
Proof. intros H. split; [exact H|]. exists []. split; [constructor|rewrite app_nil_r; reflexivity]. Qed.

(** The events of a tree_parse are those of the text. *)
Lemma tree_parse_events s text s' r : tree_parse s text s' r ->
  exists evs g, sends new_parser [(text, false); ([], true)] = (evs, Suspended g) /\ run_events (reset s) evs s' /\ r = broot s'.
Proof. intros H. inversion H; subst. eauto. Qed.
Lemma tree_parse_exists s text evs g : feed [text] = (evs, Suspended g) -> exists s' r, tree_parse s text s' r.
Proof.
  intros H. pose proof (close_suspended [text] _ _ H) as Hc. cbn [map app] in Hc. do 2 eexists. eapply tp; [exact Hc|]. apply runs_exec.
Qed.
Lemma tree_parse_feed s text s' r evs g : feed [text] = (evs, Suspended g) -> tree_parse s text s' r ->
  run_events (reset s) evs s' /\ r = broot s'.
Proof.
  intros H Hp. pose proof (close_suspended [text] _ _ H) as Hc. cbn [map app] in Hc. destruct (tree_parse_events _ _ _ _ Hp) as (evs' & g' & He & Hr & ->).
  rewrite Hc in He. inversion He; subst. auto.
Qed.

Theorem tree_of_document text t : lenient_doc text t ->
  (forall s, exists s' r, tree_parse s text s' r) /\
  (forall s s' r, tree_parse s text s' r -> exists i, r = Some i /\ nxt (bheap s) <= i /\ holds_tree (bheap s') i t).
Proof.
  intros H. pose proof (lenient_doc_elem _ _ H) as Hx. apply parse_lenient in H as [(g & Hg) _]. split.
  - intros s. eapply tree_parse_exists; eauto.
  - intros s s' r Hp. destruct (tree_parse_feed _ _ _ _ _ _ Hg Hp) as [Hr ->].
    destruct (build_partial (reset s) _ _ _ eq_refl eq_refl (doc_partial t Hx) Hr) as (i & H1 & H2 & H3). eauto.
Qed.

(** ** No event, no tree *)
Lemma run_nothing s s' : run_events s [] s' -> broot s' = broot s.
Proof. intros H. inversion H as [s0 s1 Hc|]; subst. apply Hc. Qed.

Theorem tree_parse_same s1 s2 text s1' r1 s2' r2 : tree_parse s1 text s1' r1 -> tree_parse s2 text s2' r2 -> same_result s1' r1 s2' r2.
Proof.
  intros H1 H2. destruct (tree_parse_events _ _ _ _ H1) as (evs & g & He & Hr1 & ->).
  destruct (tree_parse_events _ _ _ _ H2) as (evs' & g' & He' & Hr2 & ->). rewrite He in He'. inversion He'; subst evs' g'.
  pose proof (sends_nested [(text, false); ([], true)]) as Hn. rewrite He in Hn. cbn [fst] in Hn.
  destruct evs as [|e evs].
  - left. apply run_nothing in Hr1, Hr2. rewrite Hr1, Hr2. auto.
  - right. destruct (nested_partial _ Hn ltac:(discriminate)) as (t & Ht).
    destruct (build_partial (reset s1) _ _ _ eq_refl eq_refl Ht Hr1) as (i1 & A1 & _ & A3).
    destruct (build_partial (reset s2) _ _ _ eq_refl eq_refl Ht Hr2) as (i2 & B1 & _ & B3). exists i1, i2, t. auto.
Qed.
(** It returns whenever it returns from another state. *)
Theorem tree_parse_returns s1 s2 text s1' r1 : tree_parse s1 text s1' r1 -> exists s2' r2, tree_parse s2 text s2' r2.
Proof.
  intros H. destruct (tree_parse_events _ _ _ _ H) as (evs & g & He & _ & _). do 2 eexists. eapply tp; [exact He|]. apply runs_exec.
Qed.

(** ** Objects that existed before are not touched *)
Definition opt_from (b : ref) (o : option ref) : Prop := forall i, o = Some i -> b <= i.
Definition fresh_from (b : ref) (h0 : heap) (s : bstate) : Prop :=
  b <= nxt (bheap s) /\ opt_from b (bpar s) /\ opt_from b (belem s) /\ opt_from b (btext s) /\
  (forall j o, b <= j -> hp (bheap s) j = Some o -> opt_from b (oparent o)) /\
  (forall j, j < b -> hp (bheap s) j = hp h0 j \/ hp (bheap s) j = None).

Lemma fresh_collect b h0 s s' : fresh_from b h0 s -> collect s s' -> fresh_from b h0 s'.
Proof.
  intros (H1 & H2 & H3 & H4 & H5 & H6) ((Hn & Hg) & Hr & Hp & He & Ht). unfold fresh_from. rewrite Hn, Hp, He, Ht.
  do 4 (split; [solve [auto]|]). split.
  - intros j o Hj Ho. apply (H5 j); auto. destruct (Hg j) as [E|[E _]]; congruence.
  - intros j Hj. destruct (Hg j) as [E|[E _]]; [rewrite E; auto|auto].
Qed.
Lemma fresh_append b h0 s p i : fresh_from b h0 s -> b <= p ->
  fresh_from b h0 (mkB (append_kid (bheap s) p i) (broot s) (bpar s) (belem s) (btext s)).
Proof.
  intros (H1 & H2 & H3 & H4 & H5 & H6) Hp. unfold fresh_from; cbn [bheap bpar belem btext]. rewrite append_nxt.
  do 4 (split; [solve [auto]|]). split.
  - intros j o Hj. unfold append_kid. destruct (hp (bheap s) p) as [[n a ks q|t q]|] eqn:E; try apply H5; auto.
    rewrite hp_upd. destruct (Nat.eqb_spec j p); [|apply H5; auto]. subst. intros Ho. inversion Ho; subst. apply (H5 p _ Hp E).
  - intros j Hj. rewrite append_same by lia. apply H6; auto.
Qed.
Lemma fresh_exec b h0 st s : fresh_from b h0 s -> fresh_from b h0 (exec st s).
Proof.
  intros Hf. pose proof Hf as (H1 & H2 & H3 & H4 & H5 & H6).
  assert (Ha : forall o, opt_from b (oparent o) ->
    b <= nxt (fst (alloc (bheap s) o)) /\ (forall j o', b <= j -> hp (fst (alloc (bheap s) o)) j = Some o' -> opt_from b (oparent o')) /\
    (forall j, j < b -> hp (fst (alloc (bheap s) o)) j = hp h0 j \/ hp (fst (alloc (bheap s) o)) j = None)).
  { intros o Ho. split; [cbn; lia|]. split.
    - intros j o' Hj. rewrite hp_alloc. destruct (Nat.eqb_spec j (nxt (bheap s))); [intros E; inversion E; subst; auto|apply H5; auto].
    - intros j Hj. rewrite hp_alloc. destruct (Nat.eqb_spec j (nxt (bheap s))); [lia|]. apply H6; auto. }
  destruct st; cbn [exec].
  - destruct (Ha (OElem n a [] (bpar s)) H2) as (A1 & A2 & A3). repeat split; auto. cbn. intros i E. inversion E; subst. exact H1.
  - destruct (bpar s) as [p|] eqn:Ep; [|exact Hf]. destruct (belem s) as [i|] eqn:Ei; [|exact Hf]. rewrite <- Ep, <- Ei. apply fresh_append; auto.
  - repeat split; auto.
  - destruct (broot s); [exact Hf|]. repeat split; auto.
  - destruct (Ha (OText t (bpar s)) H2) as (A1 & A2 & A3). repeat split; auto. cbn. intros i E. inversion E; subst. exact H1.
  - destruct (bpar s) as [p|] eqn:Ep; [|exact Hf]. destruct (btext s) as [i|] eqn:Ei; [|exact Hf]. rewrite <- Ep, <- Ei. apply fresh_append; auto.
  - destruct (bpar s) as [p|] eqn:Ep; [|exact Hf]. repeat split; auto. cbn [bpar]. intros i. unfold xml_parent.
    destruct (hp (bheap s) p) as [o|] eqn:E; [|discriminate]. destruct (oparent o) as [q|] eqn:Eq; [|discriminate].
    destruct (hp (bheap s) q); [|discriminate]. intros Hi. inversion Hi; subst. apply (H5 p o); auto.
Qed.
Lemma fresh_runs b h0 l : forall s s', fresh_from b h0 s -> runs s l s' -> fresh_from b h0 s'.
Proof.
  induction l as [|st l IH]; intros s s' Hf Hr; inversion Hr; subst.
  - eapply fresh_collect; eauto.
  - eapply IH; [|eassumption]. apply fresh_exec. eapply fresh_collect; eauto.
Qed.
Theorem tree_parse_frame s text s' r : allocated (bheap s) -> tree_parse s text s' r -> old_kept (bheap s) (bheap s').
Proof.
  intros Hal H. destruct (tree_parse_events _ _ _ _ H) as (evs & g & _ & Hr & _).
  assert (Hf : fresh_from (nxt (bheap s)) (bheap s) (reset s)).
  { repeat split; cbn; try lia; try (intros i Hi; discriminate); auto. intros j o Hj Ho. apply Hal in Ho. lia. }
  pose proof (fresh_runs _ _ _ _ _ Hf Hr) as (_ & _ & _ & _ & _ & H6). exact H6.
Qed.

(** ** xml.treebuilder *)
Lemma broot_exec st s r : broot s = Some r -> broot (exec st s) = Some r.
Proof. intros H. destruct st; cbn; auto; try (destruct (bpar s); auto; try destruct (belem s); try destruct (btext s); auto; fail). rewrite H; auto. Qed.
Lemma broot_runs l r : forall s s', broot s = Some r -> runs s l s' -> broot s' = Some r.
Proof.
  induction l as [|st l IH]; intros s s' H Hr; inversion Hr as [s0 s1 Hc|s0 s1 st0 l0 s2 Hc Hr']; subst.
  - destruct Hc as (_ & -> & _). exact H.
  - eapply IH; [|exact Hr']. apply broot_exec. destruct Hc as (_ & -> & _). exact H.
Qed.
Theorem xml_root_kept s evs s' r i : broot s = Some i -> xml_tree_parse s evs s' r -> r = Some i.
Proof. intros H Hp. inversion Hp; subst. eapply broot_runs; [|eassumption]. exact H. Qed.

(** Old trees reachable from the root survive. *)
Lemma holds_reach h roots :
  (forall p i t ids, holds h p i t ids -> reach h roots i -> forall j, In j ids -> reach h roots j) /\
  (forall q is ts ids, holds_all h q is ts ids -> (forall k, In k is -> reach h roots k) -> forall j, In j ids -> reach h roots j).
Proof.
  apply holds_both.
  - intros p i n a is ks idss Hi _ IH Hr j [<-|Hj]; auto. apply IH; auto. intros k Hk. eapply re_kid; eauto.
  - intros p i s Hi Hr j [<-|[]]; auto.
  - intros q _ j [].
  - intros q i is t ts ids idss _ IH1 _ IH2 Hr j Hj. apply in_app_or in Hj as [Hj|Hj].
    + apply IH1; auto. apply Hr; left; auto.
    + apply IH2; auto. intros k Hk; apply Hr; right; auto.
Qed.

Definition keeps (b : ref) (r : ref) (t : xtree) (s : bstate) : Prop :=
  broot s = Some r /\ (exists ids, holds (bheap s) None r t ids /\ NoDup ids /\ forall j, In j ids -> j < b) /\
  exists h0, fresh_from b h0 s.
Lemma keeps_collect b r t s s' : keeps b r t s -> collect s s' -> keeps b r t s'.
Proof.
  intros (H1 & (ids & Hh & Hn & Hb) & h0 & Hf) Hc. split; [destruct Hc as (_ & -> & _); exact H1|]. split; [|exists h0; eapply fresh_collect; eauto].
  exists ids. split; [|auto]. eapply (proj1 (holds_same (bheap s) (bheap s'))); [exact Hh|]. intros j Hj.
  destruct Hc as ((_ & Hg) & _). destruct (Hg j) as [E|[_ E]]; [exact E|]. exfalso. apply E.
  eapply (proj1 (holds_reach (bheap s) (broots s))); [exact Hh| |exact Hj]. apply re_root, in_roots_root, H1.
Qed.
Lemma exec_low b h0 st s j : fresh_from b h0 s -> j < b -> hp (bheap (exec st s)) j = hp (bheap s) j.
Proof.
  intros (H1 & H2 & H3 & H4 & H5 & H6) Hj. destruct st; cbn [exec].
  - cbn [alloc bheap hp]. destruct (Nat.eqb_spec j (nxt (bheap s))); [lia|reflexivity].
  - destruct (bpar s) as [p|] eqn:Ep; [|auto]. destruct (belem s); [|auto]. cbn [bheap]. pose proof (H2 p eq_refl). apply append_same; lia.
  - reflexivity.
  - destruct (broot s); reflexivity.
  - cbn [alloc bheap hp]. destruct (Nat.eqb_spec j (nxt (bheap s))); [lia|reflexivity].
  - destruct (bpar s) as [p|] eqn:Ep; [|auto]. destruct (btext s); [|auto]. cbn [bheap]. pose proof (H2 p eq_refl). apply append_same; lia.
  - destruct (bpar s); reflexivity.
Qed.
Lemma keeps_exec b r t st s : keeps b r t s -> keeps b r t (exec st s).
Proof.
  intros (H1 & (ids & Hh & Hn & Hb) & h0 & Hf). split; [apply broot_exec, H1|]. split; [|exists h0; apply fresh_exec, Hf].
  exists ids. split; [|auto]. eapply (proj1 (holds_same (bheap s) _)); [exact Hh|]. intros j Hj. eapply exec_low; eauto.
Qed.
Lemma keeps_runs b r t l : forall s s', keeps b r t s -> runs s l s' -> keeps b r t s'.
Proof.
  induction l as [|st l IH]; intros s s' H Hr; inversion Hr as [s0 s1 Hc|s0 s1 st0 l0 s2 Hc Hr']; subst.
  - eapply keeps_collect; eauto.
  - eapply IH; [|exact Hr']. apply keeps_exec. eapply keeps_collect; eauto.
Qed.

Lemma collect_allocated s s' : allocated (bheap s) -> collect s s' -> allocated (bheap s').
Proof. intros H ((Hn & Hg) & _) j o Hj. rewrite Hn. destruct (Hg j) as [E|[E _]]; [|congruence]. rewrite E in Hj. eauto. Qed.
Lemma exec_allocated st s : allocated (bheap s) -> allocated (bheap (exec st s)).
Proof.
  intros Hc.
  assert (Ha : forall p i, allocated (append_kid (bheap s) p i)).
  { intros p i j o. rewrite append_nxt. unfold append_kid. destruct (hp (bheap s) p) as [[]|] eqn:E; try apply Hc.
    rewrite hp_upd. destruct (Nat.eqb_spec j p); [subst; intros _; eapply Hc; eauto|apply Hc]. }
  assert (Hl : forall o, allocated (fst (alloc (bheap s) o))).
  { intros o j o'. rewrite hp_alloc. cbn. destruct (Nat.eqb_spec j (nxt (bheap s))); [lia|]. intros Hx. apply Hc in Hx. lia. }
  destruct st; cbn [exec].
  - apply (Hl (OElem n a [] (bpar s))).
  - destruct (bpar s); auto. destruct (belem s); auto. apply Ha.
  - exact Hc.
  - destruct (broot s); exact Hc.
  - apply (Hl (OText t (bpar s))).
  - destruct (bpar s); auto. destruct (btext s); auto. apply Ha.
  - destruct (bpar s); exact Hc.
Qed.
Lemma runs_allocated l : forall s s', allocated (bheap s) -> runs s l s' -> allocated (bheap s').
Proof.
  induction l as [|st l IH]; intros s s' H Hr; inversion Hr as [s0 s1 Hc|s0 s1 st0 l0 s2 Hc Hr']; subst.
  - eapply collect_allocated; eauto.
  - eapply IH; [|exact Hr']. apply exec_allocated. eapply collect_allocated; eauto.
Qed.

(** After a complete document: the first tree, unchanged, whatever is parsed next. *)
Lemma keeps_handler b r t s : keeps b r t s -> keeps b r t (mkB (bheap s) (broot s) (bpar s) None None).
Proof.
  intros (H1 & H2 & h0 & F1 & F2 & _ & _ & F3). split; [exact H1|]. split; [exact H2|]. exists h0.
  split; [exact F1|]. split; [exact F2|]. do 2 (split; [intros i Hi; discriminate|]). exact F3.
Qed.
Lemma keeps_parse b r t s evs s' r' : keeps b r t s -> xml_tree_parse s evs s' r' -> r' = Some r /\ keeps b r t s'.
Proof. intros H P. inversion P as [x1 x2 x3 R]; subst. pose proof (keeps_runs _ _ _ _ _ _ (keeps_handler _ _ _ _ H) R) as K. split; [apply K|exact K]. Qed.
Lemma keeps_tree b r t s : keeps b r t s -> holds_tree (bheap s) r t.
Proof. intros (_ & (ids & H & D & _) & _). exists ids. auto. Qed.
Lemma first_parse h t1 s1 r1 : (exists n a ks, t1 = XE n a ks) -> allocated h ->
  xml_tree_parse (new_builder h) (doc_events t1) s1 r1 -> r1 = Some (nxt h) /\ exists b, keeps b (nxt h) t1 (mkB (bheap s1) (broot s1) (bpar s1) None None).
Proof.
  intros (n & a & ks & ->) Hal H1. inversion H1 as [x1 x2 x3 Hr1]; subst.
  cbn [new_builder bheap broot bpar] in Hr1.
  assert (Hb : binv (nxt h) ZNone (mkB h None None None None)) by (repeat split; auto).
  pose proof (run_binv _ _ _ _ _ _ Hb (zrun_doc n a ks) Hr1) as Hb'. destruct (binv_placed _ _ _ _ Hb' eq_refl) as [B1 B2].
  cbn [binv] in Hb'. destruct Hb' as (_ & B3 & B4 & _).
  split; [exact B1|]. exists (nxt (bheap s1)). apply placed_holds in B2.
  split; [exact B1|]. split.
  - eexists. split; [exact B2|]. split; [apply seq_NoDup|]. intros j Hj. apply in_seq in Hj. lia.
  - exists (bheap s1). repeat split; cbn; try lia; try (intros i Hi; discriminate); auto.
    + rewrite B3. intros i Hi. discriminate.
    + intros j o Hj Ho. exfalso.
      apply (runs_allocated _ _ _ (Hal : allocated (bheap (mkB h None None None None))) Hr1) in Ho. lia.
Qed.
Theorem xml_second_parse h t1 s1 r1 evs s2 r2 : (exists n a ks, t1 = XE n a ks) -> allocated h ->
  xml_tree_parse (new_builder h) (doc_events t1) s1 r1 -> xml_tree_parse s1 evs s2 r2 ->
  exists i, r1 = Some i /\ r2 = Some i /\ holds_tree (bheap s1) i t1 /\ holds_tree (bheap s2) i t1.
Proof.
  intros He Hal H1 H2. destruct (first_parse h t1 s1 r1 He Hal H1) as (E & b & K). exists (nxt h). split; [exact E|].
  assert (P : xml_tree_parse (mkB (bheap s1) (broot s1) (bpar s1) None None) evs s2 r2) by (inversion H2; subst; constructor; assumption).
  destruct (keeps_parse _ _ _ _ _ _ _ K P) as (E2 & K2). split; [exact E2|]. split; [exact (keeps_tree _ _ _ _ K)|exact (keeps_tree _ _ _ _ K2)].
Qed.

(** ** The current parent while building *)
Lemma nest_znames open evs open' : nest open evs open' -> forall f fs z, open = znames (ZOpen f fs) ->
  zrun (ZOpen f fs) evs = Some z -> znames z = open'.
Proof.
  assert (Hd : forall evs open', nest [] evs open' -> evs = [] /\ open' = []).
  { intros e o H. inversion H; subst; auto; congruence. }
  intros H. induction H as [open|open n attrs evs open' Hne Hn IH|open n evs open' Hn IH|open t evs open' Hne Hn IH]; intros f fs z He Hz.
  - cbn in Hz. inversion Hz; subst. auto.
  - destruct f as [[n0 a0] k0]. cbn [zrun zstep] in Hz. eapply IH; [|exact Hz]. cbn. f_equal. exact He.
  - destruct f as [[n0 a0] k0]. cbn in He. injection He as <- He. cbn [zrun zstep] in Hz. destruct fs as [|[[n1 a1] k1] fs].
    + cbn in He. subst open. apply Hd in Hn as [-> ->]. cbn in Hz. inversion Hz; subst. reflexivity.
    + eapply IH; [|exact Hz]. exact He.
  - destruct f as [[n0 a0] k0]. cbn [zrun zstep] in Hz. eapply IH; [|exact Hz]. exact He.
Qed.

Theorem current_parent s evs open s' : broot s = None -> bpar s = None -> document_events evs open -> run_events s evs s' ->
  match open with
  | [] => bpar s' = None
  | n :: _ => exists i a ks p, bpar s' = Some i /\ hp (bheap s') i = Some (OElem n a ks p)
  end.
Proof.
  intros Hr Hp (n & a & evs' & -> & Hn) Hrun.
  assert (Hb : binv (nxt (bheap s)) ZNone s) by (repeat split; auto).
  destruct (nest_zrun _ _ _ Hn (n, a, []) [] eq_refl) as (z & Hz & _).
  pose proof (nest_znames _ _ _ Hn (n, a, []) [] z eq_refl Hz) as Hz'.
  assert (Hz2 : zrun ZNone (EvStart n a [] :: evs') = Some z) by exact Hz.
  pose proof (run_binv _ _ _ _ _ _ Hb Hz2 Hrun) as Hb'. destruct z as [|[[n0 a0] k0] fs|t]; cbn [binv] in Hb'.
  - cbn in Hz'. subst open. apply Hb'.
  - cbn in Hz'. subst open. destruct Hb' as (_ & B2 & _ & B4). cbn [spine] in B4. destruct B4 as (B4 & _). do 4 eexists. split; [exact B2|exact B4].
  - cbn in Hz'. subst open. apply Hb'.
Qed.

(** All executions of the same events give the same tree. *)
Theorem gc_independent s evs s1 s2 : broot s = None -> bpar s = None -> well_nested_prefix evs ->
  run_events s evs s1 -> run_events s evs s2 -> same_result s1 (broot s1) s2 (broot s2).
Proof.
  intros Hr Hp Hn H1 H2. destruct evs as [|e evs].
  - left. apply run_nothing in H1, H2. split; congruence.
  - right. destruct (nested_partial _ Hn ltac:(discriminate)) as (t & Ht).
    destruct (build_partial s _ _ _ Hr Hp Ht H1) as (i1 & A1 & _ & A3).
    destruct (build_partial s _ _ _ Hr Hp Ht H2) as (i2 & B1 & _ & B3). exists i1, i2, t. auto.
Qed.

(** ** Events handled after a truncated document *)
Lemma handler_anc t : forall anc anc', flat_map handler_stmts (tree_events anc t) = flat_map handler_stmts (tree_events anc' t).
Proof.
  induction t as [n a ks IH|s] using xtree_ind'; intros anc anc'; [|reflexivity]. cbn [tree_events flat_map]. rewrite !flat_map_app. f_equal. f_equal.
  generalize (anc ++ [n]) (anc' ++ [n]). intros l1 l2. induction IH as [|k ks Hk _ IHk]; [reflexivity|]. cbn [flat_map]. rewrite !flat_map_app. f_equal; [apply Hk|apply IHk].
Qed.
Theorem xml_graft h evs n open t2 s1 r1 s2 r2 : document_events evs (n :: open) -> (exists m a ks, t2 = XE m a ks) ->
  xml_tree_parse (new_builder h) evs s1 r1 -> xml_tree_parse s1 (doc_events t2) s2 r2 ->
  exists i t, r2 = Some i /\ holds_tree (bheap s2) i t /\ partial_tree (evs ++ tree_events (rev (n :: open)) t2) t.
Proof.
  intros Hd (m & a2 & ks2 & ->) H1 H2. inversion H1 as [x1 x2 x3 Hr1]; subst. inversion H2 as [y1 y2 y3 Hr2]; subst.
  cbn [new_builder bheap broot bpar] in Hr1. destruct Hd as (n1 & a1 & evs' & -> & Hn).
  assert (Hb : binv (nxt h) ZNone (mkB h None None None None)) by (repeat split; auto).
  destruct (nest_zrun _ _ _ Hn (n1, a1, []) [] eq_refl) as (z & Hz & Hev).
  pose proof (nest_znames _ _ _ Hn (n1, a1, []) [] z eq_refl Hz) as Hzn.
  assert (Hz2 : zrun ZNone (EvStart n1 a1 [] :: evs') = Some z) by exact Hz.
  pose proof (run_binv _ _ _ _ _ _ Hb Hz2 Hr1) as Hb'. destruct z as [|[[n0 a0] k0] fs|t]; cbn in Hzn; try discriminate.
  assert (Hb2 : binv (nxt h) (ZOpen (n0, a0, k0) fs) (mkB (bheap s1) (broot s1) (bpar s1) None None)) by exact Hb'.
  assert (Hr2' : run_events (mkB (bheap s1) (broot s1) (bpar s1) None None) (tree_events (rev (n :: open)) (XE m a2 ks2)) s2).
  { unfold run_events. rewrite (handler_anc _ _ []). exact Hr2. }
  pose proof (run_binv _ _ _ _ _ _ Hb2 (zrun_tree _ _ _ _ _ _) Hr2') as Hb3.
  destruct (binv_placed _ _ _ _ Hb3 eq_refl) as [B1 B2]. exists (nxt h). eexists. split; [exact B1|]. split; [apply placed_tree; exact B2|].
  split; [apply close_frames_elem; eauto|]. exists (ends_of ((n0, a0, k0 ++ [XE m a2 ks2]) :: fs)). split; [apply ends_are_ends|].
  rewrite close_events. f_equal. change (frames_events [(n1, a1, [])]) with [EvStart n1 a1 []] in Hev. cbn [app] in Hev.
  cbn [zevents] in Hev. rewrite <- Hev. cbn [frames_events]. unfold forest_events. rewrite flat_map_app. cbn [flat_map]. rewrite app_nil_r.
  change (anc_of ((n0, a0, k0 ++ [XE m a2 ks2]) :: fs)) with (anc_of ((n0, a0, k0) :: fs)).
  replace (rev (n :: open)) with (anc_of ((n0, a0, k0) :: fs)) by (rewrite <- Hzn; reflexivity).
  repeat (rewrite <- !app_assoc; cbn [app]). reflexivity.
Qed.

(** ** Round trips through the tree builder *)
Theorem round_trip n a ks : writable (XE n a ks) ->
  (forall s, exists s' r, tree_parse s (xml_encode (XE n a ks)) s' r) /\
  (forall s s' r, tree_parse s (xml_encode (XE n a ks)) s' r ->
     exists i, r = Some i /\ holds_tree (bheap s') i (normal (XE n a ks))).
Proof.
  intros H. destruct (tree_of_document _ _ (encode_doc n a ks H)) as [H1 H2]. split; [exact H1|].
  intros s s' r Hp. destruct (H2 s s' r Hp) as (i & -> & _ & Hh). eauto.
Qed.
Theorem round_trip_exact n a ks : writable (XE n a ks) -> normalised (XE n a ks) -> forall s s' r,
  tree_parse s (xml_encode (XE n a ks)) s' r -> exists i, r = Some i /\ holds_tree (bheap s') i (XE n a ks).
Proof. intros H Hn s s' r Hp. rewrite <- (normal_id _ Hn). exact (proj2 (round_trip n a ks H) s s' r Hp). Qed.

Lemma plain_events_tree t : forall anc, plain_events (tree_events anc t) -> ~ has_line_break_value t.
Proof.
  induction t as [n a ks IH|s] using xtree_ind'; intros anc H Hb; [|inversion Hb].
  inversion Hb as [n0 a0 ks0 k v Hi Hv|n0 a0 ks0 k Hk Hx]; subst.
  - apply Hv. eapply H; [left; reflexivity|exact Hi].
  - rewrite Forall_forall in IH. apply (IH k Hk (anc ++ [n])); auto.
    intros n1 d an k1 v1 Hin Hkv. eapply H; [|exact Hkv]. right. apply in_or_app. left. apply in_flat_map. eauto.
Qed.
Theorem break_lost t : named t -> has_line_break_value t ->
  (forall s, exists s' r, tree_parse s (xml_encode t) s' r) /\
  (forall s s' r, tree_parse s (xml_encode t) s' r ->
     r = None \/ exists i t', r = Some i /\ holds_tree (bheap s') i t' /\ ~ has_line_break_value t').
Proof.
  intros Hn Hb. destruct (break_incomplete t Hn Hb []) as (evs & g & Hf & _ & Hpe). rewrite app_nil_r in Hf. split.
  - intros s. eapply tree_parse_exists; eauto.
  - intros s s' r Hp. destruct (tree_parse_feed _ _ _ _ _ _ Hf Hp) as [Hr ->].
    pose proof (sends_nested [(xml_encode t, false)]) as Hw. change (sends new_parser [(xml_encode t, false)]) with (feed [xml_encode t]) in Hw.
    rewrite Hf in Hw. cbn [fst] in Hw. destruct evs as [|e evs]; [left; apply run_nothing in Hr; exact Hr|]. right.
    destruct (nested_partial _ Hw ltac:(discriminate)) as (t' & Ht).
    destruct (build_partial (reset s) _ _ _ eq_refl eq_refl Ht Hr) as (i & A1 & _ & A3). exists i, t'. split; [exact A1|]. split; [exact A3|].
    destruct Ht as (_ & ends & He & Hd). apply (plain_events_tree t' []). change (tree_events [] t') with (doc_events t'). rewrite Hd.
    apply plain_events_app; auto. intros n d anc k v Hi _. rewrite Forall_forall in He. destruct (He _ Hi) as (m & an & E). discriminate.
Qed.

(** ** Serialisation determines the tree *)
Theorem encode_injective n a ks n' a' ks' :
  writable (XE n a ks) -> writable (XE n' a' ks') -> normalised (XE n a ks) -> normalised (XE n' a' ks') ->
  xml_encode (XE n a ks) = xml_encode (XE n' a' ks') -> XE n a ks = XE n' a' ks'.
Proof.
  intros Hw Hw' Hn Hn' He. destruct (proj1 (round_trip n a ks Hw) (new_builder empty_heap)) as (s & r & Hp).
  destruct (round_trip_exact n a ks Hw Hn _ _ _ Hp) as (i & Hi & Hh). rewrite He in Hp.
  destruct (round_trip_exact n' a' ks' Hw' Hn' _ _ _ Hp) as (i' & Hi' & Hh'). rewrite Hi in Hi'. inversion Hi'; subst i'.
  eapply holds_tree_det; eauto.
Qed.

(** ** Building keeps heaps well linked *)
Lemma fend_size b fs : forall n a ks, fend b ((n, a, ks) :: fs) = b + tree_size (close_frames (XE n a ks) fs).
Proof.
  induction fs as [|[[n' a'] ks'] fs IH]; intros n a ks.
  - cbn. unfold size_all. lia.
  - cbn [close_frames]. rewrite <- fend_close. apply IH.
Qed.
Lemma binv_size b z s t : binv b z s -> zclose z = Some t -> nxt (bheap s) = b + tree_size t.
Proof.
  intros Hb Hc. destruct z as [|[[n a] ks] fs|t0]; cbn in Hc; inversion Hc; subst; clear Hc.
  - destruct Hb as (_ & _ & -> & _). apply fend_size.
  - destruct Hb as (_ & _ & -> & _). reflexivity.
Qed.
Lemma offsets_low ks : forall i j, In j (offsets i ks) -> i <= j.
Proof. induction ks as [|k ks IH]; intros i j; cbn; [intros []|]. intros [->|H]; [lia|]. apply IH in H. lia. Qed.
Lemma offsets_nodup ks : forall i, NoDup (offsets i ks).
Proof.
  induction ks as [|k ks IH]; intros i; cbn; constructor; auto. intros H. apply offsets_low in H. pose proof (size_pos k). lia.
Qed.
Lemma placed_nodup h :
  (forall p i t, placed h p i t -> forall j o, i <= j < i + tree_size t -> hp h j = Some o -> NoDup (okids o)) /\
  (forall q i ts, placed_all h q i ts -> forall j o, i <= j < i + size_all ts -> hp h j = Some o -> NoDup (okids o)).
Proof.
  apply placed_both.
  - intros p i n a ks Hi _ IH j o Hj Ho. cbn in Hj. fold (size_all ks) in Hj. destruct (Nat.eq_dec j i) as [->|Hn].
    + rewrite Hi in Ho. inversion Ho; subst. apply offsets_nodup.
    + eapply IH; [|exact Ho]. lia.
  - intros p i s Hi j o Hj Ho. cbn in Hj. replace j with i in Ho by lia. rewrite Hi in Ho. inversion Ho; subst. constructor.
  - intros q i j o Hj. cbn in Hj. lia.
  - intros q i k ks _ IH1 _ IH2 j o Hj Ho. cbn in Hj. fold (size_all ks) in Hj. destruct (Nat.lt_ge_cases j (i + tree_size k)).
    + eapply IH1; [|exact Ho]. lia.
    + eapply IH2; [|exact Ho]. lia.
Qed.

Lemma runs_nothing_nxt s s' : run_events s [] s' -> nxt (bheap s') = nxt (bheap s).
Proof. intros H. inversion H as [s0 s1 Hc|]; subst. apply Hc. Qed.

Lemma parse_well_linked s text s' r : well_linked (bheap s) -> tree_parse s text s' r ->
  (forall j, j < nxt (bheap s) -> hp (bheap s') j = hp (bheap s) j) -> well_linked (bheap s').
Proof.
  intros Hw Hp Hsame. pose proof Hw as (Hb & Hl & Hnt & Hall).
  destruct (tree_parse_events _ _ _ _ Hp) as (evs & g & He & Hr & _).
  pose proof (runs_allocated _ _ _ (Hb : allocated (bheap (reset s))) Hr) as Hal.
  pose proof (sends_nested [(text, false); ([], true)]) as Hn. rewrite He in Hn. cbn [fst] in Hn.
  destruct evs as [|e evs].
  - apply runs_nothing_nxt in Hr. cbn [reset bheap] in Hr.
    assert (Hs : forall j, hp (bheap s') j = hp (bheap s) j).
    { intros j. destruct (Nat.lt_ge_cases j (nxt (bheap s))); [auto|].
      destruct (hp (bheap s') j) eqn:E; [apply Hal in E; lia|]. destruct (hp (bheap s) j) eqn:E2; [apply Hb in E2; lia|]. reflexivity. }
    assert (Hc : forall p c, child (bheap s') p c <-> child (bheap s) p c) by (intros; unfold child; rewrite Hs; tauto).
    assert (Hc2 : forall c p, parent_is (bheap s') c p <-> parent_is (bheap s) c p) by (intros; unfold parent_is; rewrite Hs; tauto).
    apply well_linked_intro.
    + intros j o Hj. rewrite Hr. rewrite Hs in Hj. eapply Hb; eauto.
    + intros p c. rewrite Hc, Hc2. apply Hl.
    + intros j o Hj. rewrite Hs in Hj. eapply Hnt; eauto.
    + intros j o Hj. rewrite Hs in Hj. destruct (Hall _ _ Hj) as (t & ids & Hh & _). exists t, ids.
      eapply (proj1 (holds_same (bheap s) _)); [exact Hh|]. auto.
  - destruct (nested_partial _ Hn ltac:(discriminate)) as (t & Ht). destruct (partial_zrun _ _ Ht) as (z & Hz & Hc).
    assert (Hbi : binv (nxt (bheap s)) ZNone (reset s)) by (repeat split; auto).
    pose proof (run_binv _ _ _ _ _ _ Hbi Hz Hr) as Hb'. destruct (binv_placed _ _ _ _ Hb' Hc) as [_ Hpl].
    pose proof (binv_size _ _ _ _ Hb' Hc) as Hsz. pose proof (proj1 (placed_holds _) _ _ _ Hpl) as Hh.
    eapply (beside_well_linked (bheap s)); [exact Hw|exact Hsame|exact Hh|apply seq_NoDup| | |].
    + intros j. rewrite in_seq. lia.
    + intros j Hj. destruct (hp (bheap s') j) eqn:E; auto. apply Hal in E. lia.
    + intros j o Hj. destruct (Nat.lt_ge_cases j (nxt (bheap s))).
      * rewrite Hsame in Hj by auto. eapply Hnt; eauto.
      * eapply (proj1 (placed_nodup _)); [exact Hpl| |exact Hj]. apply Hal in Hj. lia.
Qed.

Theorem edit_well_linked h h' : well_linked h -> edit h h' -> well_linked h'.
Proof.
  intros Hw He. destruct He as [h n a|h s|h self i index h' H1 H2 H3 H4|h self c s index h' H1 H2|h self i h' H1 H2|s text s' r H1 H2].
  - apply alloc_well_linked; auto.
  - apply alloc_well_linked; auto.
  - eapply insert_elem_well_linked; eauto.
  - eapply insert_text_well_linked; eauto.
  - eapply remove_elem_well_linked; eauto.
  - eapply parse_well_linked; eauto.
Qed.
Theorem edits_well_linked h h' : well_linked h -> edits h h' -> well_linked h'.
Proof. intros Hw He. induction He as [h|h h1 h2 H _ IH]; [exact Hw|]. apply IH. eapply edit_well_linked; eauto. Qed.
Lemma empty_well_linked : well_linked empty_heap.
Proof.
  split; [intros i o H; discriminate|]. split.
  - intros p i. split; intros (o & H & _); discriminate.
  - split; intros i o H; discriminate.
Qed.
Theorem editing_well_linked h : edits empty_heap h -> well_linked h.
Proof. apply edits_well_linked, empty_well_linked. Qed.

(** ** Witnesses *)
(** An element 0 with two equal text children 1 and 2. *)
Definition twins : heap := mkH (fun j => match j with
  | 0 => Some (OElem (lit "a") [] [1; 2] None) | 1 => Some (OText (lit "t") (Some 0)) | 2 => Some (OText (lit "t") (Some 0))
  | _ => None end) 3.
Lemma twins_edits : exists h, edits empty_heap h /\ hp h 0 = hp twins 0 /\ hp h 1 = hp twins 1 /\ hp h 2 = hp twins 2.
Proof.
  eexists. split.
  - eapply eds_cons; [apply (ed_new_elem empty_heap (lit "a") [])|].
    eapply eds_cons; [eapply (ed_insert_text _ 0 (AStr (lit "t")) (lit "t") (-1)); [left; reflexivity|vm_compute; reflexivity]|].
    eapply eds_cons; [eapply (ed_insert_text _ 0 (AStr (lit "t")) (lit "t") (-1)); [left; reflexivity|vm_compute; reflexivity]|].
    apply eds_nil.
  - vm_compute. auto.
Qed.
Lemma text_removal_breaks : exists h self c h', well_linked h /\ child h self c /\ xml_remove h self (ARef c) = EOk h' /\
  child h' self c /\ parent_is h' c None.
Proof.
  destruct twins_edits as (h & He & H0 & H1 & H2). exists h, 0, 2.
  destruct (remove_text_first h 0 (lit "a") [] [] 1 [] 2 [] None (lit "t") H0) as (h' & A0 & A1 & A2 & _).
  - eexists; exact H1.
  - eexists; exact H2.
  - discriminate.
  - intros x [].
  - exists h'. split; [apply editing_well_linked, He|]. split; [eexists; split; [exact H0|right; left; reflexivity]|]. split; [exact A0|].
    split; [eexists; split; [exact A1|left; reflexivity]|]. eexists. split; [exact A2|reflexivity].
Qed.
(** Two elements 0 and 1, with 2 a child of 0. *)
Lemma insert_breaks : exists h self i index h', well_linked h /\ is_elem h i /\
  xml_insert h self (ARef i) index = EOk h' /\ ~ linked h'.
Proof.
  assert (H : exists h, edits empty_heap h /\ hp h 0 = Some (OElem (lit "a") [] [2] None) /\ hp h 1 = Some (OElem (lit "b") [] [] None) /\
     hp h 2 = Some (OElem (lit "c") [] [] (Some 0))).
  { eexists. split.
    - eapply eds_cons; [apply (ed_new_elem empty_heap (lit "a") [])|].
      eapply eds_cons; [apply (ed_new_elem _ (lit "b") [])|].
      eapply eds_cons; [apply (ed_new_elem _ (lit "c") [])|].
      eapply eds_cons; [eapply (ed_insert_elem _ 0 2 (-1)); [do 4 eexists; reflexivity|eexists; split; reflexivity| |vm_compute; reflexivity]|].
      { intros H. inversion H as [|q j x H1 (o & Ho & Hin)]; subst. destruct j as [|[|[|j]]]; cbn in Ho; inversion Ho; subst; destruct Hin. }
      apply eds_nil.
    - vm_compute. auto. }
  destruct H as (h & He & H0 & H1 & H2). pose proof (editing_well_linked h He) as Hw.
  assert (Hi : is_elem h 2) by (do 4 eexists; exact H2).
  destruct (insert_elem_at h 1 _ _ _ _ 2 0 H1 Hi ltac:(discriminate)) as (h' & A0 & _).
  exists h, 1, 2, 0%Z, h'. split; [exact Hw|]. split; [exact Hi|]. split; [exact A0|]. intros Hl.
  destruct (insert_two_parents h 1 0 2 0 h' ltac:(discriminate) Hi ltac:(discriminate)) as (B1 & _ & (o & Ho & Hp)); [eexists; split; [exact H0|left; reflexivity]|exact A0|].
  apply Hl in B1. destruct B1 as (o' & Ho' & Hp'). congruence.
Qed.

(** ** Indentation *)
Lemma indent_doc indent n a ks : blank indent -> writable (XE n a ks) ->
  exists t, lenient_doc (element_encode indent 0 (XE n a ks)) t /\ skeleton (doc_events t) = skeleton (doc_events (normal (XE n a ks))).
Proof.
  intros Hb Hw. exists (normal (indented indent 0 (XE n a ks))). split.
  - rewrite (encode_indented indent (XE n a ks) Hb 0). apply encode_doc. apply (indented_writable indent _ Hw 0).
  - apply skeleton_indented. exact Hb.
Qed.
Theorem indent_round_trip indent n a ks : blank indent -> writable (XE n a ks) -> forall s s' r,
  tree_parse s (element_encode indent 0 (XE n a ks)) s' r ->
  exists i t, r = Some i /\ holds_tree (bheap s') i t /\
    skeleton (doc_events t) = skeleton (doc_events (normal (XE n a ks))).
Proof.
  intros Hb Hw s s' r Hp. destruct (indent_doc indent n a ks Hb Hw) as (t & Hd & Hs).
  destruct (proj2 (tree_of_document _ _ Hd) _ _ _ Hp) as (i & -> & _ & Hh). eauto.
Qed.
Theorem indent_returns indent n a ks : blank indent -> writable (XE n a ks) -> forall s,
  exists s' r, tree_parse s (element_encode indent 0 (XE n a ks)) s' r.
Proof. intros Hb Hw. destruct (indent_doc indent n a ks Hb Hw) as (t & Hd & _). apply (proj1 (tree_of_document _ _ Hd)). Qed.
