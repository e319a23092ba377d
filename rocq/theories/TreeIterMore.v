(** What the sender sends, what it keeps, and several patterns. *)
From Verif Require Import PyStr Parser ParserM XTree Grammar ParserSpec ParserInv ParserMore Heap Builder HeapSpec BuilderFacts HeapFacts BuilderMore.
From Verif Require Import Path Nodes Pattern PatternSpec PatternFacts TreeUtil TreeUtilSpec TreeUtilFacts.
From Verif Require Import TreeIter TreeIterSpec TreeIterFacts.

(** ** Executions exist *)
Lemma tcollect_refl s : tcollect s s.
Proof. split; [apply incl_refl|]. repeat split; auto. Qed.
Lemma texec_exists st s : exists s', texec st s s'.
Proof. destruct st; eexists; solve [constructor; auto]. Qed.
Lemma truns_exists l : forall s, exists s', truns s l s'.
Proof.
  induction l as [|st l IH]; intros s; [exists s; constructor; apply tcollect_refl|].
  destruct (texec_exists st s) as (s1 & H1). destruct (IH s1) as (s2 & H2). exists s2. econstructor; [apply tcollect_refl|exact H1|exact H2].
Qed.
Lemma thandle_exists ss evs : forall s, exists s' x, thandle ss s evs s' x.
Proof.
  induction evs as [|e evs IH]; intros s; [exists s, None; constructor; apply tcollect_refl|].
  destruct (ctl_all ss 0 (tctl s) e) as [[l c] x] eqn:E. destruct (truns_exists l s) as (s1 & H1). destruct x as [x|].
  - exists (set_ctl s1 c), (Some x). eapply th_exn; eauto.
  - destruct (IH (set_ctl s1 c)) as (s' & x & H). exists s', x. eapply th_step; eauto.
Qed.

(** ** Allocation and the last text node *)
Definition sane (s : tstate) : Prop :=
  allocated (theap s) /\ forall i, ttext s = Some i -> i < nxt (theap s) /\ exists x p, hp (theap s) i = Some (OText x p).
Lemma append_old h p i j x q : hp h j = Some (OText x q) -> hp (append_kid h p i) j = Some (OText x q).
Proof.
  intros H. unfold append_kid. destruct (hp h p) as [[n a ks r|y r]|] eqn:E; auto. rewrite hp_upd.
  destruct (Nat.eqb j p) eqn:Ej; auto. apply Nat.eqb_eq in Ej; subst. congruence.
Qed.
Lemma append_alloc h p i : allocated h -> allocated (append_kid h p i).
Proof.
  intros H j o Hj. rewrite append_nxt. unfold append_kid in Hj. destruct (hp h p) as [[n a ks r|y r]|] eqn:E; [|eapply H; exact Hj..].
  rewrite hp_upd in Hj. destruct (Nat.eqb j p) eqn:Ej; [|eapply H; exact Hj]. apply Nat.eqb_eq in Ej; subst. eapply H; exact E.
Qed.
Lemma alloc_alloc h o : allocated h -> allocated (fst (alloc h o)).
Proof. intros H j o' Hj. cbn in *. destruct (Nat.eqb j (nxt h)) eqn:E; [apply Nat.eqb_eq in E; lia|]. apply H in Hj. lia. Qed.
Lemma sane_exec st s s' : sane s -> texec st s s' -> sane s'.
Proof.
  intros [Ha Ht] Hx. inversion Hx; subst; unfold sane; cbn [theap ttext]; try (split; solve [auto]).
  - split; [apply alloc_alloc; auto|]. intros i Hi. destruct (Ht i Hi) as (H1 & x & p & H2). split; [cbn; lia|]. exists x, p.
    cbn. replace (Nat.eqb i (nxt (theap s))) with false by (symmetry; apply Nat.eqb_neq; lia). auto.
  - destruct (tpar s), (telem s); try (split; solve [auto]). split; [apply append_alloc; auto|]. intros i Hi. destruct (Ht i Hi) as (H1 & x & p & H2).
    rewrite append_nxt. split; auto. exists x, p. apply append_old; auto.
  - split; [apply alloc_alloc; auto|]. intros i Hi. inversion Hi; subst. split; [cbn; lia|]. exists t, (tpar s). cbn. rewrite Nat.eqb_refl. auto.
  - destruct (tpar s), (ttext s) eqn:E; try (split; solve [auto]). split; [apply append_alloc; auto|]. intros i Hi. destruct (Ht i Hi) as (H1 & x & p & H2).
    rewrite append_nxt. split; auto. exists x, p. apply append_old; auto.
  - destruct (tpar s); split; auto.
Qed.
Lemma sane_collect s s' : sane s -> tcollect s s' -> sane s'.
Proof.
  intros [Ha Ht] (_ & (Hn & Hg) & _ & _ & _ & _ & _ & E & _). split.
  - intros j o Hj. rewrite Hn. destruct (Hg j) as [G|[G _]]; [rewrite G in Hj; eapply Ha; eauto|congruence].
  - intros i Hi. rewrite E in Hi. destruct (Ht i Hi) as (H1 & x & p & H2). rewrite Hn. split; auto. exists x, p.
    destruct (Hg i) as [G|[_ G]]; [congruence|]. exfalso. apply G, re_root. unfold tlive. rewrite Hi. rewrite !in_app_iff. cbn. auto 8.
Qed.
Lemma sane_runs l : forall s s', sane s -> truns s l s' -> sane s'.
Proof.
  induction l as [|st l IH]; intros s s' Hs H; inversion H; subst; [eapply sane_collect; eauto|].
  eapply IH; [|eassumption]. eapply sane_exec; [|eassumption]. eapply sane_collect; eauto.
Qed.
Lemma sane_handle ss evs : forall s s' x, sane s -> thandle ss s evs s' x -> sane s'.
Proof.
  induction evs as [|e evs IH]; intros s s' x Hs H; inversion H; subst.
  - eapply sane_collect; eauto.
  - eapply IH; [|eassumption]. eapply sane_runs in Hs; [|eassumption]. exact Hs.
  - eapply sane_runs in Hs; [|eassumption]. exact Hs.
Qed.

(** ** Between documents *)
Definition kept_now (s : tstate) (i : nat) (t : xtree) : Prop := In i (tkept s) /\ holds_tree (theap s) i t.
Definition ready (s : tstate) : Prop := sane s /\ tinv true (nxt (theap s)) [] AIdle (kept_now s) (new_handler s).

Lemma kinv_now s : allocated (theap s) -> kinv (nxt (theap s)) (kept_now s) (new_handler s).
Proof.
  intros Ha i t [Hk (ids & H1 & H2)]. assert (G : forall j, In j ids -> j < nxt (theap s)).
  { intros j Hj. destruct (proj1 (holds_live (theap s)) _ _ _ _ H1 j Hj) as (o & Ho). eapply Ha; eauto. }
  split; [apply G; eapply holds_head; eauto|]. intros _. exists ids. auto.
Qed.
Lemma ready_again b l s' : tinv true b [] AIdle l s' -> sane s' -> ready s'.
Proof.
  intros [H1 H2 H3 H4 H5 H6] Hs. split; auto. destruct H4 as [H4 H4']. constructor.
  - exact H1.
  - cbn. rewrite H2, H4. reflexivity.
  - exact H3.
  - cbn. auto.
  - apply kinv_now. apply Hs.
  - intros _. destruct (H6 eq_refl) as [([G1 G1'] & G2 & G3)|(b0 & t0 & G1 & G2 & G3)]; [left; cbn; auto|]. right. exists b0, t0. split; [|split; [|exact G3]].
    + destruct G1 as (K1 & K2 & K3 & K4). repeat split; auto.
    + intros e He. discriminate.
Qed.
Lemma prep_not_matched p : p <> [] -> prep p <> PMatched.
Proof. intros H E. apply H, prep_matched; auto. Qed.
Lemma hits_nil s : hits s [] = false. Proof. reflexivity. Qed.
Lemma nil_hits s : forall x y : list str, [] = x ++ y -> hits s x = false.
Proof. intros x y E. symmetry in E. apply app_eq_nil in E as [-> _]. reflexivity. Qed.

(** What one complete document does. *)
Lemma one_document p s t s' x : ready s -> p <> [] -> (forall names, fails (prep p) names = false) ->
  thandle (stateses [p]) (new_handler s) (doc_events t) s' x ->
  let out := map snd (found (hits (prep p)) [] t) in
  x = None /\ ready s' /\ sent_since s s' 0 out /\ kept_intact s s' /\ nxt (theap s') = nxt (theap s) + total_size out.
Proof.
  intros [Hs Hi] Hp Hf Hh out. pose proof (arun_idle (prep p) t Hf (prep_not_matched p Hp) [] (nil_hits _)) as Ha.
  destruct (run_ok _ _ _ _ _ _ _ _ _ _ _ _ _ Hi Hh Ha) as (-> & lst & H1 & H2 & H3). fold out in H2, H3. split; auto.
  assert (Hs' : sane s').
  { eapply sane_handle; [|exact Hh]. destruct Hs as [Hs1 _]. split; auto. cbn. intros i Hi'. discriminate. }
  split; [eapply ready_again; eauto|]. cbn in H1. split; [exists lst; auto|]. destruct H3 as [E1 E2 E3 [E4 E4'] E5 E6]. split; [|exact E4'].
  split.
  - intros i t0 Hk Hk' Ht. destruct (E5 i t0) as [_ G]; [left; split; auto|]. destruct (G Hk') as (ids & G1 & G2 & _). exists ids; auto.
  - intros ix i h t0 Hin Hn Hk Ht. rewrite H1 in Hin. apply in_app_iff in Hin as [Hin|Hin]; [contradiction|].
    assert (ix = 0).
    { clear - H2 Hin. induction H2 as [|y u l l' (j & h' & -> & _) _ IH]; [destruct Hin|]. destruct Hin as [E|Hin]; [inversion E; auto|auto]. }
    subst ix. destruct (E5 i t0) as [_ G]; [right; exists h; auto|]. destruct (G Hk) as (ids & G1 & G2 & _). exists ids; auto.
Qed.
Lemma served_ready p s : p <> [] -> (forall names, fails (prep p) names = false) -> served p s -> ready s.
Proof.
  intros Hp Hf H. induction H as [h Ha|s t s' Hs IH Ht Hh].
  - assert (Hsane : sane (new_sender h [p])) by (split; [exact Ha|cbn; intros i Hi; discriminate]). split; auto. constructor; try reflexivity.
    + split; reflexivity.
    + apply kinv_now. exact Ha.
    + intros _. left. auto.
  - eapply one_document in Hh; eauto. apply Hh.
Qed.

(** The event list of a complete document, read by the sender's own parser. *)
Lemma send_parse_doc p s doc t s' x : lenient_doc doc t -> send_parse [p] s doc s' x -> thandle (stateses [p]) (new_handler s) (doc_events t) s' x.
Proof.
  intros Hd H. apply parse_lenient in Hd as [(g & Hg) _]. pose proof (close_suspended [doc] _ _ Hg) as Hc. cbn [map app] in Hc.
  inversion H as [s0 doc0 evs g0 s1 x0 He Hh]; subst. rewrite Hc in He. inversion He; subst. exact Hh.
Qed.
Lemma send_parse_exists p s doc t : lenient_doc doc t -> exists s' x, send_parse [p] s doc s' x.
Proof.
  intros Hd. apply parse_lenient in Hd as [(g & Hg) _]. pose proof (close_suspended [doc] _ _ Hg) as Hc. cbn [map app] in Hc.
  destruct (thandle_exists (stateses [p]) (doc_events t) (new_handler s)) as (s' & x & H). exists s', x. econstructor; eauto.
Qed.

(** ** What is sent *)
Lemma found_listing m t : listing t (fun a u => is_element u /\ m (path_names t a) = true /\ forall b, above b a -> m (path_names t b) = false) (found m [] t).
Proof. split; [apply found_sorted|]. intros a u. rewrite found_in. cbn [app]. tauto. Qed.

Lemma deep_last_not_ends pre st : st <> StDeep -> ~ ends_deep (pre ++ [StDeep; st]).
Proof. intros Hst (q & E). change [StDeep; st] with ([StDeep] ++ [st]) in E. rewrite app_assoc in E. apply app_inj_tail in E as [_ ->]. congruence. Qed.

Theorem stream_exact p s t s' x : no_deep p -> p <> [] -> served p s -> is_element t ->
  thandle (stateses [p]) (new_handler s) (doc_events t) s' x ->
  x = None /\ served p s' /\ kept_intact s s' /\
  exists l, listing t (fun a u => is_element u /\ matches p (path_names t a)) l /\ sent_since s s' 0 (map snd l).
Proof.
  intros Hd Hp Hsv Ht Hh. assert (Hf : forall names, fails (prep p) names = false) by (intros; apply fails_never; auto; apply no_deep_ends; auto).
  destruct (one_document p s t s' x (served_ready _ _ Hp Hf Hsv) Hp Hf Hh) as (-> & _ & H2 & H3 & _). split; auto. split; [econstructor; eauto|]. split; auto.
  exists (found (hits (prep p)) [] t). split; auto. eapply listing_ext; [|apply found_listing]. intros a u Hu. cbn. rewrite hits_exact by auto. split; [tauto|].
  intros [H4 H5]. split; auto. split; auto. intros b Hb. destruct (hits (prep p) (path_names t b)) eqn:E; [|reflexivity]. exfalso.
  apply hits_exact in E; auto. destruct (path_names_above t a b u Hu H4 Hb) as (y & Ey & Hy). apply matches_len in E; auto. apply matches_len in H5; auto.
  rewrite Ey, app_length in H5. destruct y; [congruence|]. cbn in H5. lia.
Qed.

Theorem stream_deep pre st s t s' x : no_deep pre -> st <> StDeep -> served (pre ++ [StDeep; st]) s -> is_element t ->
  thandle (stateses [pre ++ [StDeep; st]]) (new_handler s) (doc_events t) s' x ->
  x = None /\ kept_intact s s' /\ exists l, listing t (outermost (pre ++ [StDeep; st]) t) l /\ sent_since s s' 0 (map snd l).
Proof.
  intros Hd Hst Hsv Ht Hh. set (p := pre ++ [StDeep; st]) in *. assert (Hp : p <> []) by (unfold p; destruct pre; discriminate).
  assert (Hf : forall names, fails (prep p) names = false) by (intros; apply fails_never; auto; apply deep_last_not_ends; auto).
  destruct (one_document p s t s' x (served_ready _ _ Hp Hf Hsv) Hp Hf Hh) as (-> & _ & H2 & H3 & _). split; auto. split; auto.
  exists (found (hits (prep p)) [] t). split; auto. eapply listing_ext; [|apply found_listing]. intros a u Hu. cbn. unfold outermost.
  split.
  - intros (H4 & H5 & H6). split; auto. apply hits_deep_last in H5 as [H5 H7]; auto. split; auto. intros b Hb.
    destruct (path_names_above t a b u Hu H4 Hb) as (y & Ey & Hy). eapply H7; eauto.
  - intros (H4 & H5 & H6). split; auto. assert (Hfm : first_match p (path_names t a)).
    { split; auto. intros x y E Hy Hm.
      assert (Hx : x <> []).
      { intros ->. apply Hst. apply (matches_nil _ Hm). unfold p. apply in_or_app. right. right. left. auto. }
      destruct (path_names_prefix t a u x y Hu H4 E Hx Hy) as (b & Hb & Eb). apply (H6 b Hb). rewrite Eb. exact Hm. }
    split; [apply hits_deep_last; auto|]. intros b Hb. destruct (hits (prep p) (path_names t b)) eqn:E; [|reflexivity]. exfalso.
    apply hits_sound in E. eapply H6; eauto.
Qed.

(** Any pattern: only matching subtrees are sent. *)
Theorem stream_sound p s t s' x : ~ ends_deep p -> p <> [] -> served p s -> is_element t ->
  thandle (stateses [p]) (new_handler s) (doc_events t) s' x ->
  x = None /\ kept_intact s s' /\ exists l, sent_since s s' 0 (map snd l) /\ StronglySorted doc_before (map fst l) /\
    forall a u, In (a, u) l -> subtree t a = Some u /\ is_element u /\ matches p (path_names t a).
Proof.
  intros He Hp Hsv Ht Hh. assert (Hf : forall names, fails (prep p) names = false) by (intros; apply fails_never; auto).
  destruct (one_document p s t s' x (served_ready _ _ Hp Hf Hsv) Hp Hf Hh) as (-> & _ & H2 & H3 & _). split; auto. split; auto.
  exists (found (hits (prep p)) [] t). split; auto. split; [apply found_sorted|]. intros a u Hi. apply found_in in Hi as (H4 & H5 & H6 & _).
  split; auto. split; auto. apply hits_sound. exact H6.
Qed.

(** ** A trailing '**' *)
Lemma match_false st : (forall names, hits st names = false) -> st <> PMatched -> forall stack, match_state st stack <> Some true.
Proof.
  intros Hh Hm stack. revert st Hh Hm. induction stack as [|n stack IH]; intros st Hh Hm; cbn [match_state]; [discriminate|].
  destruct (pst_step st n) as [| |s] eqn:E; try discriminate. assert (Hs : s <> PMatched).
  { intros ->. specialize (Hh [n]). cbn in Hh. rewrite E in Hh. discriminate. }
  assert (K : match_state s stack <> Some true).
  { apply IH; auto. intros names. rewrite <- (Hh (n :: names)). symmetry. apply hits_cons; auto. }
  destruct s; first [assumption|congruence].
Qed.
(** Nothing is ever sent to a sink whose statement lists contain no send. *)
Definition sends_to (ix : nat) (st : tstmt) : Prop := st = TSend ix.
Lemma texec_sent st s s' : texec st s s' -> exists l, tsent s' = tsent s ++ l /\ forall y, In y l -> sends_to (fst (fst y)) st.
Proof.
  intros H. inversion H; subst; try solve [exists []; cbn [tsent]; rewrite app_nil_r; split; [auto|intros y []]].
  - exists [(ix, tpar s, theap s)]. split; auto. intros y [<-|[]]. reflexivity.
  - exists []. rewrite app_nil_r. split; [destruct (tpar s); auto|intros y []].
Qed.
Lemma truns_sent l : forall s s', truns s l s' -> exists lst, tsent s' = tsent s ++ lst /\ forall y, In y lst -> In (TSend (fst (fst y))) l.
Proof.
  induction l as [|st l IH]; intros s s' H; inversion H as [u v C|u s1 s2 st0 l0 v C X R]; subst.
  - destruct C as (_ & _ & _ & _ & _ & _ & _ & _ & E). exists []. rewrite app_nil_r. split; auto; intros y [].
  - destruct (IH _ _ R) as (l2 & H2 & H3). destruct (texec_sent _ _ _ X) as (l1 & G2 & G3). destruct C as (_ & _ & _ & _ & _ & _ & _ & _ & E).
    exists (l1 ++ l2). split; [rewrite H2, G2, E, app_assoc; auto|]. intros y Hy. apply in_app_iff in Hy as [Hy|Hy]; [left; apply G3; auto|right; auto].
Qed.
Lemma ctl_kept l : forall s s', truns s l s' -> tctl s' = tctl s.
Proof.
  induction l as [|st l IH]; intros s s' H; inversion H as [u v C|u s1 s2 st0 l0 v C X R]; subst.
  - apply C.
  - rewrite (IH _ _ R). destruct C as (_ & _ & _ & _ & E & _). rewrite <- E. inversion X; subst; try reflexivity. destruct (tpar s1); reflexivity.
Qed.

(** A sink is never served if its machine never matches. *)
Definition quiet (ix : nat) (c : ctl) : Prop := nth ix (cdepths c) 0 = 0.
Lemma set_nth_other {A} (d : A) i j x l : i <> j -> nth i (set_nth j x l) d = nth i l d.
Proof. revert i j. induction l as [|y l IH]; intros i j H; [destruct j; reflexivity|]. destruct i, j; cbn; auto; congruence. Qed.
Lemma ctl_one_other s j ix c e l c' x : ctl_one s j c e = (l, c', x) -> j <> ix -> quiet ix c -> quiet ix c' /\ ~ In (TSend ix) l.
Proof.
  unfold ctl_one, quiet. intros H Hj Hq. destruct e as [n a anc|n anc|t].
  - destruct (Nat.eqb (nth j (cdepths c) 0) 0).
    + destruct (match_state s (cstack c ++ [n])) as [[]|]; inversion H; subst; cbn [cdepths]; rewrite ?set_nth_other by auto; split; auto; cbn; intuition discriminate.
    + inversion H; subst; cbn [cdepths]. rewrite set_nth_other by auto. split; auto; cbn; intuition discriminate.
  - destruct (cstack c); [inversion H; subst; split; auto; cbn; intuition discriminate|].
    destruct (Nat.eqb (nth j (cdepths c) 0) 0); inversion H; subst; cbn [cdepths]; rewrite ?set_nth_other by auto; split; auto; cbn; try (intuition discriminate).
    destruct (Nat.eqb (nth j (cdepths c) 0) 1); cbn; intros K; repeat destruct K as [K|K]; try discriminate; auto. inversion K; congruence.
  - destruct (Nat.eqb (nth j (cdepths c) 0) 0); inversion H; subst; split; auto; cbn; intuition discriminate.
Qed.
Lemma ctl_one_same s ix c e l c' x : ctl_one s ix c e = (l, c', x) -> quiet ix c ->
  (forall n a anc, e = EvStart n a anc -> match_state s (cstack c ++ [n]) <> Some true) -> quiet ix c' /\ ~ In (TSend ix) l.
Proof.
  unfold ctl_one, quiet. intros H Hq Hm. rewrite Hq in H. cbn [Nat.eqb] in H. destruct e as [n a anc|n anc|t].
  - specialize (Hm n a anc eq_refl). destruct (match_state s (cstack c ++ [n])) as [[]|]; [congruence| |]; inversion H; subst; split; auto; cbn; intuition discriminate.
  - destruct (cstack c); inversion H; subst; split; auto; cbn; intuition discriminate.
  - inversion H; subst; split; auto; cbn; intuition discriminate.
Qed.
(** The stack after one pattern. *)
Lemma ctl_one_stack s j c e l c' : ctl_one s j c e = (l, c', None) ->
  cstack c' = match e with EvStart n _ _ => cstack c ++ [n] | EvEnd _ _ => removelast (cstack c) | EvChars _ => cstack c end /\
  match e with EvEnd _ _ => cstack c <> [] | _ => True end.
Proof.
  unfold ctl_one. intros H. destruct e as [n a anc|n anc|t].
  - destruct (Nat.eqb (nth j (cdepths c) 0) 0); [destruct (match_state s (cstack c ++ [n])) as [[]|]|]; inversion H; subst; auto.
  - destruct (cstack c) eqn:E; [discriminate|]. destruct (Nat.eqb (nth j (cdepths c) 0) 0); inversion H; subst; split; auto; discriminate.
  - destruct (Nat.eqb (nth j (cdepths c) 0) 0); inversion H; subst; auto.
Qed.

(** ** Several patterns *)
Definition copies (k : nat) (path : list str) : list str := flat_map (fun n => repeat n k) path.
Lemma copies_snoc k path n : copies k (path ++ [n]) = copies k path ++ repeat n k.
Proof. unfold copies. rewrite flat_map_app. cbn. rewrite app_nil_r. reflexivity. Qed.
Lemma repeat_snoc {A} (x : A) k : repeat x (S k) = repeat x k ++ [x].
Proof. change (S k) with (1 + k). rewrite Nat.add_comm, repeat_app. reflexivity. Qed.

Definition stack_at (k j : nat) (path : list str) (e : event) : list str :=
  match e with
  | EvStart n _ _ => copies k path ++ repeat n j
  | EvEnd _ _ => match rev path with [] => [] | n :: r => copies k (rev r) ++ repeat n (k - j) end
  | EvChars _ => copies k path
  end.
Lemma stack_step s k j path e c l c' : ctl_one s j c e = (l, c', None) -> cstack c = stack_at k j path e -> j < k ->
  cstack c' = stack_at k (S j) path e /\ match e with EvEnd _ _ => path <> [] | _ => True end.
Proof.
  intros H Hs Hj. apply ctl_one_stack in H as [H1 H2]. rewrite Hs in H1, H2. rewrite H1. clear H1 Hs. destruct e as [n a anc|n anc|t]; cbn [stack_at] in *; auto.
  - rewrite repeat_snoc, app_assoc. auto.
  - destruct path as [|m path] using rev_ind; [cbn in H2; congruence|]. clear IHpath. rewrite rev_app_distr. cbn [rev app]. split; [|destruct path; discriminate].
    replace (k - j) with (S (k - S j)) by lia. rewrite repeat_snoc, app_assoc, removelast_last. reflexivity.
Qed.

(** All patterns from [j] on. *)
Lemma ctl_all_quiet ss k ix path e : (forall n a anc, e = EvStart n a anc -> match_state (nth ix ss PMatched) (copies k path ++ repeat n (S ix)) <> Some true) ->
  k = length ss -> ix < k -> forall rest j c l c' x, skipn j ss = rest -> j <= k -> ctl_all rest j c e = (l, c', x) -> cstack c = stack_at k j path e -> quiet ix c ->
  quiet ix c' /\ ~ In (TSend ix) l /\ (x = None -> cstack c' = stack_at k k path e /\ (rest <> [] -> match e with EvEnd _ _ => path <> [] | _ => True end)).
Proof.
  intros Hm -> Hix rest. induction rest as [|s rest IH]; intros j c l c' x Hr Hj H Hs Hq.
  - cbn in H. inversion H; subst. split; auto. split; [auto|]. intros _. assert (j = length ss).
    { assert (length (skipn j ss) = 0) by (rewrite Hr; reflexivity). rewrite skipn_length in H0. lia. }
    subst j. split; auto. congruence.
  - cbn [ctl_all] in H. assert (Hjl : j < length ss).
    { destruct (Nat.lt_ge_cases j (length ss)); auto. rewrite skipn_all2 in Hr by lia. discriminate. }
    assert (Hrest : skipn (S j) ss = rest).
    { clear - Hr. revert ss Hr. induction j as [|j IH]; intros ss Hr; destruct ss as [|y ss]; try discriminate; [inversion Hr; reflexivity|]. apply IH. exact Hr. }
    assert (Hnth : nth j ss PMatched = s).
    { clear - Hr. revert ss Hr. induction j as [|j IH]; intros ss Hr; destruct ss as [|y ss]; try discriminate; [inversion Hr; reflexivity|]. apply IH. exact Hr. }
    destruct (ctl_one s j c e) as [[l1 c1] x1] eqn:E1.
    assert (K : quiet ix c1 /\ ~ In (TSend ix) l1).
    { destruct (Nat.eq_dec j ix) as [->|Hne]; [|eapply ctl_one_other; eauto].
      eapply ctl_one_same; eauto. intros n a anc ->. rewrite Hs. cbn [stack_at]. rewrite <- app_assoc, <- repeat_snoc. rewrite <- Hnth. eapply Hm; eauto. }
    destruct x1 as [x1|].
    + inversion H; subst. destruct K. split; auto. split; auto. discriminate.
    + destruct (ctl_all rest (S j) c1 e) as [[l2 c2] x2] eqn:E2. inversion H; subst l c' x. destruct K as [K1 K2].
      destruct (stack_step _ _ _ _ _ _ _ _ E1 Hs Hjl) as [S1 S2]. destruct (IH (S j) c1 l2 c2 x2 Hrest Hjl E2 S1 K1) as (G1 & G2 & G3).
      split; auto. split; [rewrite in_app_iff; tauto|]. intros Hx. destruct (G3 Hx) as [G4 _]. split; auto.
Qed.

Lemma ctl_all_sinks ss : forall j c e l c' x i, ctl_all ss j c e = (l, c', x) -> In (TSend i) l -> i < j + length ss.
Proof.
  induction ss as [|s ss IH]; intros j c e l c' x i H Hi; cbn [ctl_all] in H; [inversion H; subst; destruct Hi|].
  destruct (ctl_one s j c e) as [[l1 c1] x1] eqn:E1.
  assert (K : In (TSend i) l1 -> i = j).
  { destruct (Nat.eq_dec i j); auto. intros Hi1. exfalso. unfold ctl_one in E1. destruct e as [m a anc|m anc|t].
    - destruct (Nat.eqb (nth j (cdepths c) 0) 0); [destruct (match_state s (cstack c ++ [m])) as [[]|]|]; inversion E1; subst; cbn in Hi1; intuition discriminate.
    - destruct (cstack c); [inversion E1; subst; cbn in Hi1; intuition discriminate|].
      destruct (Nat.eqb (nth j (cdepths c) 0) 0); inversion E1; subst; cbn in Hi1; [intuition discriminate|].
      destruct Hi1 as [Hi1|Hi1]; [discriminate|]. apply in_app_iff in Hi1 as [Hi1|[Hi1|[]]]; [|discriminate].
      destruct (Nat.eqb (nth j (cdepths c) 0) 1); [|destruct Hi1]. destruct Hi1 as [Hi1|[]]. congruence.
    - destruct (Nat.eqb (nth j (cdepths c) 0) 0); inversion E1; subst; cbn in Hi1; intuition discriminate. }
  destruct x1 as [x1|].
  - inversion H; subst. apply K in Hi. cbn [length]. lia.
  - destruct (ctl_all ss (S j) c1 e) as [[l2 c2] x2] eqn:E2. inversion H; subst. apply in_app_iff in Hi as [Hi|Hi]; [apply K in Hi; cbn [length]; lia|].
    eapply IH in E2; [|exact Hi]. cbn [length]. lia.
Qed.
Lemma never_sent ss ix : ix < length ss -> (forall path n, match_state (nth ix ss PMatched) (copies (length ss) path ++ repeat n (S ix)) <> Some true) ->
  forall evs s s' x path, thandle ss s evs s' x -> cstack (tctl s) = copies (length ss) path -> quiet ix (tctl s) ->
  exists lst, tsent s' = tsent s ++ lst /\ forall y, In y lst -> fst (fst y) <> ix /\ fst (fst y) < length ss.
Proof.
  intros Hix Hm. induction evs as [|e evs IH]; intros s s' x path H Hs Hq.
  - inversion H as [u v C| |]; subst. destruct C as (_ & _ & _ & _ & _ & _ & _ & _ & E). exists []. rewrite app_nil_r. split; auto; intros y [].
  - assert (Hs0 : cstack (tctl s) = stack_at (length ss) 0 path e).
    { rewrite Hs. destruct e as [n a anc|n anc|t]; cbn [stack_at repeat]; rewrite ?app_nil_r; auto.
      rewrite Nat.sub_0_r. destruct path as [|m path] using rev_ind; [reflexivity|]. rewrite rev_app_distr. cbn [rev app]. rewrite rev_involutive, copies_snoc. reflexivity. }
    assert (K : forall l c x0, ctl_all ss 0 (tctl s) e = (l, c, x0) ->
       quiet ix c /\ ~ In (TSend ix) l /\ (x0 = None -> cstack c = stack_at (length ss) (length ss) path e /\ (ss <> [] -> match e with EvEnd _ _ => path <> [] | _ => True end))).
    { intros l c x0 Hc. apply (ctl_all_quiet ss (length ss) ix path e (fun n _ _ _ => Hm path n) eq_refl Hix ss 0 (tctl s) l c x0 eq_refl (Nat.le_0_l _) Hc Hs0 Hq). }
    inversion H as [|u e0 evs0 l c s1 v x0 Hc Hr Hh1|u e0 evs0 l c s1 x0 Hc Hr]; subst.
    + destruct (K _ _ _ Hc) as (K1 & K2 & K3). destruct (K3 eq_refl) as [K4 K5]. assert (Hne : ss <> []) by (intros ->; cbn in Hix; lia). specialize (K5 Hne).
      assert (Hp : exists path', cstack c = copies (length ss) path').
      { rewrite K4. destruct e as [n a anc|n anc|t]; cbn [stack_at].
        - exists (path ++ [n]). rewrite copies_snoc. reflexivity.
        - rewrite Nat.sub_diag. destruct (rev path) as [|m r]; [exists []; reflexivity|]. exists (rev r). cbn. rewrite app_nil_r. reflexivity.
        - exists path. reflexivity. }
      destruct Hp as (path' & Hp). destruct (IH (set_ctl s1 c) s' x path' Hh1 Hp K1) as (l2 & I1 & I2). cbn [set_ctl tsent] in I1.
      destruct (truns_sent _ _ _ Hr) as (l1 & J1 & J2). exists (l1 ++ l2). split; [rewrite I1, J1, app_assoc; auto|]. intros y Hy.
      apply in_app_iff in Hy as [Hy|Hy]; auto. apply J2 in Hy. split; [intros E; rewrite E in Hy; auto|]. eapply ctl_all_sinks in Hc; [|exact Hy]. lia.
    + destruct (K _ _ _ Hc) as (K1 & K2 & _). destruct (truns_sent _ _ _ Hr) as (l1 & J1 & J2). exists l1. split; auto. intros y Hy.
      apply J2 in Hy. split; [intros E; rewrite E in Hy; auto|]. eapply ctl_all_sinks in Hc; [|exact Hy]. lia.
Qed.

(** The machine of a pattern is that of the pattern followed by all earlier ones. *)
Lemma prep_from_app a b next : prep_from next (a ++ b) = prep_from (prep_from next b) a.
Proof. unfold prep_from. apply fold_right_app. Qed.
Lemma stateses_nth ps : forall next ix, ix < length ps -> nth ix (prep_all next ps) PMatched = prep_from next (concat (rev (firstn (S ix) ps))).
Proof.
  induction ps as [|p ps IH]; intros next ix H; [cbn in H; lia|]. cbn [prep_all]. destruct ix as [|ix].
  - cbn. rewrite app_nil_r. reflexivity.
  - cbn [nth]. rewrite IH by (cbn in H; lia). cbn [firstn rev]. rewrite concat_app. cbn [concat]. rewrite app_nil_r, prep_from_app. reflexivity.
Qed.
Lemma stateses_len ps : length (stateses ps) = length ps.
Proof. unfold stateses. generalize PMatched. induction ps as [|p ps IH]; intros next; cbn; auto. Qed.
Lemma twin k path n ix : 2 <= k -> ix < k -> match copies k path ++ repeat n (S ix) with a :: b :: _ => a = b | _ => True end.
Proof.
  intros Hk Hix. destruct k as [|[|k]]; try lia. destruct path as [|m path]; cbn; [|reflexivity]. destruct ix; cbn; auto.
Qed.

Theorem several_patterns ps ix n1 n2 q s evs s' x : 2 <= length ps -> ix < length ps ->
  concat (rev (firstn (S ix) ps)) = StName n1 :: StName n2 :: q -> n1 <> n2 ->
  tctl s = mkC [] (repeat 0 (length ps)) ->
  thandle (stateses ps) s evs s' x -> exists lst, tsent s' = tsent s ++ lst /\ forall y, In y lst -> fst (fst y) <> ix.
Proof.
  intros Hk Hix Hc Hn Hs Hh. destruct (never_sent (stateses ps) ix) with (evs := evs) (s := s) (s' := s') (x := x) (path := @nil str) as (lst & H1 & H2); rewrite ?stateses_len; auto.
  4: { exists lst. split; auto. intros y Hy. apply H2; auto. }
  - intros path n. unfold stateses. rewrite stateses_nth by auto. rewrite Hc. pose proof (twin (length ps) path n ix Hk Hix) as Ht.
    destruct (copies (length ps) path ++ repeat n (S ix)) as [|a [|b r]]; cbn [match_state]; [discriminate| |].
    + cbn [prep_from fold_right prep_stage pst_step]. destruct (str_eqb a n1); discriminate.
    + subst b. cbn [prep_from fold_right prep_stage pst_step]. destruct (str_eqb a n1) eqn:E1; [|discriminate]. apply str_eqb_eq in E1; subst.
      cbn. destruct (str_eqb n1 n2) eqn:E2; [apply str_eqb_eq in E2; congruence|discriminate].
  - rewrite Hs. reflexivity.
  - unfold quiet. rewrite Hs. cbn [cdepths]. apply nth_repeat.
Qed.

Theorem trailing_deep p s evs s' x : ends_deep p -> tctl s = mkC [] [0] -> thandle (stateses [p]) s evs s' x -> tsent s' = tsent s.
Proof.
  intros He Hs Hh. assert (Hp : p <> []) by (destruct He as ([|] & ->); discriminate).
  destruct (never_sent (stateses [p]) 0) with (evs := evs) (s := s) (s' := s') (x := x) (path := @nil str) as (lst & H1 & H2); auto.
  - intros path n. apply match_false; [intros names; apply ends_deep_hits; auto|apply prep_not_matched; auto].
  - rewrite Hs. reflexivity.
  - unfold quiet. rewrite Hs. reflexivity.
  - destruct lst as [|y lst]; [rewrite H1, app_nil_r; auto|]. destruct (H2 y (or_introl eq_refl)) as [H3 H4]. cbn in H4. lia.
Qed.

(** ** While reading *)
Definition shape (f : frame) (fs : list frame) : xtree := match f with (n, a, ks) => close_frames (XE n a ks) fs end.
Definition cut_list (l' l : list xtree) : Prop :=
  exists l1 l2, l = l1 ++ l2 /\ (l' = l1 \/ exists c k r, l2 = k :: r /\ l' = l1 ++ [c] /\ cut c k).
Lemma cut_elem n a l' l : cut_list l' l -> cut (XE n a l') (XE n a l).
Proof. intros (l1 & l2 & -> & [-> | (c & k & r & -> & -> & H)]); [apply cut_between|apply cut_within; auto]. Qed.
Lemma cut_list_cons k l' l : cut_list l' l -> cut_list (k :: l') (k :: l).
Proof.
  intros (l1 & l2 & -> & H). exists (k :: l1), l2. split; auto. destruct H as [-> | (c & k0 & r & -> & -> & H)]; auto. right. exists c, k0, r. auto.
Qed.

(** Reading part of a forest while building; [P] for each of its trees. *)
Definition part_built (st : pst) (t : xtree) : Prop := forall anc n a ks fs evs rest, tree_events anc t = evs ++ rest ->
  exists stk f' fs', arun st anc (ABuild (n, a, ks) fs) evs = Some (stk, ABuild f' fs', []) /\
    ((f' = (n, a, ks) /\ fs' = fs) \/ exists c, cut c t /\ shape f' fs' = close_frames (XE n a (ks ++ [c])) fs).
Lemma forest_built st l : (forall t, In t l -> part_built st t) -> forall anc n a ks fs evs rest, flat_map (tree_events anc) l = evs ++ rest ->
  exists stk f' fs' l', arun st anc (ABuild (n, a, ks) fs) evs = Some (stk, ABuild f' fs', []) /\
    cut_list l' l /\ shape f' fs' = close_frames (XE n a (ks ++ l')) fs.
Proof.
  intros Hl. induction l as [|t l IH]; intros anc n a ks fs evs rest E.
  - cbn in E. symmetry in E. apply app_eq_nil in E as [-> ->]. exists anc, (n, a, ks), fs, []. split; [reflexivity|]. split; [exists [], []; auto|]. rewrite app_nil_r. reflexivity.
  - cbn [flat_map] in E. apply app_eq_app in E as (mid & [[E1 E2]|[E1 E2]]).
    + destruct (Hl t (or_introl eq_refl) anc n a ks fs evs mid E1) as (stk & f' & fs' & H1 & H2). destruct H2 as [[-> ->]|(c & H2 & H3)].
      * exists stk, (n, a, ks), fs, []. split; auto. split; [exists [], (t :: l); auto|]. rewrite app_nil_r. reflexivity.
      * exists stk, f', fs', [c]. split; auto. split; auto. exists [], (t :: l). split; auto. right. exists c, t, l. auto.
    + subst evs. rewrite arun_app, arun_build.
      destruct (IH (fun u Hu => Hl u (or_intror Hu)) anc n a (ks ++ [t]) fs mid rest E2) as (stk & f' & fs' & l' & H1 & H2 & H3).
      rewrite H1. exists stk, f', fs', (t :: l'). split; auto. split; [apply cut_list_cons; auto|]. rewrite H3, <- app_assoc. reflexivity.
Qed.
Lemma tree_built st t : part_built st t.
Proof.
  induction t as [n0 a0 l IH|s] using xtree_ind'; intros anc n a ks fs evs rest E.
  - destruct evs as [|e evs]; [exists anc, (n, a, ks), fs; split; [reflexivity|left; auto]|]. cbn [tree_events app] in E. inversion E as [[E1 E2]]. subst e.
    cbn [arun astep]. rewrite Forall_forall in IH.
    apply app_eq_app in E2 as (mid & [[F1 F2]|[F1 F2]]).
    + destruct (forest_built st l IH (anc ++ [n0]) n0 a0 [] ((n, a, ks) :: fs) evs mid F1) as (stk & f' & fs' & l' & H1 & H2 & H3).
      rewrite H1. exists stk, f', fs'. split; [reflexivity|]. right. exists (XE n0 a0 l'). split; [apply cut_elem; auto|]. exact H3.
    + pose proof (arun_build st) as Hb. assert (Hk : forall ls k0, arun st (anc ++ [n0]) (ABuild (n0, a0, k0) ((n, a, ks) :: fs)) (flat_map (tree_events (anc ++ [n0])) ls) =
         Some (anc ++ [n0], ABuild (n0, a0, k0 ++ ls) ((n, a, ks) :: fs), [])).
      { induction ls as [|k ls IHl]; intros k0; [cbn; rewrite app_nil_r; reflexivity|]. cbn [flat_map]. rewrite arun_app, Hb, IHl, <- app_assoc. reflexivity. }
      subst evs. rewrite arun_app, Hk. destruct mid as [|e mid].
      * cbn [arun app]. exists (anc ++ [n0]), (n0, a0, l), ((n, a, ks) :: fs). split; [reflexivity|]. right. exists (XE n0 a0 l). split; [constructor|]. reflexivity.
      * cbn [app] in F2. inversion F2 as [[G1 G2]]. subst e. symmetry in G2. apply app_eq_nil in G2 as [-> ->]. cbn [arun astep app].
        destruct (anc ++ [n0]) eqn:E3; [destruct anc; discriminate|]. rewrite <- E3, removelast_last.
        exists anc, (n, a, ks ++ [XE n0 a0 l]), fs. split; [reflexivity|]. right. exists (XE n0 a0 l). split; [constructor|reflexivity].
  - cbn [tree_events] in E. destruct evs as [|e evs]; [exists anc, (n, a, ks), fs; split; [reflexivity|left; auto]|]. cbn in E. inversion E as [[E1 E2]]. symmetry in E2. apply app_eq_nil in E2 as [-> ->].
    exists anc, (n, a, ks ++ [XT s]), fs. split; [reflexivity|]. right. exists (XT s). split; [constructor|reflexivity].
Qed.

(** Reading part of a tree when nothing above it was matched. *)
Definition part_read (st : pst) (anc : list str) (all : list xtree) (evs : list event) : Prop :=
  exists stk m out, arun st anc AIdle evs = Some (stk, m, out) /\
    match m with
    | AIdle => exists more, all = out ++ more
    | ABuild f fs => exists u more, all = out ++ u :: more /\ cut (shape f fs) u
    end.
Lemma forest_read st anc l : (forall t, In t l -> forall evs rest, tree_events anc t = evs ++ rest -> part_read st anc (map snd (found (hits st) anc t)) evs) ->
  (forall t, In t l -> arun st anc AIdle (tree_events anc t) = Some (anc, AIdle, map snd (found (hits st) anc t))) ->
  forall i evs rest, flat_map (tree_events anc) l = evs ++ rest -> part_read st anc (map snd (over (found (hits st) anc) i l)) evs.
Proof.
  intros Hl Hf. induction l as [|t l IH]; intros i evs rest E.
  - cbn in E. symmetry in E. apply app_eq_nil in E as [-> ->]. exists anc, AIdle, []. split; [reflexivity|]. exists []. reflexivity.
  - cbn [flat_map over] in *. rewrite map_app. assert (Hu : map snd (under i (found (hits st) anc t)) = map snd (found (hits st) anc t)) by (unfold under; rewrite map_map; reflexivity).
    rewrite Hu. apply app_eq_app in E as (mid & [[E1 E2]|[E1 E2]]).
    + destruct (Hl t (or_introl eq_refl) evs mid E1) as (stk & m & out & H1 & H2). exists stk, m, out. split; auto. destruct m as [|f fs].
      * destruct H2 as (more & ->). eexists. rewrite <- app_assoc. reflexivity.
      * destruct H2 as (u & more & -> & Hc). exists u. eexists. rewrite <- app_assoc. cbn [app]. split; [reflexivity|exact Hc].
    + subst evs. unfold part_read. rewrite arun_app, (Hf t (or_introl eq_refl)).
      destruct (IH (fun u Hu => Hl u (or_intror Hu)) (fun u Hu => Hf u (or_intror Hu)) (S i) mid rest E2) as (stk & m & out & H1 & H2). rewrite H1.
      exists stk, m, (map snd (found (hits st) anc t) ++ out). split; auto. destruct m as [|f fs].
      * destruct H2 as (more & ->). exists more. rewrite app_assoc. reflexivity.
      * destruct H2 as (u & more & -> & Hc). exists u, more. rewrite app_assoc. auto.
Qed.
Lemma tree_read st t : (forall names, fails st names = false) -> st <> PMatched ->
  forall anc, (forall x y, anc = x ++ y -> hits st x = false) ->
  forall evs rest, tree_events anc t = evs ++ rest -> part_read st anc (map snd (found (hits st) anc t)) evs.
Proof.
  intros Hf Hm. induction t as [n a ks IH|s] using xtree_ind'; intros anc Ha evs rest E.
  - destruct evs as [|e evs]; [exists anc, AIdle, []; split; [reflexivity|eexists; reflexivity]|]. cbn [tree_events app] in E. inversion E as [[E1 E2]]. subst e. clear E.
    unfold part_read. cbn [arun astep found]. rewrite match_hits by auto. destruct (hits st (anc ++ [n])) eqn:Eh.
    + apply app_eq_app in E2 as (mid & [[F1 F2]|[F1 F2]]).
      * destruct (forest_built st ks (fun t _ => tree_built st t) (anc ++ [n]) n a [] [] evs mid F1) as (stk & f' & fs' & l' & H1 & H2 & H3).
        rewrite H1. exists stk, (ABuild f' fs'), []. split; [reflexivity|]. exists (XE n a ks), []. split; [reflexivity|]. rewrite H3. cbn [close_frames app]. apply cut_elem; auto.
      * assert (Hk : forall ls k0, arun st (anc ++ [n]) (ABuild (n, a, k0) []) (flat_map (tree_events (anc ++ [n])) ls) = Some (anc ++ [n], ABuild (n, a, k0 ++ ls) [], [])).
        { induction ls as [|k ls IHl]; intros k0; [cbn; rewrite app_nil_r; reflexivity|]. cbn [flat_map]. rewrite arun_app, arun_build, IHl, <- app_assoc. reflexivity. }
        subst evs. rewrite arun_app, Hk. destruct mid as [|e mid].
        -- cbn [arun app]. exists (anc ++ [n]), (ABuild (n, a, ks) []), []. split; [reflexivity|]. exists (XE n a ks), []. split; [reflexivity|]. cbn. constructor.
        -- cbn [app] in F2. inversion F2 as [[G1 G2]]. subst e. symmetry in G2. apply app_eq_nil in G2 as [-> ->]. cbn [arun astep app].
           destruct (anc ++ [n]) eqn:E3; [destruct anc; discriminate|]. rewrite <- E3. exists (removelast (anc ++ [n])), AIdle, [XE n a ks].
           split; [reflexivity|]. exists []. reflexivity.
    + assert (Ha' : forall x y, anc ++ [n] = x ++ y -> hits st x = false).
      { intros x y H. destruct y as [|y0 y] using rev_ind; [rewrite app_nil_r in H; subst; auto|].
        rewrite app_assoc in H. apply app_inj_tail in H as [-> _]. eapply Ha; reflexivity. }
      rewrite Forall_forall in IH. apply app_eq_app in E2 as (mid & [[F1 F2]|[F1 F2]]).
      * destruct (forest_read st (anc ++ [n]) ks) with (i := 0) (evs := evs) (rest := mid) as (stk & m & out & H1 & H2); auto.
        { intros t Ht. apply IH; auto. }
        { intros t Ht. apply arun_idle; auto. }
        rewrite H1. exists stk, m, out. split; auto.
      * assert (Hk : forall ls i, arun st (anc ++ [n]) AIdle (flat_map (tree_events (anc ++ [n])) ls) = Some (anc ++ [n], AIdle, map snd (over (found (hits st) (anc ++ [n])) i ls))).
        { induction ls as [|k ls IHl]; intros i; [reflexivity|]. cbn [flat_map over]. rewrite arun_app, arun_idle by auto. rewrite (IHl (S i)).
          rewrite map_app. unfold under. rewrite map_map. reflexivity. }
        subst evs. rewrite arun_app, (Hk ks 0). destruct mid as [|e mid].
        -- cbn [arun]. rewrite app_nil_r. eexists _, AIdle, _. split; [reflexivity|]. exists []. rewrite app_nil_r. reflexivity.
        -- cbn [app] in F2. inversion F2 as [[G1 G2]]. subst e. symmetry in G2. apply app_eq_nil in G2 as [-> ->]. cbn [arun astep app].
           destruct (anc ++ [n]) eqn:E3; [destruct anc; discriminate|]. rewrite <- E3. cbn [app]. rewrite app_nil_r.
           eexists _, AIdle, _. split; [reflexivity|]. exists []. rewrite app_nil_r. reflexivity.
  - cbn [tree_events] in E. destruct evs as [|e evs]; [exists anc, AIdle, []; split; [reflexivity|eexists; reflexivity]|]. cbn in E. inversion E as [[E1 E2]]. symmetry in E2. apply app_eq_nil in E2 as [-> ->].
    exists anc, AIdle, []. split; [reflexivity|]. exists []. reflexivity.
Qed.

(** ** Memory *)
Lemma fend_size b fs : forall n a ks, fend b ((n, a, ks) :: fs) = b + tree_size (close_frames (XE n a ks) fs).
Proof.
  induction fs as [|[[n' a'] ks'] fs IH]; intros n a ks.
  - cbn. fold (size_all ks). lia.
  - rewrite <- fend_close. rewrite IH. reflexivity.
Qed.
Lemma reach_only h roots t i (x : option ref) : placed h None i t ->
  (forall j, In j roots -> i <= j < i + tree_size t \/ x = Some j) -> (forall j, x = Some j -> exists s p, hp h j = Some (OText s p)) ->
  forall j, reach h roots j -> In j (seq i (tree_size t)) \/ x = Some j.
Proof.
  intros Hp Hr Hx j H. induction H as [j H|j k o _ IH Ho Hk].
  - destruct (Hr j H) as [G|G]; auto. left. apply in_seq. lia.
  - destruct IH as [IH|IH].
    + left. apply placed_holds in Hp. destruct (proj1 (holds_links h) _ _ _ _ Hp) as [HL _]. eapply HL; [exact IH|]. exists o. auto.
    + destruct (Hx j IH) as (s & p & Hj). rewrite Hj in Ho. inversion Ho; subst. destruct Hk.
Qed.
Lemma only_tree s i t : sane s -> placed (theap s) None i t -> troots s = [Some i] -> (forall j, In j (own_refs s) -> i <= j < i + tree_size t \/ ttext s = Some j) -> holds_only s i t.
Proof.
  intros [Hs1 Hs2] Hp Hr Ho. exists (seq i (tree_size t)). split; [apply placed_holds; auto|]. split; [apply seq_NoDup|]. split.
  - intros j Hj. apply in_seq in Hj. eapply (proj1 (placed_reach _ _)); [exact Hp| |lia]. apply re_root. unfold own_refs. rewrite Hr. left. auto.
  - apply reach_only; auto. intros j Hj. destruct (Hs2 j Hj) as (_ & y & p & H). eauto.
Qed.

Theorem memory_bound p s t evs rest s' x : ~ ends_deep p -> p <> [] -> served p s -> is_element t -> doc_events t = evs ++ rest ->
  thandle (stateses [p]) (new_handler s) evs s' x ->
  x = None /\ exists outs, sent_since s s' 0 outs /\
  ((tsent s' = [] /\ nxt (theap s') = nxt (theap s) /\ forall j, reach (theap s') (own_refs s') j -> False) \/
   (exists i u, last_sent s' i u /\ holds_only s' i u /\ nxt (theap s') = nxt (theap s) + total_size outs) \/
   (exists i c a u, subtree t a = Some u /\ is_element u /\ matches p (path_names t a) /\ cut c u /\ holds_only s' i c /\
      nxt (theap s') = nxt (theap s) + total_size outs + tree_size c)).
Proof.
  intros He Hp Hsv Ht Ee Hh. assert (Hf : forall names, fails (prep p) names = false) by (intros; apply fails_never; auto).
  destruct (served_ready _ _ Hp Hf Hsv) as [Hs Hi].
  destruct (tree_read (prep p) t Hf (prep_not_matched p Hp) [] (nil_hits _) evs rest Ee) as (stk & m & out & Ha & Hout).
  destruct (run_ok _ _ _ _ _ _ _ _ _ _ _ _ _ Hi Hh Ha) as (-> & lst & H1 & H2 & H3). split; auto. exists out. split; [exists lst; auto|].
  assert (Hs' : sane s').
  { eapply sane_handle; [|exact Hh]. destruct Hs as [Hs1 _]. split; auto. cbn. intros i Hi'. discriminate. }
  destruct H3 as [E1 E2 E3 E4 E5 E6]. specialize (E6 eq_refl). destruct m as [|[[n a] ks] fs].
  - destruct E4 as [E4 E4']. destruct E6 as [([G1 G1'] & G2 & G3)|(b0 & t0 & G1 & G2 & G3)].
    + left. split; auto. assert (lst = [] /\ out = []).
      { rewrite G3 in H1. destruct lst as [|y lst]; [inversion H2; auto|]. destruct (tsent (new_handler s)); discriminate. }
      destruct H as [-> ->]. split; [rewrite E4'; cbn; lia|]. intros j Hj. 
      assert (Ho : own_refs s' = []) by (unfold own_refs; rewrite G1, G1', G2, E2, E4; reflexivity).
      rewrite Ho in Hj. induction Hj; auto.
    + right. left. exists b0, t0. split; auto. destruct G1 as (K1 & K2 & K3 & K4). cbn [phi broot bpar bheap] in *. split; [|exact E4'].
      destruct (troots s') as [|r0 [|]] eqn:Er; try discriminate. cbn in K1. subst r0. apply only_tree; auto.
      intros j Hj. unfold own_refs in Hj. rewrite Er, E2, E4 in Hj. cbn in Hj. destruct Hj as [<-|Hj]; [left; pose proof (size_pos t0); lia|].
      apply in_app_iff in Hj as [Hj|Hj].
      * destruct (telem s') eqn:E; [|destruct Hj]. destruct Hj as [<-|[]]. left. apply G2; auto.
      * destruct (ttext s') eqn:E; [|destruct Hj]. destruct Hj as [<-|[]]. auto.
  - right. right. destruct Hout as (u & more & Hall & Hc). set (b := nxt (theap s) + total_size out) in *.
    assert (Hu : In u (map snd (found (hits (prep p)) [] t))) by (rewrite Hall; apply in_or_app; right; left; auto).
    apply in_map_iff in Hu as ([ad u'] & <- & Hu). cbn [snd] in *. apply found_in in Hu as (K1 & K2 & K3 & _).
    exists b, (shape (n, a, ks) fs), ad, u'. split; auto. split; auto. split; [apply hits_sound; exact K3|]. split; auto.
    destruct E4 as (F1 & F2 & F3 & F4). cbn [phi broot bpar bheap] in *. rewrite fend_size in F3. split; [|exact F3].
    destruct (troots s') as [|r0 [|]] eqn:Er; try discriminate. cbn in F1. subst r0. apply only_tree; auto; [apply spine_placed; auto|].
    pose proof (fid_low b ((n, a, ks) :: fs)) as Hlow. assert (Hhi : fid b ((n, a, ks) :: fs) < fend b ((n, a, ks) :: fs)) by (unfold fend; lia). rewrite fend_size in Hhi.
    intros j Hj. unfold own_refs in Hj. rewrite Er, E2, F2 in Hj. cbn [flat_map opt_list app] in Hj. cbn [shape].
    destruct Hj as [<-|[<-|[<-|Hj]]]; [left; pose proof (size_pos (close_frames (XE n a ks) fs)); lia|left; lia|left; lia|].
    apply in_app_iff in Hj as [Hj|Hj].
    + destruct (telem s') eqn:E; [|destruct Hj]. destruct Hj as [<-|[]]. left. rewrite <- F3. apply E6; auto.
    + destruct (ttext s') eqn:E; [|destruct Hj]. destruct Hj as [<-|[]]. auto.
Qed.

(** ** Agreement with selection in the built tree *)
Lemma found_none m t : (forall l, m l = false) -> forall anc, found m anc t = [].
Proof.
  intros Hm. induction t as [n a ks IH|s] using xtree_ind'; intros anc; cbn [found]; [|reflexivity]. rewrite Hm.
  generalize 0. induction IH as [|k ks Hk _ IHl]; intros i; cbn [over]; [reflexivity|]. rewrite Hk, IHl. reflexivity.
Qed.
Lemma found_ext m m' t : (forall l, m l = m' l) -> forall anc, found m anc t = found m' anc t.
Proof.
  intros Hm. induction t as [n a ks IH|s] using xtree_ind'; intros anc; cbn [found]; [|reflexivity]. rewrite Hm.
  destruct (m' (anc ++ [n])); [reflexivity|]. apply over_ext. intros k Hk. rewrite Forall_forall in IH. apply IH; auto.
Qed.
Lemma found_root m n a ks : m [n] = false -> found m [] (XE n a ks) = over (found (fun l => m (n :: l)) []) 0 ks.
Proof.
  intros Hm. cbn [found app]. rewrite Hm. apply over_ext. intros k _. change [n] with ([n] ++ []) at 1. rewrite found_anc. reflexivity.
Qed.
Lemma over_none f ks : (forall k, In k ks -> f k = []) -> forall i, over f i ks = [].
Proof.
  induction ks as [|k ks IH]; intros H i; cbn [over]; [reflexivity|]. rewrite H by (left; auto). rewrite IH; [reflexivity|]. intros; apply H; right; auto.
Qed.

Theorem stream_select r p s n a ks s' x : r <> StDeep -> p <> [] -> no_alt p -> ~ ends_deep p -> served (r :: p) s ->
  thandle (stateses [r :: p]) (new_handler s) (doc_events (XE n a ks)) s' x ->
  x = None /\
  (stage_ok r n -> sent_since s s' 0 (map snd (fst (select_pattern (XE n a ks) p)))) /\
  (~ stage_ok r n -> sent_since s s' 0 []).
Proof.
  intros Hr Hp Halt He Hsv Hh. assert (He' : ~ ends_deep (r :: p)).
  { intros (q & E). destruct q as [|r0 q]; cbn in E; inversion E; subst; [congruence|]. apply He. exists q; auto. }
  assert (Hf : forall names, fails (prep (r :: p)) names = false) by (intros; apply fails_never; auto; discriminate).
  assert (Hq : r :: p <> []) by discriminate.
  destruct (one_document (r :: p) s (XE n a ks) s' x (served_ready _ _ Hq Hf Hsv) Hq Hf Hh) as (-> & _ & H2 & _). split; auto.
  split; intros Ho.
  - rewrite select_pattern_found by auto. cbn [fst].
    assert (Hst : pst_step (prep (r :: p)) n = SState (prep p)) by (apply stage_ok_spec; auto).
    assert (Hh' : forall l, hits (prep (r :: p)) (n :: l) = hits (prep p) l) by (intros l; apply hits_cons; auto; apply prep_not_matched; auto).
    rewrite found_root in H2 by (rewrite Hh'; reflexivity).
    rewrite (over_ext _ (found (hits (prep p)) [])) in H2; [exact H2|]. intros k _. apply found_ext. exact Hh'.
  - assert (Hst : pst_step (prep (r :: p)) n = SNone) by (apply stage_no_spec; auto).
    assert (Hh' : forall l, hits (prep (r :: p)) (n :: l) = false) by (intros l; cbn [hits]; rewrite Hst; reflexivity).
    rewrite found_root in H2 by apply Hh'. rewrite over_none in H2; [exact H2|]. intros k _. apply found_none. exact Hh'.
Qed.

(** A leading '**': the same pattern selects below the root what streaming sends, if the root itself does not match the stage after it. *)
Theorem stream_select_deep st p s n a ks s' x : st <> StDeep -> ~ stage_ok st n -> no_alt (st :: p) -> ~ ends_deep (st :: p) ->
  served (StDeep :: st :: p) s ->
  thandle (stateses [StDeep :: st :: p]) (new_handler s) (doc_events (XE n a ks)) s' x ->
  x = None /\ sent_since s s' 0 (map snd (fst (select_pattern (XE n a ks) (StDeep :: st :: p)))).
Proof.
  intros Hst Ho Halt He Hsv Hh. set (q := StDeep :: st :: p) in *. assert (Hq : q <> []) by discriminate.
  assert (He' : ~ ends_deep q).
  { intros (l & E). destruct l as [|r0 l]; cbn in E; inversion E; subst. apply He. exists l; auto. }
  assert (Ha : no_alt q) by (intros ns [Hi|Hi]; [discriminate|eapply Halt; eauto]).
  assert (Hf : forall names, fails (prep q) names = false) by (intros; apply fails_never; auto).
  destruct (one_document q s (XE n a ks) s' x (served_ready _ _ Hq Hf Hsv) Hq Hf Hh) as (-> & _ & H2 & _). split; auto.
  rewrite select_pattern_found by auto. cbn [fst].
  assert (Hs : pst_step (prep q) n = SState (prep q)).
  { unfold q at 1. cbn [prep_from fold_right prep_stage pst_step]. fold (prep_from PMatched p). rewrite (stage_no_spec st n Ho Hst). reflexivity. }
  assert (Hh' : forall l, hits (prep q) (n :: l) = hits (prep q) l) by (intros l; apply hits_cons; auto; apply prep_not_matched; auto).
  rewrite found_root in H2 by (rewrite Hh'; reflexivity).
  rewrite (over_ext _ (found (hits (prep q)) [])) in H2; [exact H2|]. intros k _. apply found_ext. exact Hh'.
Qed.

(** ** Executions for examples: nothing is reclaimed, and the sinks keep everything *)
Definition exec1 (st : tstmt) (s : tstate) : tstate :=
  match st with
  | TLoad ix => mkT (theap s) (troots s) (tpars s) (tctl s) (nth ix (tpars s) None) (telem s) (ttext s) (tkept s) (tsent s)
  | TNewElem n a => mkT (fst (alloc (theap s) (OElem n a [] (tpar s)))) (troots s) (tpars s) (tctl s) (tpar s) (Some (nxt (theap s))) (ttext s) (tkept s) (tsent s)
  | TAppendElem => mkT (match tpar s, telem s with Some p, Some i => append_kid (theap s) p i | _, _ => theap s end)
                       (troots s) (tpars s) (tctl s) (tpar s) (telem s) (ttext s) (tkept s) (tsent s)
  | TDown ix => mkT (theap s) (troots s) (set_nth ix (telem s) (tpars s)) (tctl s) (telem s) (telem s) (ttext s) (tkept s) (tsent s)
  | TRoot ix => mkT (theap s) (set_nth ix (telem s) (troots s)) (tpars s) (tctl s) (tpar s) (telem s) (ttext s) (tkept s) (tsent s)
  | TNewText t => mkT (fst (alloc (theap s) (OText t (tpar s)))) (troots s) (tpars s) (tctl s) (tpar s) (telem s) (Some (nxt (theap s))) (tkept s) (tsent s)
  | TAppendText => mkT (match tpar s, ttext s with Some p, Some i => append_kid (theap s) p i | _, _ => theap s end)
                       (troots s) (tpars s) (tctl s) (tpar s) (telem s) (ttext s) (tkept s) (tsent s)
  | TSend ix => mkT (theap s) (troots s) (tpars s) (tctl s) (tpar s) (telem s) (ttext s) (opt_list (tpar s) ++ tkept s) (tsent s ++ [(ix, tpar s, theap s)])
  | TUp ix => match tpar s with
              | Some p => let q := xml_parent (theap s) p in mkT (theap s) (troots s) (set_nth ix q (tpars s)) (tctl s) q (telem s) (ttext s) (tkept s) (tsent s)
              | None => s
              end
  end.
Lemma exec1_ok st s : texec st s (exec1 st s).
Proof. destruct st; constructor; auto. Qed.
Lemma runs1_ok l : forall s, truns s l (fold_left (fun s st => exec1 st s) l s).
Proof. induction l as [|st l IH]; intros s; cbn; [constructor; apply tcollect_refl|]. econstructor; [apply tcollect_refl|apply exec1_ok|apply IH]. Qed.
Fixpoint handle1 (ss : list pst) (s : tstate) (evs : list event) : tstate * option texn :=
  match evs with
  | [] => (s, None)
  | e :: r => match ctl_all ss 0 (tctl s) e with
              | (l, c, None) => handle1 ss (set_ctl (fold_left (fun s st => exec1 st s) l s) c) r
              | (l, c, Some x) => (set_ctl (fold_left (fun s st => exec1 st s) l s) c, Some x)
              end
  end.
Lemma handle1_ok ss evs : forall s, thandle ss s evs (fst (handle1 ss s evs)) (snd (handle1 ss s evs)).
Proof.
  induction evs as [|e evs IH]; intros s; cbn [handle1]; [constructor; apply tcollect_refl|].
  destruct (ctl_all ss 0 (tctl s) e) as [[l c] [x|]] eqn:E; [eapply th_exn; eauto; apply runs1_ok|]. eapply th_step; eauto. apply runs1_ok.
Qed.

Theorem stream_parse p s doc t : no_deep p -> p <> [] -> served p s -> lenient_doc doc t ->
  (exists s' x, send_parse [p] s doc s' x) /\
  forall s' x, send_parse [p] s doc s' x ->
    x = None /\ served p s' /\ kept_intact s s' /\
    exists l, listing t (fun a u => is_element u /\ matches p (path_names t a)) l /\ sent_since s s' 0 (map snd l).
Proof.
  intros Hd Hp Hsv Hl. split; [eapply send_parse_exists; eauto|]. intros s' x H. eapply stream_exact; eauto.
  - destruct (lenient_doc_elem _ _ Hl) as (n & a & ks & ->). repeat eexists.
  - eapply send_parse_doc; eauto.
Qed.
Lemma sinks_known ps evs : forall s s' x, thandle (stateses ps) s evs s' x ->
  exists lst, tsent s' = tsent s ++ lst /\ forall y, In y lst -> fst (fst y) < length ps.
Proof.
  induction evs as [|e evs IH]; intros s s' x H; inversion H as [u v C|u e0 evs0 l c s1 v x0 Hc Hr Hh1|u e0 evs0 l c s1 x0 Hc Hr]; subst.
  - destruct C as (_ & _ & _ & _ & _ & _ & _ & _ & E). exists []. rewrite app_nil_r. split; auto; intros y [].
  - destruct (IH _ _ _ Hh1) as (l2 & H1 & H2). destruct (truns_sent _ _ _ Hr) as (l1 & J1 & J2). cbn [set_ctl tsent] in H1.
    exists (l1 ++ l2). split; [rewrite H1, J1, app_assoc; auto|]. intros y Hy. apply in_app_iff in Hy as [Hy|Hy]; auto.
    apply J2 in Hy. eapply ctl_all_sinks in Hc; [|exact Hy]. rewrite stateses_len in Hc. exact Hc.
  - destruct (truns_sent _ _ _ Hr) as (l1 & J1 & J2). exists l1. split; auto. intros y Hy. apply J2 in Hy. eapply ctl_all_sinks in Hc; [|exact Hy]. rewrite stateses_len in Hc. exact Hc.
Qed.
Lemma misread_alternatives ns : norm_patterns (ATuple [RTup ns]) 1 = Some [map (fun n => stage_of (RStr n)) ns].
Proof. unfold norm_patterns. cbn. rewrite map_map. reflexivity. Qed.
Lemma matches_last q n : forall names, matches (q ++ [StName n]) names -> exists l, names = l ++ [n].
Proof.
  induction q as [|st q IH]; intros names H; cbn [app] in H; inversion H as [|st' q' n' names' Ho H1|q' ns names' H1]; subst.
  - inversion H1; subst. cbn in Ho. subst n'. exists []. reflexivity.
  - destruct (IH _ H1) as (l & ->). exists (n' :: l). reflexivity.
  - destruct (IH _ H1) as (l & ->). exists (ns ++ l). apply app_assoc.
Qed.
