(** Selecting with functions and '**' anywhere, and its agreement with streaming: proofs. *)
From Verif Require Import PyStr Parser XTree ParserInv Heap Builder HeapSpec Path Nodes Pattern PatternSpec PatternFacts TreeIter PatternFun PatternFunSpec PatternFunFacts PatternFunMore.
From Verif Require Import SelectFun SelectFunSpec SelectFunFacts SelectFunStream GreedySpec GreedyFacts.
From Verif Require XPathFacts.

Lemma ggreedy_deep st p x es : st <> GDeep -> ggreedy (GDeep :: st :: p) (x :: es) ->
  (is_element (snd x) /\ gstage_ok st x /\ ggreedy p es) \/ (~ (is_element (snd x) /\ gstage_ok st x) /\ ggreedy (GDeep :: st :: p) es).
Proof.
  intros Hd H. inversion H as [|st0 p0 n0 names0 O|st0 p0 sk n0 names0 K El O G|]; subst; [destruct O| |congruence].
  match goal with E : sk ++ _ = _ |- _ => rename E into Es end. destruct sk as [|k sk]; injection Es as -> Es; [subst names0|subst es].
  - left. auto.
  - right. split; [intros [E1 E2]; exact (K x (or_introl eq_refl) E1 E2)|]. constructor; auto. intros j Hj. apply K. right; auto.
Qed.
Lemma ggreedy_skip st p x es : st <> GDeep -> ~ (is_element (snd x) /\ gstage_ok st x) -> ggreedy (GDeep :: st :: p) es -> ggreedy (GDeep :: st :: p) (x :: es).
Proof.
  intros Hd O G. inversion G as [|st0 p0 n0 names0 O'|st0 p0 sk n0 names0 K El O' G'|]; subst; [destruct O'| |congruence].
  apply (gg_deep st p (x :: sk)); auto. intros k [<-|Hk] E1 E2; [tauto|exact (K k Hk E1 E2)].
Qed.
Lemma ggreedy_now st p x es : is_element (snd x) -> gstage_ok st x -> ggreedy p es -> ggreedy (GDeep :: st :: p) (x :: es).
Proof. intros E O G. exact (gg_deep st p [] x es (fun k (F : In k []) => False_ind _ F) E O G). Qed.
Lemma ggreedy_one st p x es : st <> GDeep -> ggreedy (st :: p) (x :: es) <-> gstage_ok st x /\ ggreedy p es.
Proof. intros Hd. split; [|intros [O G]; constructor; auto]. intros H. inversion H; subst; try congruence. auto. Qed.
Lemma ggreedy_twice p es : ggreedy (GDeep :: GDeep :: p) es <-> ggreedy (GDeep :: p) es.
Proof. split; [|apply gg_twice]. intros H. inversion H as [|? ? ? ? O|? ? ? ? ? ? ? O|]; subst; auto; destruct O. Qed.
Lemma ggreedy_nil p : ggreedy p [] -> p = [].
Proof.
  intros H. remember [] as l eqn:E. induction H as [|st p n names O H IH|st p sk n names K El O H IH|p names H IH]; auto; try discriminate.
  - destruct sk; discriminate.
  - specialize (IH E). discriminate.
Qed.
Lemma gstage_dec st : st = GDeep \/ st <> GDeep.
Proof. destruct st; auto; right; discriminate. Qed.
Definition gfine (p : list gstage) : Prop := p <> [] /\ ~ ends_gdeep p /\ only_functions p /\ gsafe p.
Lemma gfine_cons st q : gfine (st :: q) -> q = [] /\ st <> GDeep \/ gfine q.
Proof.
  intros (_ & He & Ho & Hs). destruct q as [|s q]; [left; split; auto; intros ->; apply He; exists []; auto|right]. split; [discriminate|]. split; [|split; [eapply only_cons; eauto|eapply gsafe_cons; eauto]].
  intros (r & E). apply He. exists (st :: r). rewrite E. reflexivity.
Qed.
Lemma gfine_head st q : gfine (st :: q) -> only_functions [st] /\ gsafe [st].
Proof. intros (_ & _ & Ho & Hs). split; [intros l n [->|[]]; apply (Ho l n); left; auto|intros l f a [->|[]]; apply (Hs l f a); left; auto]. Qed.
Lemma ggreedy_step p : gfine p -> forall s a t, gprep p = Some s -> match gstep s a t with
  | GTo s' => exists q, gprep q = Some s' /\ (q = [] \/ gfine q) /\ forall es, ggreedy p ((a, t) :: es) <-> ggreedy q es
  | GNone => forall es, ~ ggreedy p ((a, t) :: es)
  | GExn _ => False
  end.
Proof.
  induction p as [|st q IH]; intros Hf s a t Ep; [destruct Hf; congruence|]. cbn [gprep] in Ep. destruct (gprep q) as [next|] eqn:En; [|discriminate].
  destruct (gstage_dec st) as [->|D].
  - destruct (gfine_cons _ _ Hf) as [[_ K]|Hq]; [congruence|]. cbn in Ep. injection Ep as <-. destruct q as [|st2 q]; [destruct Hq; congruence|].
    assert (Es : forall es, ~ is_element t -> ggreedy (GDeep :: st2 :: q) ((a, t) :: es) <-> ggreedy (GDeep :: st2 :: q) es).
    { assert (K : forall q st2 es, ~ is_element t -> ggreedy (GDeep :: st2 :: q) ((a, t) :: es) <-> ggreedy (GDeep :: st2 :: q) es).
      { clear. induction q as [|s3 q IHq]; intros st2 es Hn.
        - destruct (gstage_dec st2) as [->|D2].
          + rewrite !ggreedy_twice. split; intros H; inversion H as [|? ? ? ? O| |]; destruct O.
          + split; [intros H; apply ggreedy_deep in H as [[H _]|[_ H]]; auto; tauto|]. apply ggreedy_skip; auto. cbn. tauto.
        - destruct (gstage_dec st2) as [->|D2]; [rewrite !ggreedy_twice; apply IHq; auto|].
          split; [intros H; apply ggreedy_deep in H as [[H _]|[_ H]]; auto; tauto|]. apply ggreedy_skip; auto. cbn. tauto. }
      intros es Hn. apply K; auto. }
    cbn [gstep]. destruct t as [n at_ ks|x].
    + specialize (IH Hq next a (XE n at_ ks) eq_refl). destruct (gstage_dec st2) as [->|D2].
      * destruct (gstep next a (XE n at_ ks)) as [x| |s'] eqn:E; auto.
        -- exfalso. cbn [gprep] in En. destruct (gprep q) as [nx|]; [|discriminate]. cbn in En. injection En as <-. cbn [gstep] in E. destruct (gstep nx a _); discriminate.
        -- destruct IH as (q' & E' & F' & Hq'). exists q'. split; auto. split; auto. intros es. rewrite ggreedy_twice. apply Hq'.
      * cbn [gprep] in En. destruct (gprep q) as [nx|] eqn:Enx; [|discriminate]. destruct (gfine_head _ _ Hq) as [Ho2 Hs2].
        destruct (gstage_step st2 nx next a (XE n at_ ks) D2 En Ho2 Hs2) as [[O E]|[O E]]; rewrite E in *.
        -- exists q. split; auto. split; [destruct (gfine_cons _ _ Hq) as [[K _]|K]; auto|]. intros es. split.
           ++ intros H. apply ggreedy_deep in H as [(_ & _ & H)|[H _]]; auto. destruct H. split; auto. repeat eexists.
           ++ intros H. apply ggreedy_now; auto. repeat eexists.
        -- exists (GDeep :: st2 :: q). split; [cbn [gprep]; rewrite Enx, En; reflexivity|]. split; [right; auto|]. intros es. split.
           ++ intros H. apply ggreedy_deep in H as [(_ & H & _)|[_ H]]; auto. contradiction.
           ++ intros H. apply ggreedy_skip; auto. tauto.
    + exists (GDeep :: st2 :: q). split; [change (gprep (GDeep :: st2 :: q)) with (match gprep (st2 :: q) with Some s => gprep_stage GDeep s | None => None end); rewrite En; reflexivity|]. split; [right; auto|].
      intros es. apply Es. intros (? & ? & ? & K). discriminate.
  - destruct (gfine_head _ _ Hf) as [Ho2 Hs2]. destruct (gstage_step st next s a t D Ep Ho2 Hs2) as [[O E]|[O E]]; rewrite E.
    + exists q. split; auto. split; [destruct (gfine_cons _ _ Hf) as [[K _]|K]; auto|]. intros es. rewrite ggreedy_one by auto. tauto.
    + intros es. rewrite ggreedy_one by auto. tauto.
Qed.
Lemma gselect_greedy t : forall here p s, gfine p -> gprep p = Some s ->
  snd (gselect here t s) = None /\ forall b u, In (b, u) (fst (gselect here t s)) <-> subtree t b = Some u /\ ggreedy p (line here t b).
Proof.
  induction t as [n at_ ks IH|x] using xtree_ind'; intros here p s Hp Ep.
  - cbn [gselect]. rewrite Forall_forall in IH.
    set (f := fun i k => match gstep s (here ++ [i]) k with GTo GMatched => ([([], k)], None) | GTo s' => gselect (here ++ [i]) k s' | GNone => ([], None) | GExn x => ([], Some x) end).
    assert (K : forall i k, In k ks -> snd (f i k) = None /\ forall b u, In (b, u) (fst (f i k)) <-> subtree k b = Some u /\ ggreedy p ((here ++ [i], k) :: line (here ++ [i]) k b)).
    { intros i k Hk. unfold f. pose proof (ggreedy_step p Hp s (here ++ [i]) k Ep) as G. destruct (gstep s (here ++ [i]) k) as [x| |s']; [destruct G| |].
      - split; auto. intros b u. split; [intros []|]. intros [_ H]. exact (G _ H).
      - destruct G as (q & Eq & [->|Hq] & G).
        + injection Eq as <-. split; auto. intros b u. rewrite G. split.
          * intros [E|[]]. injection E as <- <-. split; [reflexivity|]. destruct k; constructor.
          * intros [H1 H2]. assert (El : line (here ++ [i]) k b = []) by (inversion H2; auto). destruct b as [|j b]; [cbn in H1; injection H1 as ->; left; auto|]. exfalso.
            destruct k as [m a' ks'|y]; [|discriminate]. cbn [subtree line] in *. destruct (nth_error ks' j); discriminate.
        + assert (Es : (match s' with GMatched => ([([], k)], None) | _ => gselect (here ++ [i]) k s' end) = gselect (here ++ [i]) k s').
          { destruct s'; auto. apply gprep_matched in Eq. destruct Hq; congruence. }
          rewrite Es. destruct (IH k Hk (here ++ [i]) q s' Hq Eq) as [H1 H2]. split; auto. intros b u. rewrite H2, G. tauto. }
    assert (Kn : snd (gkids f 0 ks) = None) by (apply gk_none; intros i k Hk; apply (K (0 + i) k); eapply nth_error_In; eauto).
    split; [exact Kn|]. intros b u. split.
    + intros H. apply gk_sound in H as (i & k & c & Hk & -> & Hc). cbn [Nat.add] in *. apply (K i k (nth_error_In _ _ Hk)) in Hc as [H1 H2]. cbn [subtree line]. rewrite Hk. auto.
    + intros [H1 H2]. destruct b as [|i b]; [destruct (proj1 Hp (ggreedy_nil _ H2))|]. cbn [subtree line] in *. destruct (nth_error ks i) as [k|] eqn:Hk; [|discriminate].
      apply (gk_complete f ks 0 Kn i k b u Hk). apply (K (0 + i) k (nth_error_In _ _ Hk)). auto.
  - cbn [gselect]. split; auto. intros b u. split; [intros []|]. intros [H1 H2]. destruct b; cbn in H2; destruct (proj1 Hp (ggreedy_nil _ H2)).
Qed.
Lemma select_fun_greedy p t : p <> [] -> ~ ends_gdeep p -> only_functions p -> gsafe p ->
  exists l, select_fun t p = (l, None) /\ listing t (fun a _ => ggreedy p (line [] t a)) l.
Proof.
  intros Hp Hd Ho Hs. unfold select_fun. destruct (gprep_some p Ho) as (s & Es). rewrite Es. assert (F : gfine p) by (split; auto).
  destruct (gselect_greedy t [] p s F Es) as [H1 H2]. exists (fst (gselect [] t s)). split; [rewrite <- H1; destruct (gselect [] t s); reflexivity|]. split; [apply gselect_sorted|exact H2].
Qed.

(** * Streaming and selecting *)
Lemma same_below_greedy t : forall b u0 here abv n at_ ks p q u, u0 = XE n at_ ks -> subtree t here = Some u0 -> subtree u0 b = Some u -> Forall2 (same_stage t) p q ->
  ((is_element u /\ fgreedy p (tl (starts abv u0 b))) <-> ggreedy q (line here u0 b)).
Proof.
  induction b as [|i b IH]; intros u0 here abv n at_ ks p q u -> Hh Hb F.
  - cbn in Hb. injection Hb as <-. cbn. split.
    + intros (_ & M). apply fgreedy_nil in M as ->. inversion F; subst. constructor.
    + intros M. apply ggreedy_nil in M as ->. inversion F; subst. split; [repeat eexists|constructor].
  - cbn [subtree] in Hb. cbn [starts line tl]. destruct (nth_error ks i) as [k|] eqn:Ek; [|discriminate].
    assert (Hk : subtree t (here ++ [i]) = Some k) by (rewrite XPathFacts.subtree_app, Hh; cbn; rewrite Ek; reflexivity).
    revert q F. induction p as [|st p IHp]; intros q F.
    + inversion F; subst. split; [|intros M; inversion M]. intros (Hu & M). assert (E : starts (abv ++ [n]) k b = []) by (inversion M; auto).
      destruct k as [m a' ks'|x]; [destruct b; discriminate|]. destruct b; [|discriminate]. cbn in Hb. injection Hb as <-. destruct Hu as (? & ? & ? & K). discriminate.
    + inversion F as [|st0 g p' q' Hs F']; subst. destruct (fstage_dec st) as [->|Hst].
      * destruct g; try contradiction. inversion F' as [|st2 g2 p2 q2 Hs2 F2]; subst.
        -- split; [intros (_ & M); inversion M as [|? ? ? ? O| |]; destruct O|intros M; inversion M as [|? ? ? ? O| |]; destruct O].
        -- destruct (fstage_dec st2) as [->|Hst2].
           ++ destruct g2; try contradiction. rewrite ggreedy_twice. rewrite <- (IHp (GDeep :: q2) F'). split; intros [H1 H2]; split; auto; [|apply fg_twice; auto].
              inversion H2 as [|? ? ? ? O|? ? ? ? ? ? O|]; subst; auto; destruct O.
           ++ assert (Hg : g2 <> GDeep) by (destruct st2, g2; try contradiction; try discriminate; congruence). destruct k as [m a' ks'|x].
              ** rewrite starts_cons. pose proof (same_on_element t st2 g2 _ m a' ks' (abv ++ [n]) Hst2 Hs2 Hk) as So.
                 pose proof (IH _ (here ++ [i]) (abv ++ [n]) m a' ks' _ _ u eq_refl Hk Hb F2) as I2. pose proof (IH _ (here ++ [i]) (abv ++ [n]) m a' ks' _ _ u eq_refl Hk Hb F) as I1.
                 split.
                 --- intros (Hu & M). apply fgreedy_deep in M as [[O M]|[O M]]; auto; [apply ggreedy_now; [repeat eexists|tauto|tauto]|apply ggreedy_skip; auto; tauto].
                 --- intros M. apply ggreedy_deep in M as [(_ & O & M)|[O M]]; auto.
                     +++ apply I2 in M as [Hu M]. split; auto. apply fgreedy_now; auto. tauto.
                     +++ apply I1 in M as [Hu M]. split; auto. apply fgreedy_skip; auto. intros K. apply O. split; [repeat eexists|tauto].
              ** destruct b; [|discriminate]. cbn in Hb. injection Hb as <-. split; [intros ((? & ? & ? & K) & _); discriminate|]. intros M. exfalso. cbn [line] in M.
                 apply ggreedy_deep in M as [((? & ? & ? & K) & _)|[_ M]]; auto; [discriminate|]. apply ggreedy_nil in M. discriminate.
      * assert (Hg : g <> GDeep) by (destruct st, g; try contradiction; try discriminate; congruence). rewrite ggreedy_one by auto.
        destruct k as [m a' ks'|x].
        -- specialize (IH _ (here ++ [i]) (abv ++ [n]) m a' ks' p q' u eq_refl Hk Hb F'). rewrite starts_cons. rewrite <- (same_on_element t st g _ m a' ks' (abv ++ [n]) Hst Hs Hk). rewrite <- IH.
           split; [intros (H1 & M); apply fgreedy_one in M as [O M]; auto|intros (O & H1 & M); split; auto; constructor; auto].
        -- destruct b; [|discriminate]. cbn in Hb. injection Hb as <-. split; [intros ((? & ? & ? & K) & _); discriminate|]. intros (K & _). exfalso. exact (same_on_text t st g _ x Hst Hs Hk K).
Qed.
Lemma same_ends t p q : Forall2 (same_stage t) p q -> ends_gdeep q -> ends_fdeep p.
Proof.
  intros F (r & ->). apply Forall2_app_inv_r in F as (p1 & p2 & _ & F & ->). inversion F as [|st g l l' Hs F']; subst. inversion F'; subst. destruct st; try contradiction. exists p1. reflexivity.
Qed.
Lemma stream_select_greedy r p q c s n a ks c' s' x : r <> FDeep -> p <> [] -> ~ ends_fdeep p -> safe (r :: p) -> Forall2 (same_stage (XE n a ks)) p q -> only_functions q -> gsafe q ->
  fserved [r :: p] c s -> fhandle (fstates [r :: p]) c (new_handler s) (doc_events (XE n a ks)) c' s' x ->
  x = None /\
  (fstage_ok r (EvStart n a []) -> sent_to s s' 0 (map snd (fst (select_fun (XE n a ks) q)))) /\
  (~ fstage_ok r (EvStart n a []) -> sent_to s s' 0 []).
Proof.
  intros Hr Hp Hd Hs F Ho Hg Hf H. assert (Ht : is_element (XE n a ks)) by (repeat eexists).
  assert (Hd' : ~ ends_fdeep (r :: p)). { intros (y & E). destruct y as [|z y]; [injection E as -> ->; congruence|]. injection E as _ ->. apply Hd. exists y. reflexivity. }
  destruct (one_greedy (r :: p) c s (XE n a ks) c' s' x ltac:(discriminate) Hd' Hs Hf Ht H) as (-> & _ & _ & l & Hl & Hsent). split; auto.
  assert (Eq : forall b u, subtree (XE n a ks) b = Some u -> (is_element u /\ fgreedy (r :: p) (starts [] (XE n a ks) b)) <-> (fstage_ok r (EvStart n a []) /\ ggreedy q (line [] (XE n a ks) b))).
  { intros b u Hb. pose proof (same_below_greedy (XE n a ks) b _ [] [] n a ks p q u eq_refl eq_refl Hb F) as K. rewrite starts_cons. rewrite <- K.
    split; [intros (H1 & M); apply fgreedy_one in M as [O M]; auto|intros (O & H1 & M); split; auto; constructor; auto]. }
  split; intros Hroot.
  - destruct (select_fun_greedy q (XE n a ks) ltac:(intros ->; inversion F; subst; congruence) (fun K => Hd (same_ends _ _ _ F K)) Ho Hg) as (l2 & E2 & L2). rewrite E2. cbn [fst].
    assert (l = l2) as <-; auto. refine (listing_unique _ _ _ _ _ L2). eapply PatternFacts.listing_ext; [|exact Hl]. intros b u Hb. cbn beta. rewrite (Eq b u Hb). tauto.
  - assert (l = []) as ->; auto. destruct l as [|[b u] l]; auto. exfalso. destruct Hl as [_ Hl]. destruct (proj1 (Hl b u) (or_introl eq_refl)) as [Hb K]. apply (Eq b u Hb) in K as [K _]. contradiction.
Qed.
