(** The loop of the parser as a plain state machine: one transition per state
    dispatch instead of one per loop iteration.  [M_eq] is the equation all
    later proofs use; [sends_M] ties it to the literal model. *)
From Verif Require Import PyStr CharClass Parser ParserS.

Arguments s_cdata : simpl never.

(** ** Loops with a measure *)
Section Loops.
  Context {S : Type} (body : S -> flow S) (mu : S -> nat).

  Definition stuck (s : S) : Prop := body s = Again s [] \/ body s = Fall s [].

  Definition decreasing : Prop := forall s s' e,
    body s = Fall s' e \/ body s = Again s' e -> mu s' < mu s \/ stuck s'.

  Lemma stuck_hang s : stuck s -> forall n, run_loop body n s = LHang [].
  Proof.
    intros H n. induction n as [|n IH]; [reflexivity|]. cbn [run_loop].
    destruct H as [H|H]; rewrite H, IH; reflexivity.
  Qed.

  Lemma run_loop_fuel : decreasing -> forall k n m s,
    mu s <= k -> mu s < n -> mu s < m -> run_loop body n s = run_loop body m s.
  Proof.
    intros Hd. induction k as [|k IH]; intros n m s Hk Hn Hm;
      (destruct n as [|n]; [lia|]); (destruct m as [|m]; [lia|]); cbn [run_loop];
      destruct (body s) as [s' e|s' e|s' e|s' e|x e] eqn:E; try reflexivity;
      (assert (Hs : mu s' < mu s \/ stuck s') by (eapply Hd; eauto));
      destruct Hs as [Hs|Hs]; try lia;
      try (rewrite !(stuck_hang _ Hs); reflexivity).
    - f_equal. apply IH; lia.
    - f_equal. apply IH; lia.
  Qed.
End Loops.

(** ** The state machine *)
Definition mstep (done : bool) (s : sst) : flow sst :=
  match sc s with
  | PreElement => s_pre_element done s
  | PreTagGi | PreCompleteTagGi => s_tag done s
  | CompleteTag => s_complete_tag done s
  | Attribute => s_attribute done s
  | InElement => s_in_element done s
  | CompleteDoc => s_complete_doc done s
  end.

Definition rank (c : pstate) : nat :=
  match c with PreTagGi | PreCompleteTagGi => 2 | CompleteTag => 1 | _ => 0 end.
Definition mu (s : sst) : nat := 4 * length (rest s) + rank (sc s).

Lemma mu_lt s s' : length (rest s') < length (rest s) -> mu s' < mu s.
Proof. unfold mu. intros H. destruct (sc s), (sc s'); cbn; lia. Qed.
Lemma mu_lt2 s s' : length (rest s') <= length (rest s) -> rank (sc s') < rank (sc s) -> mu s' < mu s.
Proof. unfold mu. lia. Qed.

Lemma dropw_idem p s : dropw p (dropw p s) = dropw p s.
Proof.
  destruct (dropw p s) as [|c r] eqn:E; [reflexivity|]. cbn. rewrite (dropw_head _ _ _ _ E). reflexivity.
Qed.

Lemma dropw_cons_lt p s c r : dropw p s = c :: r -> length r < length s.
Proof. intros H. pose proof (dropw_length p s). rewrite H in *. cbn in *. lia. Qed.

Lemma mstep_decreasing done : decreasing (mstep done) mu.
Proof.
  intros s s' e H. destruct s as [r c g pe st at0].
  unfold mstep in H; cbn [sc] in H. unfold stuck.
  destruct c.
  - (* PreElement *)
    unfold s_pre_element in H; cbn [sc rest] in H.
    destruct (dropw is_ws r) as [|c x] eqn:E.
    + unfold s_noa in H. destruct done; destruct H as [H|H]; inversion H; subst. right; left. reflexivity.
    + destruct (c =? c_lt)%N eqn:Ec; destruct H as [H|H]; inversion H; subst.
      * left. apply mu_lt; cbn. eapply dropw_cons_lt; eauto.
      * right; right. unfold mstep, w_rest, s_pre_element; cbn [sc rest sgi spend sstk satt].
        rewrite <- E, dropw_idem, E, Ec. reflexivity.
  - (* InElement *)
    unfold s_in_element in H; cbn [sc rest] in H.
    destruct (s_cdata is_datachar [c_lt] r) as [d x| |x] eqn:E.
    + destruct H as [H|H]; inversion H; subst. left. apply mu_lt; cbn.
      eapply s_cdata_rest in E as (b & c & y & -> & -> & _); [|reflexivity].
      cbn. rewrite app_length. cbn. lia.
    + unfold s_noa in H. destruct done; destruct H as [H|H]; inversion H; subst. right; left.
      unfold mstep, s_in_element; cbn. rewrite E. reflexivity.
    + destruct H as [H|H]; inversion H.
  - (* PreTagGi *)
    unfold s_tag, s_tag_body in H; cbn in H.
    destruct (dropw is_ws r) as [|c x] eqn:E.
    + unfold s_noa in H. destruct done; destruct H as [H|H]; inversion H; subst. right; left. reflexivity.
    + pose proof (dropw_cons_lt _ _ _ _ E) as Hl. destruct (c =? c_slash)%N eqn:Es.
      { destruct H as [H|H]; inversion H; subst. left. apply mu_lt; cbn. lia. }
      destruct (is_namestart c) eqn:En.
      * destruct (dropw is_namechar x) as [|c2 x2] eqn:E2.
        -- unfold s_noa in H. destruct done; destruct H as [H|H]; inversion H; subst. right; left.
           unfold mstep, s_tag, s_tag_body; cbn [sc rest w_rest w_pend].
           rewrite <- E, dropw_idem, E, Es, En, E2. reflexivity.
        -- pose proof (dropw_cons_lt _ _ _ _ E2). destruct H as [H|H]; inversion H; subst. left. apply mu_lt; cbn. lia.
      * destruct H as [H|H]; inversion H; subst. left. apply mu_lt2; cbn; lia.
  - (* PreCompleteTagGi *)
    unfold s_tag, s_tag_body in H; cbn in H.
    destruct (dropw is_ws r) as [|c x] eqn:E.
    + unfold s_noa in H. destruct done; destruct H as [H|H]; inversion H; subst. right; left. reflexivity.
    + pose proof (dropw_cons_lt _ _ _ _ E) as Hl.
      destruct (is_namestart c) eqn:En.
      * destruct (dropw is_namechar x) as [|c2 x2] eqn:E2.
        -- unfold s_noa in H. destruct done; destruct H as [H|H]; inversion H; subst. right; left.
           unfold mstep, s_tag, s_tag_body; cbn [sc rest w_rest w_pend].
           rewrite <- E, dropw_idem, E, En, E2. reflexivity.
        -- pose proof (dropw_cons_lt _ _ _ _ E2). destruct H as [H|H]; inversion H; subst. left. apply mu_lt; cbn. lia.
      * destruct H as [H|H]; inversion H; subst. left. apply mu_lt2; cbn; lia.
  - (* CompleteTag *)
    unfold s_complete_tag, s_after_gt in H; cbn in H.
    destruct (dropw is_ws r) as [|c x] eqn:E.
    + unfold s_noa in H. destruct done; destruct H as [H|H]; inversion H; subst. right; left. reflexivity.
    + pose proof (dropw_cons_lt _ _ _ _ E) as Hl.
      destruct pe; cbn [andb] in H.
      * destruct (is_namestart c).
        { destruct H as [H|H]; inversion H; subst. left. apply mu_lt2; cbn; lia. }
        destruct (c =? c_gt)%N; [|destruct H as [H|H]; inversion H].
        destruct x as [|c1 x]; [destruct done; destruct H as [H|H]; inversion H|].
        destruct H as [H|H]; inversion H; subst. left. apply mu_lt; cbn in *. lia.
      * destruct (c =? c_gt)%N; [|destruct H as [H|H]; inversion H].
        destruct st as [|o st]; [destruct H as [H|H]; inversion H|].
        destruct (str_eqb o g); [|destruct H as [H|H]; inversion H].
        destruct x as [|c1 x]; [destruct done; destruct H as [H|H]; inversion H|].
        destruct H as [H|H]; inversion H; subst. left. apply mu_lt; cbn in *. lia.
  - (* CompleteDoc *)
    unfold s_complete_doc in H; cbn [sc rest] in H.
    destruct r as [|c0 r0]; [destruct H as [H|H]; inversion H|].
    destruct (dropw is_ws (c0 :: r0)) as [|c x] eqn:E.
    + unfold s_noa in H. destruct done; destruct H as [H|H]; inversion H; subst.
      left. apply mu_lt; cbn. lia.
    + destruct H as [H|H]; inversion H.
  - (* Attribute *)
    unfold s_attribute in H; cbn [sc rest] in H.
    assert (Hnoa : forall t, s_noa done t = Fall s' e \/ s_noa done t = Again s' e -> s' = t /\ done = true).
    { intros t Ht. unfold s_noa in Ht. destruct done; destruct Ht as [Ht|Ht]; inversion Ht; auto. }
    assert (Hst : forall X, X = s_noa done (mkS r Attribute g pe st at0) ->
      mstep done (mkS r Attribute g pe st at0) = X -> X = Fall s' e \/ X = Again s' e ->
      mu s' < mu (mkS r Attribute g pe st at0) \/ mstep done s' = Again s' [] \/ mstep done s' = Fall s' []).
    { intros X HX Hm HH. subst X. pose proof (Hnoa _ HH) as [-> ->]. right; left. rewrite Hm. reflexivity. }
    destruct r as [|c0 r0]; [eapply Hst; [| |exact H]; reflexivity|].
    destruct (dropw is_namechar r0) as [|c1 r1] eqn:E1.
    { eapply Hst; [| |exact H]; [reflexivity|]. unfold mstep, s_attribute; cbn. rewrite E1. reflexivity. }
    destruct (dropw is_ws (c1 :: r1)) as [|c r2] eqn:E2.
    { eapply Hst; [| |exact H]; [reflexivity|]. unfold mstep, s_attribute; cbn [sc rest]. rewrite E1, E2. reflexivity. }
    pose proof (dropw_cons_lt _ _ _ _ E1) as Hl1. pose proof (dropw_cons_lt _ _ _ _ E2) as Hl2. cbn [length] in *.
    destruct (c =? c_eq)%N; [|destruct H as [H|H]; inversion H].
    destruct r2 as [|q r3]; [destruct done; destruct H as [H|H]; inversion H|].
    cbn [length] in *.
    destruct (is_quote q).
    + destruct (s_cdata (attr_pat q) [q] r3) as [d x| |x] eqn:E.
      * destruct H as [H|H]; inversion H; subst. left. apply mu_lt; cbn.
        eapply s_cdata_rest in E as (b & c9 & y & -> & -> & _); [|reflexivity].
        cbn. rewrite app_length in *. cbn in *. lia.
      * pose proof (Hnoa _ H) as [-> ->]. left. apply mu_lt; cbn. lia.
      * destruct H as [H|H]; inversion H.
    + destruct H as [H|H]; inversion H; subst. left. apply mu_lt; cbn. lia.
Qed.

(** Running the machine to the end of its input. *)
Definition M (done : bool) (s : sst) : lres sst := run_loop (mstep done) (S (mu s)) s.

Definition flow_run (k : sst -> lres sst) (f : flow sst) : lres sst :=
  match f with
  | Fall s' e | Again s' e => lprepend e (k s')
  | Need s' e | Break s' e => LStop s' e
  | Raise x e => LRaise x e
  end.

Lemma M_fuel done n s : mu s < n -> run_loop (mstep done) n s = M done s.
Proof. intros H. unfold M. eapply run_loop_fuel with (mu := mu) (k := mu s); auto. apply mstep_decreasing. Qed.

Lemma M_stuck done s : stuck (mstep done) s -> M done s = LHang [].
Proof. intros H. apply stuck_hang, H. Qed.

Lemma M_eq done s : M done s = flow_run (M done) (mstep done s).
Proof.
  unfold M at 1. cbn [run_loop]. unfold flow_run.
  destruct (mstep done s) as [s' e|s' e|s' e|s' e|x e] eqn:E; try reflexivity; f_equal.
  - destruct (mstep_decreasing done s s' e (or_introl E)) as [H|H].
    + apply M_fuel; auto.
    + rewrite (M_stuck _ _ H). apply stuck_hang, H.
  - destruct (mstep_decreasing done s s' e (or_intror E)) as [H|H].
    + apply M_fuel; auto.
    + rewrite (M_stuck _ _ H). apply stuck_hang, H.
Qed.

Arguments M : simpl never.
Arguments mstep : simpl never.

Lemma lprepend_nil {A} (r : lres A) : lprepend [] r = r.
Proof. destruct r; reflexivity. Qed.
Lemma lprepend_app {A} a b (r : lres A) : lprepend a (lprepend b r) = lprepend (a ++ b) r.
Proof. destruct r; cbn; rewrite app_assoc; reflexivity. Qed.

(** ** One iteration of the literal loop is a run of the machine *)
Lemma flow_run_and_then k f g :
  (forall s, flow_run k (g s) = k s) -> flow_run k (and_then f g) = flow_run k f.
Proof.
  intros Hg. destruct f as [s e|s e|s e|s e|x e]; cbn; try reflexivity.
  rewrite <- Hg. destruct (g s); cbn; rewrite ?lprepend_app; reflexivity.
Qed.

Lemma flow_run_skip k s : flow_run k (Fall s []) = k s.
Proof. cbn. apply lprepend_nil. Qed.

Lemma siter_M done s : flow_run (M done) (siter done s) = M done s.
Proof.
  assert (H6 : forall s, flow_run (M done) (s_complete_doc done s) = M done s).
  { intros t. unfold s_complete_doc at 1. destruct (sc t) eqn:E; try apply flow_run_skip.
    rewrite (M_eq _ t). unfold mstep. rewrite E. unfold s_complete_doc. rewrite E. reflexivity. }
  assert (H5 : forall s, flow_run (M done) (s_in_element done s) = M done s).
  { intros t. unfold s_in_element at 1. destruct (sc t) eqn:E; try apply flow_run_skip.
    rewrite (M_eq _ t). unfold mstep. rewrite E. unfold s_in_element. rewrite E. reflexivity. }
  assert (H4 : forall s, flow_run (M done) (s_attribute done s) = M done s).
  { intros t. unfold s_attribute at 1. destruct (sc t) eqn:E; try apply flow_run_skip.
    rewrite (M_eq _ t). unfold mstep. rewrite E. unfold s_attribute. rewrite E. reflexivity. }
  assert (H3 : forall s, flow_run (M done) (s_complete_tag done s) = M done s).
  { intros t. unfold s_complete_tag at 1. destruct (sc t) eqn:E; try apply flow_run_skip.
    rewrite (M_eq _ t). unfold mstep. rewrite E. unfold s_complete_tag. rewrite E. reflexivity. }
  assert (H2 : forall s, flow_run (M done) (s_tag done s) = M done s).
  { intros t. unfold s_tag at 1. destruct (sc t) eqn:E; try apply flow_run_skip;
    rewrite (M_eq _ t); unfold mstep; rewrite E; unfold s_tag; rewrite E; reflexivity. }
  assert (H1 : forall s, flow_run (M done) (s_pre_element done s) = M done s).
  { intros t. unfold s_pre_element at 1. destruct (sc t) eqn:E; try apply flow_run_skip.
    rewrite (M_eq _ t). unfold mstep. rewrite E. unfold s_pre_element. rewrite E. reflexivity. }
  unfold siter.
  rewrite flow_run_and_then; [apply H1|]. intros s1.
  rewrite flow_run_and_then; [apply H2|]. intros s2.
  rewrite flow_run_and_then; [apply H3|]. intros s3.
  rewrite flow_run_and_then; [apply H4|]. intros s4.
  rewrite flow_run_and_then; [apply H5|]. intros s5. apply H6.
Qed.

(** The literal iteration also decreases the measure. *)
Definition weakly (f : flow sst) (s : sst) (done : bool) : Prop :=
  forall s' e, f = Fall s' e \/ f = Again s' e -> mu s' <= mu s \/ stuck (mstep done) s'.
Definition strongly (f : flow sst) (s : sst) (done : bool) : Prop :=
  forall s' e, f = Fall s' e \/ f = Again s' e -> mu s' < mu s \/ stuck (mstep done) s'.

Definition sections := [s_pre_element; s_tag; s_complete_tag; s_attribute; s_in_element; s_complete_doc].

Lemma section_cases f done s : In f sections -> f done s = mstep done s \/ f done s = Fall s [].
Proof.
  intros H. cbn in H. unfold mstep.
  destruct H as [<-|[<-|[<-|[<-|[<-|[<-|[]]]]]]];
    unfold s_pre_element, s_tag, s_complete_tag, s_attribute, s_in_element, s_complete_doc;
    destruct (sc s) eqn:E; auto.
Qed.

Fixpoint chain (l : list (bool -> sst -> flow sst)) (done : bool) (s : sst) : flow sst :=
  match l with
  | [] => Fall s []
  | f :: l' => and_then (f done s) (chain l' done)
  end.

Lemma flow_prepend_inv e (f : flow sst) s' e' :
  flow_prepend e f = Fall s' e' \/ flow_prepend e f = Again s' e' ->
  exists e2, f = Fall s' e2 \/ f = Again s' e2.
Proof. destruct f; cbn; intros [H|H]; inversion H; subst; eauto. Qed.

Lemma chain_stuck l done s : incl l sections -> stuck (mstep done) s ->
  chain l done s = Again s [] \/ chain l done s = Fall s [].
Proof.
  induction l as [|f l IH]; intros Hi Hs; cbn; [auto|].
  assert (Hf : In f sections) by (apply Hi; left; auto).
  assert (Hl : incl l sections) by (intros x Hx; apply Hi; right; auto).
  destruct (section_cases f done s Hf) as [H|H]; rewrite H.
  - destruct Hs as [Hs|Hs]; rewrite Hs; cbn; auto.
    destruct (IH Hl (or_intror Hs)) as [Hc|Hc]; rewrite Hc; cbn; auto.
  - cbn. destruct (IH Hl Hs) as [Hc|Hc]; rewrite Hc; cbn; auto.
Qed.

Lemma chain_weak l done : incl l sections -> forall s, weakly (chain l done s) s done.
Proof.
  induction l as [|f l IH]; intros Hi s s' e H; cbn in H.
  - destruct H as [H|H]; inversion H; subst; auto.
  - assert (Hf : In f sections) by (apply Hi; left; auto).
    assert (Hl : incl l sections) by (intros x Hx; apply Hi; right; auto).
    destruct (section_cases f done s Hf) as [Hc|Hc]; rewrite Hc in H.
    + destruct (mstep done s) as [s1 e1|s1 e1|s1 e1|s1 e1|x1 e1] eqn:E; cbn in H;
        try (destruct H as [H|H]; inversion H; fail).
      * apply flow_prepend_inv in H as (e2 & H).
        destruct (mstep_decreasing done s s1 e1 (or_introl E)) as [Hd|Hd].
        -- apply (IH Hl) in H. destruct H; auto. left; lia.
        -- destruct (chain_stuck l done s1 Hl Hd) as [Hc2|Hc2]; rewrite Hc2 in H;
             destruct H as [H|H]; inversion H; subst; auto.
      * destruct H as [H|H]; inversion H; subst.
        destruct (mstep_decreasing done s s' e (or_intror E)) as [Hd|Hd]; auto. left; lia.
    + cbn in H. apply flow_prepend_inv in H as (e2 & H). apply (IH Hl) in H. auto.
Qed.

Lemma chain_strong l done : incl l sections -> forall s f,
  In f l -> f done s = mstep done s -> (forall g, In g l -> g done s = mstep done s \/ g done s = Fall s []) ->
  strongly (chain l done s) s done.
Proof.
  induction l as [|f0 l IH]; intros Hi s f Hin Hf Hall; [destruct Hin|].
  assert (Hl : incl l sections) by (intros x Hx; apply Hi; right; auto).
  intros s' e H. cbn in H.
  destruct (Hall f0 (or_introl eq_refl)) as [Hc|Hc].
  - rewrite Hc in H.
    destruct (mstep done s) as [s1 e1|s1 e1|s1 e1|s1 e1|x1 e1] eqn:E; cbn in H;
      try (destruct H as [H|H]; inversion H; fail).
    + apply flow_prepend_inv in H as (e2 & H).
      destruct (mstep_decreasing done s s1 e1 (or_introl E)) as [Hd|Hd].
      * apply (chain_weak l done Hl) in H. destruct H; auto. left; lia.
      * destruct (chain_stuck l done s1 Hl Hd) as [Hc2|Hc2]; rewrite Hc2 in H;
          destruct H as [H|H]; inversion H; subst; auto.
    + destruct H as [H|H]; inversion H; subst.
      destruct (mstep_decreasing done s s' e (or_intror E)) as [Hd|Hd]; auto.
  - rewrite Hc in H. cbn in H. apply flow_prepend_inv in H as (e2 & H).
    destruct Hin as [<-|Hin].
    + (* mstep s = Fall s [] : stuck *)
      rewrite Hc in Hf. symmetry in Hf.
      destruct (chain_stuck l done s Hl (or_intror Hf)) as [Hc2|Hc2]; rewrite Hc2 in H;
        destruct H as [H|H]; inversion H; subst; right; right; auto.
    + eapply (IH Hl s f Hin Hf); eauto. intros g Hg; apply Hall; right; auto.
Qed.

Lemma siter_chain done s : siter done s = chain sections done s.
Proof.
  unfold siter, chain, sections.
  assert (A : forall (f : flow sst), and_then f (fun s => Fall s []) = f).
  { intros f. destruct f; cbn; rewrite ?app_nil_r; reflexivity. }
  assert (B : forall (f : flow sst) g h, (forall s, g s = h s) -> and_then f g = and_then f h).
  { intros f g h Hgh. destruct f; cbn; rewrite ?Hgh; reflexivity. }
  do 5 (apply B; intros ?). symmetry. apply A.
Qed.

Lemma siter_strong done s : strongly (siter done s) s done.
Proof.
  rewrite siter_chain.
  assert (Hs : exists f, In f sections /\ f done s = mstep done s).
  { unfold mstep. destruct (sc s) eqn:E; eexists; (split; [|reflexivity]); cbn; auto 10. }
  destruct Hs as (f & Hin & Hf).
  eapply chain_strong; eauto.
  - intros x Hx; exact Hx.
  - intros g Hg. apply section_cases; auto.
Qed.

Lemma run_siter done : forall k n s, mu s <= k -> mu s < n -> run_loop (siter done) n s = M done s.
Proof.
  assert (Hstuck : forall s n, stuck (mstep done) s -> run_loop (siter done) n s = LHang []).
  { intros s n H. apply stuck_hang. unfold stuck. rewrite siter_chain.
    apply chain_stuck; auto. intros x Hx; exact Hx. }
  induction k as [|k IH]; intros n s Hk Hn; (destruct n as [|n]; [lia|]); cbn [run_loop];
    rewrite <- (siter_M done s); unfold flow_run;
    destruct (siter done s) as [s' e|s' e|s' e|s' e|x e] eqn:E; try reflexivity; f_equal.
  - destruct (siter_strong done s s' e (or_introl E)) as [H|H]; [lia|].
    rewrite (M_stuck _ _ H). auto.
  - destruct (siter_strong done s s' e (or_intror E)) as [H|H]; [lia|].
    rewrite (M_stuck _ _ H). auto.
  - destruct (siter_strong done s s' e (or_introl E)) as [H|H]; [apply IH; lia|].
    rewrite (M_stuck _ _ H). auto.
  - destruct (siter_strong done s s' e (or_intror E)) as [H|H]; [apply IH; lia|].
    rewrite (M_stuck _ _ H). auto.
Qed.

(** ** The literal loop and the machine *)
Lemma loop_M w done fuel s : ok_in w s -> mu (abs s) < fuel ->
  lres_all (ok_in w) (loop fuel done s) /\ lres_map abs (loop fuel done s) = M done (abs s).
Proof.
  intros Hok Hf. destruct (loop_sim w done fuel s Hok) as [H1 H2]. split; auto.
  rewrite H2. eapply run_siter; eauto.
Qed.

Lemma enough_mu w s : ok_in w s -> mu (abs s) < enough s.
Proof.
  intros [H1 H2]. unfold mu, abs, enough; cbn. rewrite skipn_length.
  destruct (cstate s); cbn; lia.
Qed.

(** Running out of fuel in the literal model is genuine divergence: more fuel never
    helps. *)
Theorem loop_hang_genuine w done s evs : ok_in w s ->
  loop (enough s) done s = LHang evs -> forall n, enough s <= n -> loop n done s = LHang evs.
Proof.
  intros Hok H n Hn.
  destruct (loop_M w done (enough s) s Hok (enough_mu w s Hok)) as [_ H1].
  destruct (loop_M w done n s Hok) as [_ H2]. { pose proof (enough_mu w s Hok). lia. }
  rewrite H in H1. cbn in H1. rewrite <- H1 in H2.
  destruct (loop n done s); cbn in H2; inversion H2; reflexivity.
Qed.

(** A state of the machine together with the window determines the literal state. *)
Lemma abs_inj w s t : ok_in w s -> ok_in w t -> abs s = abs t -> s = t.
Proof.
  intros [H1 H2] [H3 H4] H. destruct s, t; unfold abs in H; cbn in *; subst.
  inversion H; subst. f_equal.
  assert (Hl : length (skipn pos w) = length (skipn pos0 w)) by congruence.
  rewrite !skipn_length in Hl. lia.
Qed.
