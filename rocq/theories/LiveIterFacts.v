(** Facts about suspended iterators: C134. *)
From Verif Require Import PyStr Parser XTree Tree Nodes Pattern TreeUtil Path Heap Builder HeapSpec HeapFacts LiveIter LiveIterSpec.

Lemma to_come_nth h r i : to_come h r i = match nth_error (kids_of h r) i with Some c => c :: to_come h r (S i) | None => [] end.
Proof. unfold to_come. generalize (kids_of h r). induction i as [|i IH]; intros [|x l]; cbn [skipn nth_error]; auto. rewrite IH. reflexivity. Qed.
Lemma to_come_cons h r i c cs : to_come h r i = c :: cs -> nth_error (kids_of h r) i = Some c /\ to_come h r (S i) = cs.
Proof. rewrite to_come_nth. destruct (nth_error (kids_of h r) i) as [x|]; [|discriminate]. intros H. injection H as -> H. auto. Qed.
Lemma to_come_nil h r i : to_come h r i = [] -> nth_error (kids_of h r) i = None.
Proof. rewrite to_come_nth. destruct (nth_error (kids_of h r) i) as [x|]; [discriminate|reflexivity]. Qed.

Section Walk.
  Context {T : Type}.
  Variable v : T -> heap -> ref -> act T.
  Lemma pull_more n h st r k : pull v n h st = Some r -> pull v (k + n) h st = Some r.
  Proof.
    revert st. induction n as [|n IH]; intros st H; [discriminate|]. rewrite Nat.add_succ_r. cbn [pull] in *. destruct (tick v h st); auto.
  Qed.
  Lemma pulls_det h st r r' : pulls v h st r -> pulls v h st r' -> r = r'.
  Proof. intros (n & H) (m & H'). apply (pull_more _ _ _ _ m) in H. apply (pull_more _ _ _ _ n) in H'. rewrite Nat.add_comm in H'. congruence. Qed.
  Lemma pulls_quiet h st st' r : tick v h st = TQuiet st' -> pulls v h st' r -> pulls v h st r.
  Proof. intros E (n & H). exists (S n). cbn [pull]. rewrite E. exact H. Qed.
  Lemma pulls_quiet_inv h st st' r : tick v h st = TQuiet st' -> pulls v h st r -> pulls v h st' r.
  Proof. intros E ([|n] & H); [discriminate|]. cbn [pull] in H. rewrite E in H. exists n. exact H. Qed.

  Definition answers h (st : list (frame T)) (l : list ref) (e : bool) : Prop :=
    match l with
    | c :: l' => exists st', pulls v h st (Gives c st') /\ future v h st' l' e
    | [] => pulls v h st (if e then Fails else Ends)
    end.
  Lemma answers_quiet h st st' l e : tick v h st = TQuiet st' -> answers h st' l e -> answers h st l e.
  Proof.
    intros E. destruct l as [|c l]; cbn [answers].
    - apply pulls_quiet. exact E.
    - intros (st2 & H & F). exists st2. split; [|exact F]. eapply pulls_quiet; eauto.
  Qed.
  Lemma gives_now h st c st' : tick v h st = TOut c st' -> pulls v h st (Gives c st').
  Proof. intros E. exists 1. cbn [pull]. rewrite E. reflexivity. Qed.

  Lemma sees_answers h s cs l e : sees v h s cs l e -> forall r i st, to_come h r i = cs ->
    (e = false -> forall l2 e2, future v h st l2 e2 -> answers h st l2 e2 -> answers h ((r, i, s) :: st) (l ++ l2) e2) /\
    (e = true -> answers h ((r, i, s) :: st) l true).
  Proof.
    induction 1 as [s|s c cs l e Hv Hs IH|s c cs l e Hv Hs IH|s s' c cs l1 l2 e Hv H1 IH1 H2 IH2|s s' c cs l1 l2 e Hv H1 IH1 H2 IH2
      |s s' c cs l Hv H1 IH1|s s' c cs l Hv H1 IH1|s c cs Hv]; intros r i st Ht.
    - apply to_come_nil in Ht. split; [|discriminate]. intros _ l2 e2 _ A. eapply answers_quiet; [|exact A]. cbn [tick]. rewrite Ht. reflexivity.
    - apply to_come_cons in Ht as [Hn Ht]. assert (E : tick v h ((r, i, s) :: st) = TQuiet ((r, S i, s) :: st)) by (cbn [tick]; rewrite Hn, Hv; reflexivity).
      destruct (IH r (S i) st Ht) as [A B]. split.
      + intros He l2 e2 F A2. eapply answers_quiet; [exact E|]. apply A; auto.
      + intros He. eapply answers_quiet; [exact E|]. auto.
    - apply to_come_cons in Ht as [Hn Ht]. assert (E : tick v h ((r, i, s) :: st) = TOut c ((r, S i, s) :: st)) by (cbn [tick]; rewrite Hn, Hv; reflexivity).
      split; [intros -> l2 e2 F _|intros ->]; cbn [answers app]; exists ((r, S i, s) :: st); (split; [apply gives_now; exact E|]).
      + apply fu_cons; [rewrite Ht; exact Hs|exact F].
      + apply fu_fail. rewrite Ht. exact Hs.
    - apply to_come_cons in Ht as [Hn Ht]. assert (E : tick v h ((r, i, s) :: st) = TQuiet ((c, 0, s') :: (r, S i, s) :: st)) by (cbn [tick]; rewrite Hn, Hv; reflexivity).
      destruct (IH1 c 0 ((r, S i, s) :: st) eq_refl) as [A1 _]. destruct (IH2 r (S i) st Ht) as [A2 B2]. split.
      + intros -> l3 e3 F A3. eapply answers_quiet; [exact E|]. rewrite <- app_assoc. apply A1; auto. apply fu_cons; [rewrite Ht; exact H2|exact F].
      + intros ->. eapply answers_quiet; [exact E|]. apply A1; auto. apply fu_fail. rewrite Ht. exact H2.
    - apply to_come_cons in Ht as [Hn Ht]. assert (E : tick v h ((r, i, s) :: st) = TOut c ((c, 0, s') :: (r, S i, s) :: st)) by (cbn [tick]; rewrite Hn, Hv; reflexivity).
      split; [intros -> l3 e3 F _|intros ->]; cbn [answers app]; exists ((c, 0, s') :: (r, S i, s) :: st); (split; [apply gives_now; exact E|]).
      + rewrite <- app_assoc. apply fu_cons; [exact H1|]. apply fu_cons; [rewrite Ht; exact H2|exact F].
      + apply fu_cons; [exact H1|]. apply fu_fail. rewrite Ht. exact H2.
    - apply to_come_cons in Ht as [Hn Ht]. assert (E : tick v h ((r, i, s) :: st) = TQuiet ((c, 0, s') :: (r, S i, s) :: st)) by (cbn [tick]; rewrite Hn, Hv; reflexivity).
      split; [discriminate|]. intros _. eapply answers_quiet; [exact E|]. apply (IH1 c 0 _ eq_refl). reflexivity.
    - apply to_come_cons in Ht as [Hn Ht]. assert (E : tick v h ((r, i, s) :: st) = TOut c ((c, 0, s') :: (r, S i, s) :: st)) by (cbn [tick]; rewrite Hn, Hv; reflexivity).
      split; [discriminate|]. intros _. cbn [answers]. eexists. split; [apply gives_now; exact E|]. apply fu_fail. exact H1.
    - apply to_come_cons in Ht as [Hn Ht]. split; [discriminate|]. intros _. cbn [answers]. exists 1. cbn [pull tick]. rewrite Hn, Hv. reflexivity.
  Qed.
  Lemma next_answers h st l e : future v h st l e -> answers h st l e.
  Proof.
    induction 1 as [|r i s st l1 l2 e Hs F IH|r i s st l Hs].
    - exists 1. reflexivity.
    - apply (sees_answers _ _ _ _ _ Hs r i st eq_refl); auto.
    - apply (sees_answers _ _ _ _ _ Hs r i st eq_refl); auto.
  Qed.

  Lemma sees_list h cs : (forall c s, In c cs -> exists l e, sees v h s (kids_of h c) l e) -> forall s, exists l e, sees v h s cs l e.
  Proof.
    induction cs as [|c cs IH]; intros H s; [do 2 eexists; constructor|].
    destruct (IH (fun c' s' Hc => H c' s' (or_intror Hc)) s) as (l & e & Hs). pose proof (fun s' => H c s' (or_introl eq_refl)) as Hc.
    destruct (v s h c) as [| |s'|s'|] eqn:E.
    - do 2 eexists. eapply se_pass; eauto.
    - do 2 eexists. eapply se_give; eauto.
    - destruct (Hc s') as (l1 & [|] & H1); do 2 eexists; [eapply se_enter_fail; eauto|eapply se_enter; eauto].
    - destruct (Hc s') as (l1 & [|] & H1); do 2 eexists; [eapply se_both_fail; eauto|eapply se_both; eauto].
    - do 2 eexists. eapply se_fail; eauto.
  Qed.
  Lemma sees_tree h : (forall p i t ids, holds h p i t ids -> forall s, exists l e, sees v h s (kids_of h i) l e) /\
    (forall q is ts ids, holds_all h q is ts ids -> forall c s, In c is -> exists l e, sees v h s (kids_of h c) l e).
  Proof.
    apply holds_both.
    - intros p i n a is ks idss Hi _ IH s. unfold kids_of at 1. rewrite Hi. cbn [okids]. apply sees_list. exact IH.
    - intros p i s Hi s'. unfold kids_of at 1. rewrite Hi. do 2 eexists. constructor.
    - intros q c s [].
    - intros q i is t ts ids idss _ IH1 _ IH2 c s [<-|Hc]; auto.
  Qed.
  Lemma future_total h st : well_linked h -> exists l e, future v h st l e.
  Proof.
    intros (_ & Hl & _ & Ht). induction st as [|[[r i] s] st (l2 & e & IH)]; [do 2 eexists; constructor|].
    assert (H : exists l e, sees v h s (to_come h r i) l e).
    { apply sees_list. intros c s' Hc. assert (Hk : child h r c).
      { unfold to_come, kids_of in Hc. destruct (hp h r) as [o|] eqn:E; [|destruct i; destruct Hc].
        exists o. split; [exact E|]. rewrite <- (firstn_skipn i (okids o)). apply in_or_app; auto. }
      apply Hl in Hk as (o & Ho & _). destruct (Ht c o Ho) as (t & ids & Hh & _). apply (proj1 (sees_tree h) _ _ _ _ Hh). }
    destruct H as (l1 & [|] & H); do 2 eexists; [eapply fu_fail; eauto|eapply fu_cons; eauto].
  Qed.
  Lemma sees_det h s cs l e : sees v h s cs l e -> forall l' e', sees v h s cs l' e' -> l' = l /\ e' = e.
  Proof.
    induction 1 as [s|s c cs l e Hv Hs IH|s c cs l e Hv Hs IH|s s' c cs l1 l2 e Hv H1 IH1 H2 IH2|s s' c cs l1 l2 e Hv H1 IH1 H2 IH2
      |s s' c cs l Hv H1 IH1|s s' c cs l Hv H1 IH1|s c cs Hv]; intros l' e' H; inversion H; subst; try congruence; auto;
      repeat match goal with
        | A : v ?s ?h ?c = Enter ?x, B : v ?s ?h ?c = Enter ?y |- _ => rewrite A in B; injection B as ->
        | A : v ?s ?h ?c = GiveEnter ?x, B : v ?s ?h ?c = GiveEnter ?y |- _ => rewrite A in B; injection B as ->
        | IH : forall l' e', sees _ _ ?s ?cs l' e' -> _, B : sees _ _ ?s ?cs ?m ?f |- _ => destruct (IH m f B) as [? ?]; subst; clear B
        end; try discriminate; auto.
  Qed.
  Lemma future_det h st l e : future v h st l e -> forall l' e', future v h st l' e' -> l' = l /\ e' = e.
  Proof.
    induction 1 as [|r i s st l1 l2 e Hs F IH|r i s st l Hs]; intros l' e' H; inversion H; subst; auto.
    - match goal with B : sees _ _ _ _ _ _ |- _ => destruct (sees_det _ _ _ _ _ Hs _ _ B) as [-> _] end.
      match goal with B : future _ _ _ _ _ |- _ => destruct (IH _ _ B) as [-> ->] end. auto.
    - match goal with B : sees _ _ _ _ _ _ |- _ => destruct (sees_det _ _ _ _ _ Hs _ _ B) as [_ D]; discriminate D end.
    - match goal with B : sees _ _ _ _ _ _ |- _ => destruct (sees_det _ _ _ _ _ Hs _ _ B) as [_ D]; discriminate D end.
    - match goal with B : sees _ _ _ _ _ _ |- _ => destruct (sees_det _ _ _ _ _ Hs _ _ B) as [-> _] end. auto.
  Qed.
End Walk.

(** ** What the iterators see *)
Lemma sees_deep h : (forall p i t ids, holds h p i t ids -> sees deep h tt (kids_of h i) (filter (elem_of h) (tl ids)) false) /\
  (forall q is ts ids, holds_all h q is ts ids -> sees deep h tt is (filter (elem_of h) ids) false).
Proof.
  apply holds_both.
  - intros p i n a is ks idss Hi _ IH. unfold kids_of. rewrite Hi. exact IH.
  - intros p i s Hi. unfold kids_of. rewrite Hi. constructor.
  - intros q. constructor.
  - intros q i is t ts ids idss Hh IH1 _ IH2. rewrite filter_app. destruct (elem_of h i) eqn:E.
    + assert (Hv : deep tt h i = GiveEnter tt) by (unfold deep; rewrite E; reflexivity).
      assert (Hi : ids = i :: tl ids) by (inversion Hh; reflexivity). rewrite Hi. cbn [filter]. rewrite E. eapply se_both; eauto.
    + assert (Hv : deep tt h i = Pass) by (unfold deep; rewrite E; reflexivity).
      assert (Hi : ids = [i]) by (inversion Hh; subst; [unfold elem_of in E; match goal with A : hp h i = _ |- _ => rewrite A in E end; discriminate|reflexivity]).
      rewrite Hi. cbn [filter]. rewrite E. eapply se_pass; eauto.
Qed.
Lemma future_deep h p r t ids : holds h p r t ids -> future deep h [(r, 0, tt)] (filter (elem_of h) (tl ids)) false.
Proof. intros H. rewrite <- (app_nil_r (filter _ _)). apply fu_cons; [|constructor]. apply (proj1 (sees_deep h) _ _ _ _ H). Qed.

Lemma sees_kept {T} (v : T -> heap -> ref -> act T) p h s cs l e : sees v h s cs l e -> sees (kept p v) h s cs (filter (p h) l) e.
Proof.
  induction 1 as [s|s c cs l e Hv Hs IH|s c cs l e Hv Hs IH|s s' c cs l1 l2 e Hv H1 IH1 H2 IH2|s s' c cs l1 l2 e Hv H1 IH1 H2 IH2
      |s s' c cs l Hv H1 IH1|s s' c cs l Hv H1 IH1|s c cs Hv]; cbn [filter]; rewrite ?filter_app.
  - constructor.
  - eapply se_pass; eauto. unfold kept. rewrite Hv. reflexivity.
  - destruct (p h c) eqn:E; [eapply se_give|eapply se_pass]; eauto; unfold kept; rewrite Hv, E; reflexivity.
  - eapply se_enter; eauto. unfold kept. rewrite Hv. reflexivity.
  - destruct (p h c) eqn:E; [eapply se_both|eapply se_enter]; eauto; unfold kept; rewrite Hv, E; reflexivity.
  - eapply se_enter_fail; eauto. unfold kept. rewrite Hv. reflexivity.
  - destruct (p h c) eqn:E; [eapply se_both_fail|eapply se_enter_fail]; eauto; unfold kept; rewrite Hv, E; reflexivity.
  - eapply se_fail. unfold kept. rewrite Hv. reflexivity.
Qed.
Lemma future_kept {T} (v : T -> heap -> ref -> act T) p h st l e : future v h st l e -> future (kept p v) h st (filter (p h) l) e.
Proof.
  induction 1 as [|r i s st l1 l2 e Hs F IH|r i s st l Hs]; rewrite ?filter_app; [constructor|apply fu_cons|apply fu_fail]; auto using sees_kept.
Qed.
Lemma sees_flat p h cs : sees (flat p) h tt cs (filter (p h) cs) false.
Proof.
  induction cs as [|c cs IH]; cbn [filter]; [constructor|]. destruct (p h c) eqn:E; [apply se_give|apply se_pass]; auto; unfold flat; rewrite E; reflexivity.
Qed.
Lemma future_flat p h r i : future (flat p) h [(r, i, tt)] (filter (p h) (to_come h r i)) false.
Proof. rewrite <- (app_nil_r (filter _ _)). apply fu_cons; [apply sees_flat|constructor]. Qed.
