(** Suspended location paths: totality, and loops that edit. *)
From Verif Require Import PyStr Parser XTree Heap Builder HeapSpec HeapFacts RootCache XPath HeapNav LiveIter LiveIterSpec LiveIterFacts LiveIterText LivePath LivePathSpec LivePathFacts.

(** ** Document order *)
Lemma work_order h x : (forall p i t ids, holds h p i t ids -> forall l ys f, raws h x (CWork l) ys f -> raws h x (CWork (i :: l)) (map Some ids ++ ys) f) /\
  (forall p is ts ids, holds_all h p is ts ids -> forall l ys f, raws h x (CWork l) ys f -> raws h x (CWork (is ++ l)) (map Some ids ++ ys) f).
Proof.
  apply holds_both.
  - intros p i n a ks cs ids Hi _ IH l ys f R. cbn [map app]. eapply ra_item; [reflexivity|]. unfold kids_of. rewrite Hi. cbn [okids]. apply IH. exact R.
  - intros p i s Hi l ys f R. cbn [map app]. eapply ra_item; [reflexivity|]. unfold kids_of. rewrite Hi. exact R.
  - intros p l ys f R. exact R.
  - intros p i is t ts ids ids' _ IH1 _ IH2 l ys f R. rewrite map_app, <- app_assoc. cbn [app]. apply IH1. apply IH2. exact R.
Qed.
Lemma work_total h x : well_linked h -> forall l, exists ys, raws h x (CWork l) ys Done.
Proof.
  intros W. induction l as [|i l (ys & R)]; [exists []; apply ra_end; reflexivity|]. destruct (hp h i) as [o|] eqn:E.
  - destruct W as (_ & _ & _ & T). destruct (T i o E) as (p & t & ids & H). eexists. eapply (proj1 (work_order h x)); eauto.
  - eexists. eapply ra_item; [reflexivity|]. unfold kids_of. rewrite E. exact R.
Qed.
Lemma raws_total h x cur : well_linked h -> exists ys f, raws h x cur ys f.
Proof.
  intros W. destruct cur as [r i|l|l| | | |e].
  - eexists _, _. apply raws_kids. reflexivity.
  - eexists _, _. apply raws_list.
  - destruct (work_total h x W l) as (ys & R). eauto.
  - eexists _, _. eapply ra_item; [reflexivity|apply (raws_list h x [])].
  - destruct (hkids h x) as [l|] eqn:K.
    + destruct (work_total h x W l) as (ys & R). eexists _, _. eapply ra_item; [reflexivity|]. eapply raws_late; eauto.
    + eexists _, _. eapply ra_item; [reflexivity|]. apply ra_bad. cbn [cnext]. rewrite K. reflexivity.
  - destruct (hkids h x) as [l|] eqn:K.
    + destruct (work_total h x W l) as (ys & R). eexists _, _. eapply raws_late; eauto.
    + eexists _, _. apply ra_bad. cbn [cnext]. rewrite K. reflexivity.
  - eexists _, _. apply ra_bad. reflexivity.
Qed.

Section Loops.
  Variable c : hitem -> rcache.
  Notation qpulls := (qpulls c). Notation comes := (comes c). Notation qloop := (qloop c). Notation flows := (flows c).

  (** ** Totality *)
  Lemma flows_then h st1 l1 f1 : flows h st1 l1 f1 -> forall st2 l2 f2, flows h st2 l2 f2 -> exists l f, flows h (st1 ++ st2) l f.
  Proof.
    intros F st2 l2 f2 F2. destruct f1 as [|e|] eqn:E.
    - eexists _, _. eapply flows_app; eauto.
    - eexists _, _. eapply flows_app_fail; eauto.
    - apply flows_not_cut in F. congruence.
  Qed.
  Lemma step_total h b x s p : (forall z, exists l f, flows h (onward h b p z) l f) -> forall cur ys f0, raws h x cur ys f0 -> exists l f, flows h [FStep b x s cur p] l f.
  Proof.
    intros K cur ys f0 R. induction R as [cur E|cur e E|cur y cur' ys f0 E R (l & f & IH)].
    - eexists _, _. apply fl_over; [cbn [turn]; rewrite E; reflexivity|constructor].
    - eexists _, _. apply fl_raise. cbn [turn]. rewrite E. reflexivity.
    - destruct (tested h x s y) as [|z zs] eqn:T.
      + eexists _, _. eapply fl_quiet; [cbn [turn]; rewrite E, T; reflexivity|]. exact IH.
      + destruct p as [|s1 p1].
        * eexists _, _. eapply fl_out; [cbn [turn]; rewrite E, T; reflexivity|]. exact IH.
        * destruct (K z) as (l1 & f1 & F1). destruct (flows_then _ _ _ _ F1 _ _ _ IH) as (l2 & f2 & F2). eexists _, _. eapply fl_quiet; [cbn [turn]; rewrite E, T; reflexivity|]. exact F2.
  Qed.
  Lemma eval_total h p : well_linked h -> forall b x, exists l f, flows h [FEval b x p] l f.
  Proof.
    intros W. induction p as [|s p IH]; intros b x.
    - eexists _, _. eapply fl_out; [reflexivity|constructor].
    - destruct (raws_total h x (cstart h (fst s) x) W) as (ys & f0 & R).
      destruct (step_total h b x s p) with (cur := cstart h (fst s) x) (ys := ys) (f0 := f0) as (l & f & F); [|exact R|].
      + intros z. destruct p; cbn [onward]; [eexists _, _; eapply fl_out; [reflexivity|constructor]|apply IH].
      + eexists _, _. eapply fl_quiet; [reflexivity|exact F].
  Qed.
  Lemma onward_total h b p z : well_linked h -> exists l f, flows h (onward h b p z) l f.
  Proof. intros W. destruct p; cbn [onward]; [eexists _, _; eapply fl_out; [reflexivity|constructor]|apply eval_total; exact W]. Qed.
  Lemma all_total h b x p : well_linked h -> forall cur ys f0, raws h x cur ys f0 -> exists l f, flows h [FAll b x cur p] l f.
  Proof.
    intros W cur ys f0 R. induction R as [cur E|cur e E|cur y cur' ys f0 E R (l & f & IH)].
    - eexists _, _. apply fl_over; [cbn [turn]; rewrite E; reflexivity|constructor].
    - eexists _, _. apply fl_raise. cbn [turn]. rewrite E. reflexivity.
    - set (w := match y with Some i => hcopy h b i | None => x end). destruct (eval_total h p W w w) as (l1 & f1 & F1). destruct (flows_then _ _ _ _ F1 _ _ _ IH) as (l2 & f2 & F2).
      eexists _, _. eapply fl_quiet; [cbn [turn]; rewrite E; reflexivity|]. exact F2.
  Qed.
  Lemma stack_total h st : (forall f, In f st -> exists l e, flows h [f] l e) -> exists l e, flows h st l e.
  Proof.
    induction st as [|f st IH]; intros H; [eexists _, _; constructor|]. destruct (H f (or_introl eq_refl)) as (l & e & F). destruct IH as (l2 & e2 & F2); [intros g Hg; apply H; right; exact Hg|].
    exact (flows_then _ _ _ _ F _ _ _ F2).
  Qed.
  Lemma frame_total h f : well_linked h -> exists l e, flows h [f] l e.
  Proof.
    intros W. destruct f as [b x p|b x s cur p|b x cur p|d x p|y].
    - apply eval_total; exact W.
    - destruct (raws_total h x cur W) as (ys & f0 & R). eapply step_total; [|exact R]. intros z. apply onward_total. exact W.
    - destruct (raws_total h x cur W) as (ys & f0 & R). eapply all_total; eauto.
    - destruct (hroot h (c x) x) as [[|q qs] f] eqn:E.
      + destruct f as [|e|]; [eexists _, _; apply fl_over; [cbn [turn]; rewrite E; reflexivity|constructor]|eexists _, _; apply fl_raise; cbn [turn]; rewrite E; reflexivity|
          eexists _, _; apply fl_over; [cbn [turn]; rewrite E; reflexivity|constructor]].
      + destruct (raws_total h q CSelfWork W) as (ys & f0 & R). destruct (all_total h x q p W _ _ _ R) as (l1 & e1 & F1). destruct (eval_total h p W q q) as (l2 & e2 & F2).
        destruct (stack_total h ((if just_step_node p then [FOnce q] else []) ++ (if d then [FAll x q CSelfWork p] else [FEval q q p]))) as (l & e & F).
        { intros g Hg. apply in_app_or in Hg. destruct Hg as [Hg|Hg].
          - destruct (just_step_node p); [|destruct Hg]. destruct Hg as [<-|[]]. eexists _, _. eapply fl_out; [reflexivity|constructor].
          - destruct d; destruct Hg as [<-|[]]; eauto. }
        eexists _, _. eapply fl_quiet; [cbn [turn]; rewrite E; reflexivity|]. rewrite app_nil_r. exact F.
    - eexists _, _. eapply fl_out; [reflexivity|constructor].
  Qed.
  Lemma comes_total h st : well_linked h -> exists l e, comes h st l e.
  Proof. intros W. destruct (stack_total h st (fun f _ => frame_total h f W)) as (l & e & F). exists l, e. apply flows_comes. exact F. Qed.
  Lemma comes_next h st l f : comes h st l f ->
    match l with
    | y :: l' => exists st', qpulls h st (QGives y st') /\ comes h st' l' f
    | [] => match f with Done => qpulls h st QEnds | Exn e => qpulls h st (QFails e) | Cut => False end
    end.
  Proof. intros H. inversion H; subst; eauto. Qed.
End Loops.
