(** Proofs about steps from what is no node of the tree. *)
From Verif Require Import PyStr XTree Path PatternFacts XPath XPathSpec XPathFuel XPathFacts XItemSpec.

Section Items.
  Variable w : env.

  Lemma test_decides t c : value_item c \/ (exists a k v o, c = IAttr a k v o) -> exists l, test w t c = (l, Done) /\ only_if (passes_test t c) c l.
  Proof.
    intros H.
    assert (Y : passes_test t c -> exists l, ([c], Done) = (l, Done) /\ only_if (passes_test t c) c l) by (intros P; exists [c]; split; [reflexivity|split; [auto|tauto]]).
    assert (Z : ~ passes_test t c -> exists l, (@nil item, Done) = (l, Done) /\ only_if (passes_test t c) c l) by (intros P; exists []; split; [reflexivity|split; [tauto|auto]]).
    destruct t as [|n| |]; [apply Y; constructor| | |]; destruct H as [H|(a & k & v & o & ->)]; try destruct c; try destruct H; cbn;
      solve [apply Y; constructor|apply Z; intros K; inversion K].
  Qed.
  Lemma values_self n t v : value_item v -> exists l, only_if (passes_test t v) v l /\
    eval w n (ETest t) v = (l, Done) /\ eval w n (EStep AxSelf t) v = (l, Done) /\
    eval w n (EStep AxAncestorOrSelf t) v = (l, Exn AttributeErr) /\ eval w n (EStep AxDescendantOrSelf t) v = (l, Exn AttributeErr).
  Proof.
    intros V. destruct (test_decides t v (or_introl V)) as (l & E & O). exists l. split; [exact O|].
    rewrite eval_test, !eval_step. cbn [step]. rewrite E. split; [reflexivity|]. split; [reflexivity|].
    destruct v; destruct V; cbn; rewrite ?app_nil_r; auto.
  Qed.
  Lemma values_other n ax t v : value_item v -> ~ In ax [AxSelf; AxAncestorOrSelf; AxDescendantOrSelf; AxAttribute] ->
    eval w n (EStep ax t) v = ([], Exn AttributeErr).
  Proof.
    intros V N. rewrite eval_step. destruct ax; try (exfalso; apply N; cbn; tauto); destruct v; destruct V; reflexivity.
  Qed.
  Lemma values_rest n t v : value_item v -> eval w n (EStep AxAttribute t) v = ([], Done) /\ eval w n (EAbbrev false) v = ([v], Done) /\
    eval w n (EAbbrev true) v = ([], Exn AttributeErr) /\ forall d r, eval w n (EAbs d r) v = ([], Exn AssertionErr).
  Proof.
    intros V. rewrite eval_step, !eval_abbrev. destruct v; destruct V; (split; [reflexivity|]; split; [reflexivity|]; split; [reflexivity|]; intros d [r|]; [now rewrite eval_abs|destruct n; reflexivity]).
  Qed.

  (** ** Attributes *)
  Lemma attr_self n t a k v o : exists l, only_if (passes_test t (IAttr a k v o)) (IAttr a k v o) l /\
    eval w n (ETest t) (IAttr a k v o) = (l, Done) /\ eval w n (EStep AxSelf t) (IAttr a k v o) = (l, Done) /\
    eval w n (EStep AxDescendantOrSelf t) (IAttr a k v o) = (l, Exn AttributeErr).
  Proof.
    destruct (test_decides t (IAttr a k v o)) as (l & E & O); [right; eauto 6|]. exists l. split; [exact O|].
    rewrite eval_test, !eval_step. cbn [step]. rewrite E. split; [reflexivity|]. split; [reflexivity|]. cbn. now rewrite app_nil_r.
  Qed.
  Lemma attr_up n t a m ats ks k v o : subtree (doc w) a = Some (XE m ats ks) ->
    selects w (fun b x => b = a /\ passes t x) (eval w n (EStep AxParent t) (IAttr a k v o)) /\
    eval w n (EAbbrev true) (IAttr a k v o) = ([INode a], Done) /\
    exists l, listing (doc w) (fun b x => (b = a \/ above b a) /\ passes t x) l /\ eval w n (EStep AxAncestor t) (IAttr a k v o) = (rev (nodes l), Exn AssertionErr).
  Proof.
    intros H. rewrite !eval_step, eval_abbrev. cbn [step parent abbrev]. split; [|split; [reflexivity|]].
    - apply test_all_selects.
      + intros b [<-|[]]. congruence.
      + repeat constructor.
      + intros b. cbn. split; [intros [<-|[]]; split; [auto|congruence]|]. intros [-> _]. auto.
    - set (L := a :: ancestors_of a (length a)). destruct (ancestors_spec a (length a) (le_n _)) as [H1 H2].
      assert (A : forall b, In b (rev L) <-> (b = a \/ above b a) /\ subtree (doc w) b <> None).
      { intros b. rewrite <- in_rev. unfold L. cbn [In]. rewrite H1. split.
        - intros [<-|K]; [split; [now left|congruence]|]. split; [now right|]. destruct (above_subtree (doc w) b a K) as (x & y & z & E); congruence.
        - intros ([->|K] & _); auto. }
      destruct (test_all_back w t (IAttr a k v o) (rev L) (fun b => b = a \/ above b a)) as (l & HL & E).
      + intros b Hb. apply A in Hb as ([->|K] & _); [congruence|]. destruct (above_subtree (doc w) b a K) as (x & y & z & E); congruence.
      + unfold L. cbn [rev]. apply sorted_app; [exact H2|repeat constructor|]. intros x y Hx [<-|[]]. apply in_rev in Hx. apply H1 in Hx as (j & r & ->). apply doc_before_below.
      + exact A.
      + exists l. split; [exact HL|]. rewrite rev_involutive in E. rewrite E. cbn. now rewrite app_nil_r.
  Qed.
  Lemma no_such_kid a k v o l : find_index (same_node w (IAttr a k v o)) l = None.
  Proof. induction l as [|b l IH]; [reflexivity|]. cbn [find_index same_node]. now rewrite IH. Qed.
  Lemma attr_other n ax t a k v o :
    (In ax [AxChild; AxDescendant] -> eval w n (EStep ax t) (IAttr a k v o) = ([], Exn AttributeErr)) /\
    (In ax [AxFollowing; AxFollowingSibling; AxPreceding; AxPrecedingSibling] -> eval w n (EStep ax t) (IAttr a k v o) = ([], Exn ValueErr)) /\
    (ax = AxAttribute -> eval w n (EStep ax t) (IAttr a k v o) = ([], Done)) /\
    (ax = AxAncestorOrSelf -> snd (eval w n (EStep ax t) (IAttr a k v o)) = Cut) /\
    forall d r, eval w n (EAbs d r) (IAttr a k v o) = ([], Exn AssertionErr).
  Proof.
    rewrite eval_step. split; [|split; [|split; [|split]]].
    - intros [<-|[<-|[]]]; reflexivity.
    - intros I. cbn [In] in I. repeat destruct I as [<-|I]; try destruct I; cbn [step parent]; unfold sibling_index; rewrite no_such_kid; reflexivity.
    - intros ->. reflexivity.
    - intros ->. cbn [step parent]. destruct (test_decides t (IAttr a k v o)) as (l & E & _); [right; eauto 6|]. rewrite E. cbn [seq2]. destruct (test_all w t (IAttr a k v o) (repeat a n)) as (l1 & f1). reflexivity.
    - intros d [r|]; [now rewrite eval_abs|destruct n; reflexivity].
  Qed.

  (** ** Text nodes, and the root *)
  Lemma text_up n t a s : subtree (doc w) a = Some (XT s) -> 
    (exists l, listing (doc w) (fun b x => above b a /\ passes t x) l /\ eval w n (EStep AxAncestor t) (INode a) = (rev (nodes l), Exn AssertionErr)) /\
    forall d r, eval w n (EAbs d r) (INode a) = ([], Exn AssertionErr).
  Proof.
    intros H. assert (R : root_of w (INode a) = None).
    { unfold root_of. destruct (is_elem_at w a) eqn:K; [|reflexivity]. apply is_elem_iff in K as (u & E & x & y & z & ->). congruence. }
    split.
    - destruct (ancestors_tested w t (INode a) a) as (l & HL & E); [congruence|]. exists l. split; [exact HL|]. rewrite eval_step. cbn [step].
      unfold with_root. rewrite R. destruct (parent (INode a)) as [[p|]|] eqn:Ep; [rewrite E; cbn; now rewrite app_nil_r|rewrite E; cbn; now rewrite app_nil_r|]. destruct a; discriminate.
    - intros d [r|]; [rewrite eval_abs; unfold absolute, with_root; now rewrite R|]. destruct n; cbn; unfold absolute, with_root; now rewrite R.
  Qed.
  Lemma root_steps n ax t :
    (In ax [AxFollowing; AxFollowingSibling; AxPreceding; AxPrecedingSibling; AxAttribute] -> eval w n (EStep ax t) IRoot = ([], Done)) /\
    (In ax [AxParent; AxAncestor] -> eval w n (EStep ax t) IRoot = ([IRoot], Done)) /\ eval w n (EAbbrev true) IRoot = ([IRoot], Done).
  Proof.
    rewrite eval_step, eval_abbrev. split; [|split; [|reflexivity]]; intros I; cbn [In] in I; repeat destruct I as [<-|I]; try destruct I; reflexivity.
  Qed.
End Items.
