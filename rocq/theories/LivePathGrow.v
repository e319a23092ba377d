(** [//*] in a loop that appends an element to every result: it never ends. *)
From Verif Require Import PyStr Parser XTree Heap Builder HeapSpec HeapFacts RootCache XPath HeapNav.
From Verif Require Import LiveIter LiveIterSpec LiveIterFacts LiveIterLoops LiveIterText LivePath LivePathSpec LivePathFacts LivePathLoops LivePathEdits.

Section Grow.
  Variable c : hitem -> rcache.
  Notation qpulls := (qpulls c). Notation qloop := (qloop c).
  Notation s := (XChild, TStar).
  Lemma tested_star h x i : tested h x s (Some i) = if elem_of h i then [HNode i] else [].
  Proof. unfold tested, passes. cbn [fst snd is_name_test andb]. unfold elem_of, hcopy, htext. destruct (hp h i) as [[]|]; reflexivity. Qed.
  Lemma scan h w w1 rest l : forall i, to_come h w1 i = l ->
    (exists j k, elem_of h j = true /\ In j l /\ qpulls h (FStep w w s (CKids w1 i) [] :: rest) (QGives (HNode j) (FStep w w s (CKids w1 k) [] :: rest))) \/
    ((forall j, In j l -> elem_of h j = false) /\ forall r, qpulls h rest r -> qpulls h (FStep w w s (CKids w1 i) [] :: rest) r).
  Proof.
    induction l as [|y l IH]; intros i H.
    - right. split; [intros j []|]. intros r. apply qpulls_over. cbn [turn cnext]. rewrite (to_come_nil _ _ _ H). reflexivity.
    - destruct (to_come_cons _ _ _ _ _ H) as [E Ht]. destruct (elem_of h y) eqn:Ey.
      + left. exists y, (1 + i). split; [exact Ey|]. split; [left; reflexivity|].
        apply (qpulls_out c h (FStep w w s (CKids w1 i) []) [FStep w w s (CKids w1 (1 + i)) []] rest (HNode y)). cbn [turn cnext]. rewrite E, tested_star, Ey. reflexivity.
      + assert (Q : forall r, qpulls h (FStep w w s (CKids w1 (1 + i)) [] :: rest) r -> qpulls h (FStep w w s (CKids w1 i) [] :: rest) r).
        { intros r Hr. apply (qpulls_quiet c h _ [FStep w w s (CKids w1 (1 + i)) []] rest r); [|exact Hr]. cbn [turn cnext]. rewrite E, tested_star, Ey. reflexivity. }
        destruct (IH (1 + i) Ht) as [(j & k & Hj & Hin & P)|(N & P)].
        * left. exists j, k. split; [exact Hj|]. split; [right; exact Hin|]. apply Q. exact P.
        * right. split; [intros j [<-|Hj]; auto|]. intros r Hr. apply Q, P, Hr.
  Qed.
  Definition parental (h : heap) (i : ref) : Prop := elem_of h i = true /\ exists k, In k (kids_of h i) /\ elem_of h k = true.
  Lemma work_gives h r0 x i ys f : raws h x (CWork ys) f Done -> parental h i -> forall l, ys = l -> In i l ->
    exists j w w1 k l', qpulls h [FAll (HNode r0) x (CWork l) [s]] (QGives (HNode j) [FStep w w s (CKids w1 k) []; FAll (HNode r0) x (CWork l') [s]]) /\
      elem_of h j = true /\ (In i l' \/ In j l').
  Proof.
    intros R Hi. remember (CWork ys) as cur eqn:Ec. remember Done as d eqn:Ed. revert ys Ec Ed.
    induction R as [cur E|cur e E|cur y cur' zs f E R IH]; intros ys -> Ed l <- Hin; [|discriminate|].
    { destruct ys; [destruct Hin|discriminate]. }
    destruct ys as [|a ys]; [discriminate|]. cbn [cnext work_next] in E. injection E as <- <-.
    set (l1 := kids_of h a ++ ys) in *. set (rest := [FAll (HNode r0) x (CWork l1) [s]]).
    assert (Ew : exists w1, hcopy h (HNode r0) a = HNode w1 /\ (elem_of h a = true -> w1 = a)).
    { unfold hcopy, htext, elem_of. destruct (hp h a) as [[n0 a0 k0 p0|[|] p0]|]; eexists; (split; [reflexivity|]); intros; auto; discriminate. }
    destruct Ew as (w1 & Ew & Ea).
    assert (Q : forall r, qpulls h (FStep (HNode w1) (HNode w1) s (CKids w1 0) [] :: rest) r -> qpulls h [FAll (HNode r0) x (CWork (a :: ys)) [s]] r).
    { intros r Hr. apply (qpulls_quiet c h _ [FEval (HNode w1) (HNode w1) [s]; FAll (HNode r0) x (CWork l1) [s]] [] r); [cbn [turn cnext work_next]; rewrite Ew; reflexivity|].
      apply (qpulls_quiet c h _ [FStep (HNode w1) (HNode w1) s (CKids w1 0) []] rest r); [reflexivity|exact Hr]. }
    destruct (scan h (HNode w1) w1 rest (kids_of h w1) 0 eq_refl) as [(j & k & Hj & Hjk & P)|(N & P)].
    - exists j, (HNode w1), w1, k, l1. split; [apply Q; exact P|]. split; [exact Hj|]. destruct Hin as [->|Hin]; [|left; apply in_or_app; right; exact Hin].
      right. apply in_or_app. left. rewrite (Ea (proj1 Hi)) in Hjk. exact Hjk.
    - destruct Hin as [->|Hin].
      { exfalso. destruct Hi as (He & k & Hk & Hke). rewrite <- (Ea He) in Hk. rewrite (N k Hk) in Hke. discriminate. }
      destruct (IH l1 eq_refl Ed l1 eq_refl) as (j & w & w2 & k & l' & P' & Hj & Hl); [apply in_or_app; right; exact Hin|].
      exists j, w, w2, k, l'. split; [apply Q, P, P'|auto].
  Qed.
  (** The nodes that are to be processed *)
  Definition to_do (h : heap) (x : hitem) (cur : cursor) (l : list ref) : Prop := cur = CWork l \/ (cur = CLate /\ hkids h x = Some l).
  Lemma late_pull h b x l r : hkids h x = Some l -> qpulls h [FAll b x (CWork l) [s]] r -> qpulls h [FAll b x CLate [s]] r.
  Proof.
    intros K [n P]. exists n. destruct n as [|n]; [discriminate|]. cbn [qpull turn cnext] in *. rewrite K. exact P.
  Qed.
  Definition busy (h : heap) (st : list pframe) : Prop :=
    well_linked h /\ exists w cur r0 q cur2 l i, st = [FStep w w s cur []; FAll (HNode r0) (HRoot q) cur2 [s]] /\ (cur = CList [] \/ exists w1 k, cur = CKids w1 k) /\
      to_do h (HRoot q) cur2 l /\ In i l /\ parental h i.
  Lemma grow_kids n h j h' : well_linked h -> elem_of h j = true -> grow n h j h' -> well_linked h' /\ parental h' j /\ forall i, parental h i -> parental h' i.
  Proof.
    intros W Hj G. destruct (grow_step n h j W Hj) as (h2 & G2 & W2 & Hin & He). rewrite (grow_det _ _ _ _ _ G G2). assert (Al : allocated h) by (intros x o; apply (proj1 W)).
    assert (Ed : edits_in (fun x => x = j) h h2). { eapply ei_new. eapply (ei_cons _ j); [reflexivity|left; eexists _, _; exact G2|apply ei_nil]. }
    destruct (edits_in_keep _ _ _ Ed Al) as (_ & Lk & K).
    assert (El : forall x, elem_of h x = true -> elem_of h2 x = true).
    { intros x. unfold elem_of. destruct (hp h x) as [o|] eqn:E; [|discriminate]. destruct (Lk _ _ E) as (o' & -> & S). destruct o, o'; cbn in S; try contradiction; auto. }
    assert (Pj : parental h2 j) by (split; [auto|exists (nxt h); auto]).
    split; [exact W2|]. split; [exact Pj|]. intros i (Hi & k & Hk & Hke). destruct (Nat.eq_dec i j) as [->|Hn]; [exact Pj|]. split; [auto|]. exists k. rewrite (K i Hn). auto.
  Qed.
  Lemma busy_next h st : busy h st -> exists j st1, qpulls h st (QGives (HNode j) st1) /\ elem_of h j = true /\ forall n h1, grow n h j h1 -> busy h1 st1.
  Proof.
    intros (W & w & cur & r0 & q & cur2 & l & i & -> & Hc & Td & Hin & Hi).
    set (rest := [FAll (HNode r0) (HRoot q) cur2 [s]]).
    assert (A : (exists j k w1, elem_of h j = true /\ qpulls h (FStep w w s cur [] :: rest) (QGives (HNode j) (FStep w w s (CKids w1 k) [] :: rest))) \/
      forall r, qpulls h rest r -> qpulls h (FStep w w s cur [] :: rest) r).
    { destruct Hc as [->|(w1 & k & ->)]; [right; intros r; apply qpulls_over; reflexivity|].
      destruct (scan h w w1 rest (to_come h w1 k) k eq_refl) as [(j & k' & Hj & _ & P)|(_ & P)]; [left; exists j, k', w1; auto|right; exact P]. }
    destruct A as [(j & k & w1 & Hj & P)|A].
    - exists j, (FStep w w s (CKids w1 k) [] :: rest). split; [exact P|]. split; [exact Hj|]. intros n h1 G. destruct (grow_kids n h j h1 W Hj G) as (W1 & _ & Pi).
      split; [exact W1|]. exists w, (CKids w1 k), r0, q, cur2, l, i. split; [reflexivity|]. split; [eauto|]. split; [|auto]. destruct Td as [->|[-> K]]; [left; reflexivity|right; split; [reflexivity|exact K]].
    - assert (B : exists ys, raws h (HRoot q) (CWork l) ys Done) by (apply work_total; exact W). destruct B as (ys & R).
      destruct (work_gives h r0 (HRoot q) i l ys R Hi l eq_refl Hin) as (j & w' & w1 & k & l' & P & Hj & Hl).
      exists j, [FStep w' w' s (CKids w1 k) []; FAll (HNode r0) (HRoot q) (CWork l') [s]]. split; [|split; [exact Hj|]].
      + apply A. destruct Td as [->|[-> K]]; [exact P|eapply late_pull; eauto].
      + intros n h1 G. destruct (grow_kids n h j h1 W Hj G) as (W1 & Pj & Pi). split; [exact W1|].
        destruct Hl as [Hl|Hl]; [exists w', (CKids w1 k), r0, q, (CWork l'), l', i|exists w', (CKids w1 k), r0, q, (CWork l'), l', j]; (split; [reflexivity|]; split; [eauto|]; split; [left; reflexivity|auto]).
  Qed.
  Lemma busy_run n k : forall h st, busy h st -> exists out h' st', length out = k /\ qloop (grow_at n) h st out h' st'.
  Proof.
    induction k as [|k IH]; intros h st B; [exists [], h, st; split; [reflexivity|apply ql_start]|].
    destruct (busy_next h st B) as (j & st1 & P & Hj & N). destruct (grow_step n h j (proj1 B) Hj) as (h1 & G & _). destruct (IH h1 st1 (N n h1 G)) as (out & h' & st' & Hl & L).
    exists (HNode j :: out), h', st'. split; [cbn; congruence|]. eapply ql_turn; [exact P|exists j; split; [reflexivity|exact G]|exact L].
  Qed.
  Lemma busy_loop n h st out h' st' : qloop (grow_at n) h st out h' st' -> busy h st -> busy h' st'.
  Proof.
    induction 1 as [h st|h st y st1 h1 out h2 st2 P B L IH]; intros Hb; [exact Hb|]. apply IH. destruct (busy_next h st Hb) as (j & st3 & P' & Hj & N).
    pose proof (qpulls_det _ _ _ _ _ P P') as E. injection E as -> ->. destruct B as (j' & Ej & G). injection Ej as <-. eapply N; eauto.
  Qed.
  Lemma first_busy h r0 q qs f : well_linked h -> hroot h (c (HNode r0)) (HNode r0) = (HRoot q :: qs, f) -> elem_of h (docelem q) = true ->
    exists st1, qpulls h (query_abs true (HNode r0) [s]) (QGives (HNode (docelem q)) st1) /\ forall n h1, grow n h (docelem q) h1 -> busy h1 st1.
  Proof.
    intros W Hq He. exists [FStep (HRoot q) (HRoot q) s (CList []) []; FAll (HNode r0) (HRoot q) CLate [s]]. split.
    - exists 4. cbn [qpull query_abs turn]. rewrite Hq. cbn [just_step_node app turn cnext fst cstart]. rewrite tested_star, He. reflexivity.
    - intros n h1 G. destruct (grow_kids n h _ h1 W He G) as (W1 & Pj & _). split; [exact W1|]. exists (HRoot q), (CList []), r0, q, CLate, [docelem q], (docelem q).
      split; [reflexivity|]. split; [left; reflexivity|]. split; [right; split; reflexivity|]. split; [left; reflexivity|exact Pj].
  Qed.
  Lemma abs_never n h r0 q qs f : well_linked h -> hroot h (c (HNode r0)) (HNode r0) = (HRoot q :: qs, f) -> elem_of h (docelem q) = true ->
    (forall k, exists out h' st', length out = k /\ qloop (grow_at n) h (query_abs true (HNode r0) [s]) out h' st') /\
    forall out h' st', qloop (grow_at n) h (query_abs true (HNode r0) [s]) out h' st' -> ~ qpulls h' st' QEnds.
  Proof.
    intros W Hq He. destruct (first_busy h r0 q qs f W Hq He) as (st1 & P & N). destruct (grow_step n h _ W He) as (h1 & G & _). split.
    - intros [|k]; [exists [], h, (query_abs true (HNode r0) [s]); split; [reflexivity|apply ql_start]|]. destruct (busy_run n k h1 st1 (N n h1 G)) as (out & h' & st' & Hl & L).
      exists (HNode (docelem q) :: out), h', st'. split; [cbn; congruence|]. eapply ql_turn; [exact P|exists (docelem q); split; [reflexivity|exact G]|exact L].
    - intros out h' st' L E. inversion L as [|? ? y st2 h2 out1 h3 st3 P' B L']; subst; [pose proof (qpulls_det _ _ _ _ _ P E); discriminate|].
      pose proof (qpulls_det _ _ _ _ _ P P') as Q. injection Q as <- <-. destruct B as (j' & Ej & G'). injection Ej as <-.
      destruct (busy_next _ _ (busy_loop _ _ _ _ _ _ L' (N n _ G'))) as (j & st4 & P4 & _). pose proof (qpulls_det _ _ _ _ _ E P4). discriminate.
  Qed.
End Grow.
