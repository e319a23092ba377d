(** Patterns with functions: what the state machines accept, and the elements found by them. *)
From Verif Require Import PyStr Parser ParserM XTree ParserInv Heap Builder HeapSpec Path Nodes Pattern PatternSpec PatternFacts TreeIter PatternFun PatternFunSpec.

Definition fprep (p : list fstage) : fst_ := fprep_from SMatched p.
Definition is_start (e : event) : Prop := exists n a anc, e = EvStart n a anc.

Lemma fprep_matched p : fprep p = SMatched -> p = [].
Proof. destruct p as [|[]]; cbn; congruence. Qed.
Lemma any_test_ok l e : is_start e -> (forall f, In (ByFun f) l -> f e <> None) ->
  exists b, any_test l e = Some b /\ (b = true <-> exists x, In x l /\ alt_ok x e).
Proof.
  intros (n & a & anc & ->). induction l as [|x l IH]; intros Hs; cbn [any_test].
  - exists false. split; auto. split; [discriminate|]. intros (y & [] & _).
  - destruct IH as (b & Hb & Ib); [intros f Hf; apply Hs; right; auto|].
    assert (Hx : exists c, call_test x (EvStart n a anc) = Some c /\ (c = true <-> alt_ok x (EvStart n a anc))).
    { destruct x as [m|f]; cbn [call_test alt_ok].
      - eexists. split; [reflexivity|]. rewrite str_eqb_eq. split; [intros ->; repeat eexists|intros (? & ? & E); injection E as -> _ _; reflexivity].
      - destruct (f (EvStart n a anc)) as [c|] eqn:E; [|destruct (Hs f (or_introl eq_refl) E)]. exists c. split; auto. split; [intros ->; auto|congruence]. }
    destruct Hx as (c & -> & Ic). destruct c.
    + exists true. split; auto. split; auto. intros _. exists x. split; [left; auto|]. apply Ic; auto.
    + exists b. split; auto. rewrite Ib. split; intros (y & Hy & Oy); [exists y; split; [right|]; auto|].
      destruct Hy as [->|Hy]; [apply Ic in Oy; discriminate|]. exists y; auto.
Qed.
Lemma any_test_sound l e : any_test l e = Some true -> is_start e -> exists x, In x l /\ alt_ok x e.
Proof.
  intros H (n & a & anc & ->). induction l as [|x l IH]; cbn [any_test] in H; [discriminate|].
  destruct (call_test x (EvStart n a anc)) as [[]|] eqn:E; [|destruct (IH H) as (y & Hy & Oy); exists y; split; [right|]; auto|discriminate].
  exists x. split; [left; auto|]. destruct x as [m|f]; cbn in *; auto. injection E as E. apply str_eqb_eq in E as ->. repeat eexists.
Qed.

Lemma safe_cons st p : safe (st :: p) -> safe p.
Proof. intros H l f e Hl. apply H. right; auto. Qed.
Lemma no_fdeep_cons st p : no_fdeep (st :: p) -> st <> FDeep /\ no_fdeep p.
Proof. intros H. split; [intros ->; apply H; left; auto|intros K; apply H; right; auto]. Qed.

(** One stage that is not '**' *)
Lemma stage_step st next e : st <> FDeep -> is_start e -> (forall l f, st = FAlt l -> In (ByFun f) l -> f e <> None) ->
  (fstage_ok st e /\ fstep (fprep_stage st next) e = FState next) \/ (~ fstage_ok st e /\ fstep (fprep_stage st next) e = FNone).
Proof.
  intros Hd Hs Hf. pose proof Hs as (n & a & anc & ->). destruct st as [m| | |l]; cbn [fprep_stage fstep start_name fstage_ok]; [|auto|congruence|].
  - destruct (str_eqb n m) eqn:E; [apply str_eqb_eq in E as ->; left; split; auto; repeat eexists|].
    right. split; auto. intros (? & ? & K). injection K as -> _ _. rewrite str_eqb_refl in E. discriminate.
  - destruct (any_test_ok l (EvStart n a anc) Hs (fun f => Hf l f eq_refl)) as (b & -> & Ib). destruct b; [left|right]; split; auto; rewrite <- Ib; congruence.
Qed.

Lemma fstep_sound q : forall e s, is_start e -> fstep (fprep q) e = FState s ->
  exists q', s = fprep q' /\ forall x, fmatches q' x -> fmatches q (e :: x).
Proof.
  induction q as [|st q IH]; intros e s Hs H; [discriminate|]. change (fprep (st :: q)) with (fprep_stage st (fprep q)) in H. pose proof Hs as (n & a & anc & ->).
  destruct st as [m| | |l]; cbn [fprep_stage fstep start_name] in H.
  - destruct (str_eqb n m) eqn:E; [|discriminate]. apply str_eqb_eq in E as ->. injection H as <-. exists q. split; auto. intros x Hx. constructor; auto. repeat eexists.
  - injection H as <-. exists q. split; auto. intros x Hx. constructor; cbn; auto.
  - destruct (fstep (fprep q) (EvStart n a anc)) as [x| |s'] eqn:E; [discriminate| |].
    + injection H as <-. exists (FDeep :: q). split; auto. intros x Hx. inversion Hx as [|st p e es O M|p l es M]; subst.
      * destruct O.
      * apply (fm_deep q (EvStart n a anc :: l) es M).
    + injection H as <-. destruct (IH _ _ Hs E) as (q' & -> & Hq). exists q'. split; auto. intros x Hx. apply (fm_deep q [] _). auto.
  - destruct (any_test l (EvStart n a anc)) as [[]|] eqn:E; try discriminate. injection H as <-. exists q. split; auto. intros x Hx. constructor; auto.
    apply any_test_sound; auto.
Qed.
Lemma fmatch_sound q es : Forall is_start es -> fmatch (fprep q) es = inl true -> exists x y, es = x ++ y /\ fmatches q x.
Proof.
  intros F. revert q. induction F as [|e es He F IH]; intros q H; cbn [fmatch] in H; [discriminate|].
  destruct (fstep (fprep q) e) as [x| |s] eqn:E; try discriminate. destruct (fstep_sound q e s He E) as (q' & -> & Hq).
  destruct (fprep q') eqn:Eq.
  - apply fprep_matched in Eq as ->. exists [e], es. split; auto. apply Hq. constructor.
  - rewrite <- Eq in *. destruct (IH q' H) as (x & y & -> & M). exists (e :: x), y. auto.
  - rewrite <- Eq in *. destruct (IH q' H) as (x & y & -> & M). exists (e :: x), y. auto.
  - rewrite <- Eq in *. destruct (IH q' H) as (x & y & -> & M). exists (e :: x), y. auto.
  - rewrite <- Eq in *. destruct (IH q' H) as (x & y & -> & M). exists (e :: x), y. auto.
Qed.
(** The beginnings that are matched. *)
Definition begins (q : list fstage) (es : list event) : Prop := exists x y, es = x ++ y /\ fmatches q x.
Lemma begins_cons st q e es : st <> FDeep -> begins (st :: q) (e :: es) <-> fstage_ok st e /\ begins q es.
Proof.
  intros Hd. split.
  - intros (x & y & E & M). inversion M as [|st0 p e0 es0 O M'|]; subst; [|congruence]. injection E as -> ->. split; auto. exists es0, y; auto.
  - intros (O & x & y & -> & M). exists (e :: x), y. split; auto. constructor; auto.
Qed.
Lemma begins_nil st q : st <> FDeep -> ~ begins (st :: q) [].
Proof. intros Hd (x & y & E & M). destruct x; [|discriminate]. inversion M; subst; congruence. Qed.

Lemma fmatch_cons st q e es : st <> FDeep -> is_start e -> safe (st :: q) ->
  fmatch (fprep (st :: q)) (e :: es) = inl true /\ q = [] /\ fstage_ok st e \/
  fmatch (fprep (st :: q)) (e :: es) = fmatch (fprep q) es /\ q <> [] /\ fstage_ok st e \/
  fmatch (fprep (st :: q)) (e :: es) = inl false /\ ~ fstage_ok st e.
Proof.
  intros Hd He Hs. destruct (stage_step st (fprep q) e Hd He) as [[O E]|[O E]].
  - intros l f -> Hf. apply (Hs l f e); auto. left; auto.
  - change (fprep_stage st (fprep q)) with (fprep (st :: q)) in E. cbn [fmatch]. rewrite E. destruct q as [|st' q]; [left; auto|]. right; left.
    destruct (fprep (st' :: q)) eqn:Eq; [apply fprep_matched in Eq; discriminate| | | |]; (split; [reflexivity|split; [discriminate|auto]]).
  - change (fprep_stage st (fprep q)) with (fprep (st :: q)) in E. cbn [fmatch]. rewrite E. auto.
Qed.
Lemma fmatch_exact q : q <> [] -> no_fdeep q -> safe q -> forall es, Forall is_start es ->
  exists b, fmatch (fprep q) es = inl b /\ (b = true <-> begins q es).
Proof.
  induction q as [|st q IH]; intros Hq Hd Hs es F; [congruence|]. apply no_fdeep_cons in Hd as [Hst Hd].
  destruct es as [|e es]; [exists false; split; auto; split; [discriminate|intros H; destruct (begins_nil _ _ Hst H)]|].
  inversion F as [|e0 es0 He F']; subst. pose proof (begins_cons st q e es Hst) as Bc. destruct (fmatch_cons st q e es Hst He Hs) as [(-> & -> & O)|[(-> & Hn & O)|(-> & O)]].
  - exists true. split; auto. split; auto. intros _. apply Bc. split; auto. exists [], es. split; auto. constructor.
  - destruct (IH Hn Hd (safe_cons _ _ Hs) es F') as (b & -> & Ib). exists b. split; auto. rewrite Ib, Bc. tauto.
  - exists false. split; auto. split; [discriminate|]. rewrite Bc. tauto.
Qed.
(** '**' before the last component. *)
Lemma begins_deep st es : st <> FDeep -> begins [FDeep; st] es <-> exists e, In e es /\ fstage_ok st e.
Proof.
  intros Hd. split.
  - intros (x & y & -> & M). inversion M as [|st0 p e0 es0 O M'|p l es0 M']; subst; [destruct O|]. inversion M' as [|st0 p e0 es1 O M2|]; subst; [|congruence].
    exists e0. split; auto. apply in_or_app. left. apply in_or_app. right. left. auto.
  - intros (e & Hi & O). apply in_split in Hi as (l1 & l2 & ->). exists (l1 ++ [e]), l2. split; [rewrite <- app_assoc; auto|].
    apply fm_deep. constructor; auto. constructor.
Qed.
Lemma fmatch_deep st : st <> FDeep -> safe [st] -> forall es, Forall is_start es ->
  exists b, fmatch (fprep [FDeep; st]) es = inl b /\ (b = true <-> begins [FDeep; st] es).
Proof.
  intros Hd Hs es F. induction F as [|e es He F (b & Eb & Ib)].
  - exists false. split; auto. split; [discriminate|]. rewrite begins_deep by auto. intros (e & [] & _).
  - assert (K : begins [FDeep; st] (e :: es) <-> fstage_ok st e \/ begins [FDeep; st] es).
    { rewrite !begins_deep by auto. cbn. split; [intros (x & [->|Hx] & O); eauto|intros [O|(x & Hx & O)]; eauto]. }
    pose proof He as (n & a & anc & ->). destruct (stage_step st SMatched _ Hd He) as [[O E]|[O E]].
    + intros l f -> Hf. apply (Hs l f _); auto. left; auto.
    + exists true. split; [|rewrite K; tauto]. cbn [fprep fprep_from fold_right fmatch]. cbn [fprep_stage fstep start_name]. fold (fprep_stage st SMatched). rewrite E. reflexivity.
    + exists b. split; [|rewrite K; tauto]. cbn [fprep fprep_from fold_right fmatch]. cbn [fprep_stage fstep start_name]. fold (fprep_stage st SMatched). rewrite E.
      exact Eb.
Qed.
Lemma fmatch_deep_last st pre : st <> FDeep -> no_fdeep pre -> safe (pre ++ [FDeep; st]) -> forall es, Forall is_start es ->
  exists b, fmatch (fprep (pre ++ [FDeep; st])) es = inl b /\ (b = true <-> begins (pre ++ [FDeep; st]) es).
Proof.
  intros Hst. induction pre as [|s0 pre IH]; intros Hd Hs es F; [apply fmatch_deep; auto; exact (safe_cons _ _ Hs)|].
  cbn [app] in *. apply no_fdeep_cons in Hd as [H0 Hd].
  destruct es as [|e es]; [exists false; split; auto; split; [discriminate|intros H; destruct (begins_nil _ _ H0 H)]|].
  inversion F as [|e0 es0 He F']; subst. pose proof (begins_cons s0 (pre ++ [FDeep; st]) e es H0) as Bc. destruct (fmatch_cons s0 (pre ++ [FDeep; st]) e es H0 He Hs) as [(_ & K & _)|[(-> & Hn & O)|(-> & O)]].
  - destruct pre; discriminate.
  - destruct (IH Hd (safe_cons _ _ Hs) es F') as (b & -> & Ib). exists b. split; auto. rewrite Ib, Bc. tauto.
  - exists false. split; auto. split; [discriminate|]. rewrite Bc. tauto.
Qed.

(** ** The outermost nodes that satisfy a condition on the start events along the path *)
Definition names_of (path : list event) : list str := flat_map (fun e => match e with EvStart n _ _ => [n] | _ => [] end) path.
Fixpoint ffound (D : list event -> bool) (path : list event) (anc : list str) (t : xtree) : list (list nat * xtree) :=
  match t with
  | XE n a ks => if D (path ++ [EvStart n a anc]) then [([], t)] else over (ffound D (path ++ [EvStart n a anc]) (anc ++ [n])) 0 ks
  | XT _ => []
  end.
Lemma ffound_sorted D t : forall path anc, StronglySorted doc_before (map fst (ffound D path anc t)).
Proof.
  induction t as [n a ks IH|s] using xtree_ind'; intros path anc; cbn [ffound]; [|constructor].
  destruct (D _); [repeat constructor|]. apply over_sorted. rewrite Forall_forall in IH. intros k Hk. apply IH; auto.
Qed.
Lemma ffound_in D t : forall path anc b u, In (b, u) (ffound D path anc t) <->
  subtree t b = Some u /\ is_element u /\ D (path ++ starts anc t b) = true /\ forall c, above c b -> D (path ++ starts anc t c) = false.
Proof.
  induction t as [n a ks IH|s] using xtree_ind'; intros path anc b u; cbn [ffound].
  - destruct (D (path ++ [EvStart n a anc])) eqn:E.
    + split.
      * intros [H|[]]. inversion H; subst. split; [reflexivity|]. split; [repeat eexists|]. cbn [starts]. split; [exact E|].
        intros c (i & r & Hc). destruct c; discriminate.
      * intros (H1 & H2 & H3 & H4). destruct b as [|i b].
        -- cbn in H1. inversion H1; subst. left; auto.
        -- assert (Hx : above [] (i :: b)) by (exists i, b; reflexivity). apply H4 in Hx. cbn [starts] in Hx. congruence.
    + rewrite over_in. split.
      * intros (j & k & c & H1 & -> & H2). assert (Hk : In k ks) by (eapply nth_error_In; eauto).
        rewrite Forall_forall in IH. apply IH in H2 as (G1 & G2 & G3 & G4); auto. cbn [Nat.add].
        split; [cbn [subtree]; rewrite H1; exact G1|]. split; [exact G2|]. split.
        -- cbn [starts]. rewrite H1. rewrite <- app_assoc in G3. exact G3.
        -- intros c' (i & r & Hc). destruct c' as [|i' c']; cbn [starts]; [exact E|]. cbn in Hc. inversion Hc; subst.
           rewrite H1. specialize (G4 c'). rewrite <- app_assoc in G4. apply G4. exists i, r. reflexivity.
      * intros (H1 & H2 & H3 & H4). destruct b as [|i b].
        -- cbn [starts] in H3. congruence.
        -- cbn [subtree starts] in H1, H3. destruct (nth_error ks i) as [k|] eqn:Ek; [|discriminate].
           exists i, k, b. split; [auto|]. split; [reflexivity|]. assert (Hk : In k ks) by (eapply nth_error_In; eauto).
           rewrite Forall_forall in IH. apply IH; auto. split; [auto|]. split; [auto|]. rewrite <- app_assoc. split; [exact H3|].
           intros c (j & r & ->). specialize (H4 (i :: c)). cbn [starts] in H4. rewrite Ek in H4. rewrite <- app_assoc. apply H4. exists j, r. reflexivity.
  - split; [intros []|]. intros (H1 & (n & a & ks & ->) & _). destruct b; discriminate.
Qed.
Lemma ffound_listing D t : listing t (outermost_by (fun path => D path = true) t) (ffound D [] [] t).
Proof.
  split; [apply ffound_sorted|]. intros a u. rewrite ffound_in. unfold outermost_by. cbn [app]. split.
  - intros (H1 & H2 & H3 & H4). split; auto. split; auto. split; auto. intros b Hb. rewrite (H4 b Hb). discriminate.
  - intros (H1 & H2 & H3 & H4). split; auto. split; auto. split; auto. intros b Hb. specialize (H4 b Hb). destruct (D (starts [] t b)); congruence.
Qed.
Lemma outermost_ext (P Q : list event -> Prop) t a u : (forall path, Forall is_start path -> P path <-> Q path) ->
  outermost_by P t a u -> outermost_by Q t a u.
Proof.
  intros H.
  assert (Fs : forall t anc a, Forall is_start (starts anc t a)).
  { clear. induction t as [n a0 ks IH|s] using xtree_ind'; intros anc a; [|destruct a; constructor].
    destruct a as [|i a]; cbn [starts]; (constructor; [repeat eexists|]); [constructor|]. destruct (nth_error ks i) as [k|] eqn:E; [|constructor]. rewrite Forall_forall in IH. apply IH. eapply nth_error_In; eauto. }
  intros (H1 & H2 & H3). split; auto. split; [apply H; auto|]. intros b Hb K. apply (H3 b Hb). apply H; auto.
Qed.
Lemma starts_above t : forall anc a b u, subtree t a = Some u -> is_element u -> above b a -> exists r, starts anc t a = starts anc t b ++ r /\ r <> [].
Proof.
  induction t as [n at' ks IH|x] using xtree_ind'; intros anc a b u Hs Hu (i & r & ->).
  - destruct b as [|j b]; cbn [app subtree starts] in *.
    + destruct (nth_error ks i) as [k|] eqn:Ek; [|discriminate]. destruct k as [n' a' ks'|x].
      * eexists. split; [reflexivity|]. destruct r; discriminate.
      * destruct r; cbn in Hs; [|discriminate]. inversion Hs; subst. destruct Hu as (? & ? & ? & ?). discriminate.
    + destruct (nth_error ks j) as [k|] eqn:Ek; [|discriminate]. rewrite Forall_forall in IH.
      destruct (IH k (nth_error_In _ _ Ek) (anc ++ [n]) _ b u Hs Hu) as (r' & -> & Hr); [exists i, r; auto|]. exists r'. split; auto.
  - destruct b; discriminate.
Qed.
(** A beginning of the path of a node is the path of a node above it. *)
Lemma starts_prefix t : forall anc a u x y, subtree t a = Some u -> is_element u -> starts anc t a = x ++ y -> x <> [] -> y <> [] ->
  exists b, above b a /\ starts anc t b = x.
Proof.
  induction t as [n at' ks IH|s] using xtree_ind'; intros anc a u x y Hs Hu E Hx Hy; [|destruct a, x; [congruence|discriminate|congruence|discriminate]].
  destruct x as [|e x]; [congruence|]. destruct a as [|i a]; cbn [starts] in E; injection E as <- E; [destruct x; [destruct y; [congruence|discriminate]|discriminate]|].
  cbn [subtree] in Hs. destruct (nth_error ks i) as [k|] eqn:Ek; [|discriminate]. destruct x as [|e1 x].
  - exists []. split; [exists i, a; auto|reflexivity].
  - rewrite Forall_forall in IH. destruct (IH k (nth_error_In _ _ Ek) _ _ _ _ _ Hs Hu E ltac:(discriminate) Hy) as (b & (j & r & ->) & Eb).
    exists (i :: b). split; [exists j, r; auto|]. cbn [starts]. rewrite Ek, Eb. reflexivity.
Qed.
(** For one pattern: the outermost elements of which a beginning is matched are the outermost ones that are matched. *)
Lemma outermost_begins p t a u : (forall x, fmatches p x -> x <> []) -> subtree t a = Some u ->
  outermost_by (begins p) t a u <-> outermost_by (fmatches p) t a u.
Proof.
  intros Hn Hs. split; intros (H1 & H2 & H3).
  - split; auto. split; [|intros b Hb K; apply (H3 b Hb); exists (starts [] t b), []; rewrite app_nil_r; auto].
    destruct H2 as (x & y & E & M). destruct y as [|e y]; [rewrite app_nil_r in E; rewrite E; auto|]. exfalso.
    destruct (starts_prefix t [] a u x (e :: y) Hs H1 E (Hn _ M) ltac:(discriminate)) as (b & Hb & <-). apply (H3 b Hb). exists (starts [] t b), []. rewrite app_nil_r; auto.
  - split; auto. split; [exists (starts [] t a), []; rewrite app_nil_r; auto|]. intros b Hb (x & y & E & M).
    destruct (starts_above t [] a b u Hs H1 Hb) as (r & Er & Hr). destruct y as [|e y]; [rewrite app_nil_r in E; subst; apply (H3 b Hb); auto|].
    assert (Ex : starts [] t a = x ++ e :: y ++ r) by (rewrite Er, E, <- app_assoc; reflexivity).
    destruct (starts_prefix t [] a u x _ Hs H1 Ex (Hn _ M) ltac:(discriminate)) as (b' & Hb' & <-). apply (H3 b' Hb'). auto.
Qed.
Lemma fmatches_len p x : no_fdeep p -> fmatches p x -> length x = length p.
Proof. intros Hd M. induction M as [|st p e es O M IH|p l es M IH]; cbn; auto; [rewrite IH; auto; apply (no_fdeep_cons _ _ Hd)|destruct Hd; left; auto]. Qed.
Lemma outermost_exact p t a u : no_fdeep p -> subtree t a = Some u -> outermost_by (fmatches p) t a u <-> is_element u /\ fmatches p (starts [] t a).
Proof.
  intros Hd Hs. split; [intros (H1 & H2 & _); auto|]. intros (H1 & H2). split; auto. split; auto. intros b Hb K.
  destruct (starts_above t [] a b u Hs H1 Hb) as (r & Er & Hr). apply fmatches_len in H2; auto. apply fmatches_len in K; auto. rewrite Er, app_length in H2.
  destruct r; [congruence|]. cbn in H2. lia.
Qed.
