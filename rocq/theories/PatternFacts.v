(** Facts about positions and pattern machines. *)
From Verif Require Import PyStr XTree ParserInv Path Nodes Pattern PatternSpec.

(** ** Document order *)
Lemma doc_before_irrefl a : ~ doc_before a a.
Proof. induction a as [|i a IH]; intros H; inversion H; subst; [lia|auto]. Qed.
Lemma doc_before_trans a b c : doc_before a b -> doc_before b c -> doc_before a c.
Proof.
  intros H. revert c. induction H as [i b|i j a b Hij|i a b H IH]; intros c Hc; inversion Hc; subst; try solve [constructor; auto; lia].
Qed.

(** A listing is unique. *)
Lemma sorted_unique l1 l2 : StronglySorted doc_before l1 -> StronglySorted doc_before l2 ->
  (forall a, In a l1 <-> In a l2) -> l1 = l2.
Proof.
  revert l2. induction l1 as [|a l1 IH]; intros l2 H1 H2 H.
  - destruct l2 as [|b l2]; [reflexivity|]. exfalso. apply (H b). left; auto.
  - destruct l2 as [|b l2]; [exfalso; apply (H a); left; auto|].
    apply StronglySorted_inv in H1 as [S1 F1], H2 as [S2 F2]. rewrite Forall_forall in F1, F2.
    assert (a = b).
    { destruct (proj1 (H a) (or_introl eq_refl)) as [E|Hi]; [auto|].
      destruct (proj2 (H b) (or_introl eq_refl)) as [E|Hj]; [auto|].
      exfalso. apply (doc_before_irrefl a). eapply doc_before_trans; [apply F1, Hj|apply F2, Hi]. }
    subst b. f_equal. apply IH; auto. intros x. split; intros Hx.
    + destruct (proj1 (H x) (or_intror Hx)) as [<-|Hi]; [|auto]. exfalso. apply (doc_before_irrefl a), F1, Hx.
    + destruct (proj2 (H x) (or_intror Hx)) as [<-|Hi]; [|auto]. exfalso. apply (doc_before_irrefl a), F2, Hx.
Qed.
Lemma listing_unique t P l1 l2 : listing t P l1 -> listing t P l2 -> l1 = l2.
Proof.
  intros [S1 I1] [S2 I2]. assert (E : map fst l1 = map fst l2).
  { apply sorted_unique; auto. intros a. rewrite !in_map_iff. split; intros ([b u] & <- & Hi); exists (b, u); split; auto; [apply I2, I1|apply I1, I2]; auto. }
  assert (K1 : forall a u, In (a, u) l1 -> subtree t a = Some u) by (intros a u Hi; apply I1; auto).
  assert (K2 : forall a u, In (a, u) l2 -> subtree t a = Some u) by (intros a u Hi; apply I2; auto).
  clear S1 S2 I1 I2. revert l2 E K2. induction l1 as [|[a u] l1 IH]; intros [|[b v] l2] E K2; try discriminate; [reflexivity|].
  cbn in E. inversion E; subst. f_equal.
  - assert (Hu := K1 b u (or_introl eq_refl)). assert (Hv := K2 b v (or_introl eq_refl)). congruence.
  - apply IH; auto; intros; [apply K1|apply K2]; right; auto.
Qed.
Lemma listing_ext t P Q l : (forall a u, subtree t a = Some u -> (P a u <-> Q a u)) -> listing t P l -> listing t Q l.
Proof. intros H [S I]. split; auto. intros a u. rewrite I. split; intros [H1 H2]; split; auto; apply (H a u H1); auto. Qed.

(** ** Lists of nodes found in the children *)
Section Over.
  Variable f : xtree -> list (list nat * xtree).
  Lemma under_in i l b u : In (b, u) (under i l) <-> exists c, b = i :: c /\ In (c, u) l.
  Proof.
    unfold under. rewrite in_map_iff. split.
    - intros ([c v] & E & Hi). cbn in E. inversion E; subst. eauto.
    - intros (c & -> & Hi). exists (c, u). auto.
  Qed.
  Lemma over_in ks : forall i b u, In (b, u) (over f i ks) <->
    exists j k c, nth_error ks j = Some k /\ b = (i + j) :: c /\ In (c, u) (f k).
  Proof.
    induction ks as [|k ks IH]; intros i b u; cbn [over].
    - split; [intros []|]. intros (j & k & c & H & _). destruct j; discriminate.
    - rewrite in_app_iff, under_in, IH. split.
      + intros [(c & -> & Hi)|(j & k' & c & H1 & -> & H2)].
        * exists 0, k, c. rewrite Nat.add_0_r. auto.
        * exists (S j), k', c. rewrite Nat.add_succ_r. auto.
      + intros (j & k' & c & H1 & -> & H2). destruct j as [|j]; cbn in H1.
        * inversion H1; subst. left. rewrite Nat.add_0_r. eauto.
        * right. exists j, k', c. rewrite Nat.add_succ_r. auto.
  Qed.
  Lemma under_sorted i l : StronglySorted doc_before (map fst l) -> StronglySorted doc_before (map fst (under i l)).
  Proof.
    unfold under. rewrite map_map. cbn. induction l as [|x l IH]; intros H; cbn in *; [constructor|].
    apply StronglySorted_inv in H as [H1 H2]. constructor; [apply IH; auto|].
    rewrite Forall_forall in *. intros y Hy. apply in_map_iff in Hy as (z & <- & Hz). apply db_same, H2. apply in_map; auto.
  Qed.
  Lemma sorted_app l1 l2 : StronglySorted doc_before l1 -> StronglySorted doc_before l2 ->
    (forall x y, In x l1 -> In y l2 -> doc_before x y) -> StronglySorted doc_before (l1 ++ l2).
  Proof.
    induction l1 as [|x l1 IH]; intros H1 H2 H; cbn; auto. apply StronglySorted_inv in H1 as [H1 F]. constructor.
    - apply IH; auto. intros; apply H; auto. right; auto.
    - rewrite Forall_forall in *. intros y Hy. apply in_app_iff in Hy as [Hy|Hy]; auto. apply H; auto. left; auto.
  Qed.
  Lemma over_sorted ks : (forall k, In k ks -> StronglySorted doc_before (map fst (f k))) ->
    forall i, StronglySorted doc_before (map fst (over f i ks)).
  Proof.
    induction ks as [|k ks IH]; intros H i; cbn [over map]; [constructor|]. rewrite map_app. apply sorted_app.
    - apply under_sorted, H. left; auto.
    - apply IH. intros; apply H; right; auto.
    - intros x y Hx Hy. apply in_map_iff in Hx as ([x' u] & <- & Hx), Hy as ([y' v] & <- & Hy). cbn [fst].
      apply under_in in Hx as (c & -> & _). apply over_in in Hy as (j & k' & c' & _ & -> & _). apply db_later. lia.
  Qed.
End Over.
Lemma over_ext f g ks : (forall k, In k ks -> f k = g k) -> forall i, over f i ks = over g i ks.
Proof.
  induction ks as [|k ks IH]; intros H i; cbn [over]; [reflexivity|]. rewrite H by (left; auto). f_equal. apply IH. intros; apply H; right; auto.
Qed.

(** ** The outermost nodes that satisfy a condition on the names along the path *)
Fixpoint found (m : list str -> bool) (anc : list str) (t : xtree) : list (list nat * xtree) :=
  match t with
  | XE n _ ks => if m (anc ++ [n]) then [([], t)] else over (found m (anc ++ [n])) 0 ks
  | XT _ => []
  end.

Lemma found_anc m anc t : forall more, found m (anc ++ more) t = found (fun l => m (anc ++ l)) more t.
Proof.
  induction t as [n a ks IH|s] using xtree_ind'; intros more; cbn [found]; [|reflexivity]. rewrite <- app_assoc.
  destruct (m (anc ++ more ++ [n])); [reflexivity|]. apply over_ext. intros k Hk. rewrite Forall_forall in IH.
  apply IH; auto.
Qed.
Lemma found_sorted m t : forall anc, StronglySorted doc_before (map fst (found m anc t)).
Proof.
  induction t as [n a ks IH|s] using xtree_ind'; intros anc; cbn [found]; [|constructor].
  destruct (m (anc ++ [n])); [repeat constructor|]. apply over_sorted. rewrite Forall_forall in IH. intros k Hk. apply IH; auto.
Qed.
Lemma found_in m t : forall anc b u, In (b, u) (found m anc t) <->
  subtree t b = Some u /\ is_element u /\ m (anc ++ path_names t b) = true /\
  forall c, above c b -> m (anc ++ path_names t c) = false.
Proof.
  induction t as [n a ks IH|s] using xtree_ind'; intros anc b u; cbn [found].
  - destruct (m (anc ++ [n])) eqn:E.
    + split.
      * intros [H|[]]. inversion H; subst. split; [reflexivity|]. split; [repeat eexists|]. cbn [path_names]. split; [exact E|].
        intros c (i & r & Hc). destruct c; discriminate.
      * intros (H1 & H2 & H3 & H4). destruct b as [|i b].
        -- cbn in H1. inversion H1; subst. left; auto.
        -- assert (Hx : above [] (i :: b)) by (exists i, b; reflexivity). apply H4 in Hx. cbn [path_names] in Hx. congruence.
    + rewrite over_in. split.
      * intros (j & k & c & H1 & -> & H2). assert (Hk : In k ks) by (eapply nth_error_In; eauto).
        rewrite Forall_forall in IH. apply IH in H2 as (G1 & G2 & G3 & G4); auto. cbn [Nat.add].
        split; [cbn [subtree]; rewrite H1; exact G1|]. split; [exact G2|]. split.
        -- cbn [path_names]. rewrite H1. rewrite <- app_assoc in G3. exact G3.
        -- intros c' (i & r & Hc). destruct c' as [|i' c']; cbn [path_names]; [exact E|]. cbn in Hc. inversion Hc; subst.
           rewrite H1. specialize (G4 c'). rewrite <- app_assoc in G4. apply G4. exists i, r. reflexivity.
      * intros (H1 & H2 & H3 & H4). destruct b as [|i b].
        -- cbn [path_names] in H3. congruence.
        -- cbn [subtree path_names] in H1, H3. destruct (nth_error ks i) as [k|] eqn:Ek; [|discriminate].
           exists i, k, b. split; [auto|]. split; [reflexivity|]. assert (Hk : In k ks) by (eapply nth_error_In; eauto).
           rewrite Forall_forall in IH. apply IH; auto. split; [auto|]. split; [auto|]. rewrite <- app_assoc. split; [exact H3|].
           intros c (j & r & ->). specialize (H4 (i :: c)). cbn [path_names] in H4. rewrite Ek in H4. rewrite <- app_assoc. apply H4. exists j, r. reflexivity.
  - split; [intros []|]. intros (H1 & (n & a & ks & ->) & _). destruct b; discriminate.
Qed.

(** ** Running a machine on a sequence of names: matched at the end and not before *)
Fixpoint hits (s : pst) (names : list str) : bool :=
  match names with
  | [] => false
  | n :: r => match pst_step s n with
              | SState PMatched => match r with [] => true | _ => false end
              | SState s' => hits s' r
              | _ => false
              end
  end.
Lemma hits_cons s n s' r : pst_step s n = SState s' -> s' <> PMatched -> hits s (n :: r) = hits s' r.
Proof. intros H Hn. cbn [hits]. rewrite H. destruct s'; auto. congruence. Qed.
(** A type error occurs at the end and not before. *)
Fixpoint fails (s : pst) (names : list str) : bool :=
  match names with
  | [] => false
  | n :: r => match pst_step s n with
              | SType => match r with [] => true | _ => false end
              | SState PMatched => false
              | SState s' => fails s' r
              | SNone => false
              end
  end.

Notation prep := (prep_from PMatched).
Lemma prep_matched p : prep p = PMatched -> p = [].
Proof. destruct p as [|[]]; cbn; congruence. Qed.

Lemma stage_ok_spec st n : stage_ok st n -> st <> StDeep -> forall next, pst_step (prep_stage st next) n = SState next.
Proof.
  destruct st as [m| | |ns]; cbn; intros H Hd next; try congruence.
  - subst. rewrite str_eqb_refl. reflexivity.
  - replace (existsb (str_eqb n) ns) with true; [reflexivity|]. symmetry. apply existsb_exists. exists n. split; auto. apply str_eqb_refl.
Qed.
Lemma stage_no_spec st n : ~ stage_ok st n -> st <> StDeep -> forall next, pst_step (prep_stage st next) n = SNone.
Proof.
  destruct st as [m| | |ns]; cbn; intros H Hd next; try congruence; try tauto.
  - destruct (str_eqb n m) eqn:E; [|reflexivity]. apply str_eqb_eq in E. congruence.
  - destruct (existsb (str_eqb n) ns) eqn:E; [|reflexivity]. apply existsb_exists in E as (x & Hx & E). apply str_eqb_eq in E; subst. tauto.
Qed.
Lemma stage_ok_dec st n : stage_ok st n \/ ~ stage_ok st n.
Proof.
  destruct st as [m| | |ns]; cbn; auto.
  - destruct (str_eqb n m) eqn:E; [left; apply str_eqb_eq; auto|]. right. intros ->. rewrite str_eqb_refl in E. discriminate.
  - destruct (existsb (str_eqb n) ns) eqn:E.
    + left. apply existsb_exists in E as (x & Hx & E). apply str_eqb_eq in E; subst; auto.
    + right. intros Hi. assert (existsb (str_eqb n) ns = true); [|congruence]. apply existsb_exists. exists n. split; auto. apply str_eqb_refl.
Qed.
Lemma stage_dec (st : stage) : st = StDeep \/ st <> StDeep.
Proof. destruct st; auto; right; discriminate. Qed.

(** A step leads to the machine of a remaining pattern. *)
Lemma step_prep p n : match pst_step (prep p) n with
  | SState s => exists q, s = prep q /\ (forall names, matches q names -> matches p (n :: names)) /\
                (~ ends_deep p -> ~ ends_deep q)
  | SType => p = [] \/ ends_deep p
  | SNone => True
  end.
Proof.
  induction p as [|st p IH]; [left; reflexivity|].
  destruct (stage_dec st) as [->|Hd].
  - cbn [prep_from fold_right prep_stage pst_step]. fold (prep p). destruct (pst_step (prep p) n) as [| |s] eqn:E.
    + right. destruct IH as [->|(q & ->)]; [exists []; reflexivity|exists (StDeep :: q); reflexivity].
    + exists (StDeep :: p). split; [reflexivity|]. split; [|auto]. intros names H. inversion H as [|st0 p0 n0 names0 Ho Hm|p0 ns names0 Hm]; subst.
      * destruct Ho.
      * change (n :: ns ++ names0) with ((n :: ns) ++ names0). apply ma_deep; auto.
    + destruct IH as (q & -> & H1 & H2). exists q. split; [reflexivity|]. split.
      * intros names H. apply (ma_deep p []). apply H1; auto.
      * intros H. apply H2. intros (r & ->). apply H. exists (StDeep :: r). reflexivity.
  - destruct (stage_ok_dec st n) as [Ho|Ho].
    + cbn [prep_from fold_right]. rewrite stage_ok_spec by auto. exists p. split; [reflexivity|]. split.
      * intros names H. constructor; auto.
      * intros H (q & ->). apply H. exists (st :: q). reflexivity.
    + cbn [prep_from fold_right]. rewrite stage_no_spec by auto. exact I.
Qed.

(** Everything that is hit matches. *)
Lemma hits_sound names : forall p, hits (prep p) names = true -> matches p names.
Proof.
  induction names as [|n names IH]; intros p H; [discriminate|]. cbn [hits] in H. pose proof (step_prep p n) as Hs.
  destruct (pst_step (prep p) n) as [| |s]; try discriminate. destruct Hs as (q & -> & Hq & _).
  destruct (prep q) eqn:E.
  - apply prep_matched in E; subst q. destruct names; [|discriminate]. apply Hq. constructor.
  - rewrite <- E in H. auto.
  - rewrite <- E in H. auto.
  - rewrite <- E in H. auto.
  - rewrite <- E in H. auto.
Qed.
(** A hit is not below another hit. *)
Lemma hits_first names : forall s a b, names = a ++ b -> b <> [] -> hits s names = true -> hits s a = false.
Proof.
  induction names as [|n names IH]; intros s a b E Hb H; [destruct a, b; discriminate|].
  destruct a as [|x a]; [reflexivity|]. cbn in E. inversion E; subst. cbn [hits] in *.
  destruct (pst_step s x) as [| |s']; auto. destruct s'; auto.
  - destruct a, b; try discriminate; congruence.
  - eapply IH; eauto.
  - eapply IH; eauto.
  - eapply IH; eauto.
  - eapply IH; eauto.
Qed.

Lemma matches_len p names : no_deep p -> matches p names -> length names = length p.
Proof.
  intros Hd H. induction H; cbn; auto.
  - f_equal. apply IHmatches. intros Hi; apply Hd; right; auto.
  - exfalso. apply Hd. left; auto.
Qed.

(** Without '**' the machine is exact. *)
Lemma hits_exact p : no_deep p -> p <> [] -> forall names, hits (prep p) names = true <-> matches p names.
Proof.
  intros Hd Hp names. split; [apply hits_sound|]. intros H. induction H as [|st p n names Ho H IH|p ns names H IH]; [congruence| |].
  - cbn [hits]. assert (Hs : st <> StDeep) by (intros ->; apply Hd; left; auto).
    cbn [prep_from fold_right]. rewrite stage_ok_spec by auto. fold (prep p). destruct p as [|st2 p].
    + inversion H; subst. reflexivity.
    + specialize (IH ltac:(intros Hi; apply Hd; right; auto) ltac:(discriminate)).
      destruct (prep (st2 :: p)) eqn:E; auto. apply prep_matched in E. discriminate.
  - exfalso. apply Hd. left; auto.
Qed.

Lemma matches_deep_last st names : st <> StDeep -> matches [StDeep; st] names <-> exists l n, names = l ++ [n] /\ stage_ok st n.
Proof.
  intros Hs. split.
  - intros H. inversion H as [|st0 p0 n0 names0 Ho Hm|p0 ns names0 Hm]; subst; [destruct Ho|].
    inversion Hm as [|st1 p1 n1 names1 Ho1 Hm1|p1 ns1 names1 Hm1]; subst; [|congruence]. inversion Hm1; subst. eauto.
  - intros (l & n & -> & Ho). constructor. constructor; auto. constructor.
Qed.

(** With one '**' before the last stage: the first matches. *)
Lemma hits_deep_last pre st : no_deep pre -> st <> StDeep -> forall names,
  hits (prep (pre ++ [StDeep; st])) names = true <-> first_match (pre ++ [StDeep; st]) names.
Proof.
  intros Hpre Hst. induction pre as [|s0 pre IH]; intros names.
  - cbn [app]. assert (K : forall names, hits (prep [StDeep; st]) names = true <->
        exists l n, names = l ++ [n] /\ stage_ok st n /\ forall x, In x l -> ~ stage_ok st x).
    { clear names. induction names as [|n names IH]; [split; [discriminate|]; intros (l & n & E & _); destruct l; discriminate|].
      cbn [prep_from fold_right hits]. change (prep_stage StDeep (prep_stage st PMatched)) with (PUntil (prep_stage st PMatched)).
      cbn [pst_step]. destruct (stage_ok_dec st n) as [Ho|Ho].
      - rewrite stage_ok_spec by auto. destruct names as [|x names].
        + split; auto. intros _. exists [], n. repeat split; auto.
        + split; [discriminate|]. intros (l & m & E & H1 & H2). destruct l as [|y l]; [discriminate|]. cbn in E. inversion E; subst.
          exfalso. apply (H2 y); [left; auto|auto].
      - rewrite stage_no_spec by auto. change (PUntil (prep_stage st PMatched)) with (prep [StDeep; st]). rewrite IH. split.
        + intros (l & m & -> & H1 & H2). exists (n :: l), m. repeat split; auto. intros x [<-|Hx]; auto.
        + intros (l & m & E & H1 & H2). destruct l as [|y l]; cbn in E; inversion E; subst; [tauto|].
          exists l, m. repeat split; auto. intros x Hx; apply H2; right; auto. }
    rewrite K. unfold first_match. split.
    + intros (l & n & -> & H1 & H2). split; [apply matches_deep_last; eauto|]. intros a b E Hb Hm.
      apply matches_deep_last in Hm as (l' & x & -> & Hx); auto. destruct (exists_last Hb) as (b' & y & ->).
      rewrite app_assoc in E. apply app_inj_tail in E as [E _]. apply (H2 x); auto. rewrite E. apply in_or_app. left. apply in_or_app. right; left; auto.
    + intros [Hm Hf]. apply matches_deep_last in Hm as (l & n & -> & Hn); auto. exists l, n. repeat split; auto.
      intros x Hx Ho. apply in_split in Hx as (l1 & l2 & ->). apply (Hf (l1 ++ [x]) (l2 ++ [n])).
      * repeat (rewrite <- !app_assoc; cbn [app]). reflexivity.
      * destruct l2; discriminate.
      * apply matches_deep_last; eauto.
  - assert (Hs0 : s0 <> StDeep) by (intros ->; apply Hpre; left; auto).
    assert (Hpre' : no_deep pre) by (intros Hi; apply Hpre; right; auto). specialize (IH Hpre').
    assert (Hm0 : forall names, matches (s0 :: pre ++ [StDeep; st]) names <-> exists n r, names = n :: r /\ stage_ok s0 n /\ matches (pre ++ [StDeep; st]) r).
    { intros l. split.
      - intros H. inversion H; subst; [eauto|congruence].
      - intros (n & r & -> & H1 & H2). constructor; auto. }
    destruct names as [|n names].
    + split; [discriminate|]. intros [H _]. apply Hm0 in H as (x & r & E & _). discriminate.
    + cbn [app prep_from fold_right hits]. destruct (stage_ok_dec s0 n) as [Ho|Ho].
      * change (hits (prep_stage s0 (prep (pre ++ [StDeep; st]))) (n :: names) = true <-> first_match (s0 :: pre ++ [StDeep; st]) (n :: names)).
        rewrite (hits_cons _ _ _ names (stage_ok_spec s0 n Ho Hs0 _)) by (intros E; apply prep_matched in E; destruct pre; discriminate).
        rewrite IH. unfold first_match. rewrite Hm0. split.
        -- intros [H1 H2]. split; [eauto|]. intros a b Eab Hb Ha. apply Hm0 in Ha as (x & r & -> & _ & Hr). cbn in Eab. inversion Eab; subst.
           apply (H2 r b); auto.
        -- intros [(x & r & Ex & H1 & H2) H3]. inversion Ex; subst. split; auto. intros a b Eab Hb Ha. apply (H3 (x :: a) b); auto; [cbn; f_equal; auto|].
           apply Hm0. eauto.
      * rewrite stage_no_spec by auto. split; [discriminate|]. intros [H _]. apply Hm0 in H as (x & r & Ex & H1 & _). inversion Ex; subst. tauto.
Qed.

(** Patterns that do not end with '**' never fail. *)
Lemma fails_never names : forall p, ~ ends_deep p -> p <> [] -> fails (prep p) names = false.
Proof.
  induction names as [|n names IH]; intros p He Hp; [reflexivity|]. cbn [fails]. pose proof (step_prep p n) as Hs.
  destruct (pst_step (prep p) n) as [| |s]; [tauto|reflexivity|]. destruct Hs as (q & -> & _ & Hq).
  destruct (prep q) eqn:E; auto; rewrite <- E; apply IH; auto; intros ->; discriminate.
Qed.
