(** Facts about treeutil.py. *)
From Verif Require Import PyStr XTree ParserInv Tree Heap Builder HeapSpec.
From Verif Require Import Path Nodes Pattern PatternSpec PatternFacts TreeUtil TreeUtilSpec.

(** ** descendants *)
Lemma descendants_sorted t : StronglySorted doc_before (map fst (descendants t)).
Proof.
  induction t as [n a ks IH|s] using xtree_ind'; cbn [descendants]; [|constructor]. apply over_sorted.
  rewrite Forall_forall in IH. intros k Hk. specialize (IH k Hk). destruct k as [n' a' ks'|s']; [|constructor].
  cbn [map fst]. constructor; auto. rewrite Forall_forall. intros x Hx. apply in_map_iff in Hx as ([b u] & <- & Hi).
  cbn [descendants] in Hi. apply over_in in Hi as (j & k & c & _ & -> & _). cbn. constructor.
Qed.
Lemma descendants_in t : forall b u, In (b, u) (descendants t) <-> subtree t b = Some u /\ b <> [] /\ is_element u.
Proof.
  induction t as [n a ks IH|s] using xtree_ind'; intros b u; cbn [descendants].
  - rewrite over_in. rewrite Forall_forall in IH. split.
    + intros (j & k & c & Hj & -> & Hi). assert (Hk : In k ks) by (eapply nth_error_In; eauto). cbn [Nat.add subtree]. rewrite Hj.
      destruct k as [n' a' ks'|s']; [|destruct Hi]. destruct Hi as [E|Hi].
      * inversion E; subst. split; [reflexivity|]. split; [discriminate|]. repeat eexists.
      * apply (IH _ Hk) in Hi as (H1 & _ & H2). split; [exact H1|]. split; [discriminate|auto].
    + intros (H1 & H2 & H3). destruct b as [|j b]; [congruence|]. cbn [subtree] in H1. destruct (nth_error ks j) as [k|] eqn:Ej; [|discriminate].
      exists j, k, b. split; [auto|]. split; [reflexivity|]. assert (Hk : In k ks) by (eapply nth_error_In; eauto).
      destruct k as [n' a' ks'|s'].
      * destruct b as [|i b]; [left; cbn in H1; congruence|]. right. apply (IH _ Hk). split; [auto|]. split; [discriminate|auto].
      * destruct b as [|i b]; cbn in H1; [|discriminate]. inversion H1; subst. destruct H3 as (? & ? & ? & ?). discriminate.
  - split; [intros []|]. intros (H1 & H2 & _). destruct b; [congruence|discriminate].
Qed.
Lemma descendants_listing t : listing t (fun a u => a <> [] /\ is_element u) (descendants t).
Proof. split; [apply descendants_sorted|]. intros a u. apply descendants_in. Qed.

(** ** Filters *)
Lemma filter_filtered {A} (P : A -> Prop) f (l : list A) : (forall x, In x l -> (f x = true <-> P x)) -> filtered P l (filter f l).
Proof.
  induction l as [|x l IH]; intros H; cbn [filter]; [constructor|].
  assert (Hl : filtered P l (filter f l)) by (apply IH; intros; apply H; right; auto).
  destruct (f x) eqn:E.
  - apply fi_keep; auto. apply H; [left; auto|auto].
  - apply fi_drop; auto. intros Hx. apply H in Hx; [congruence|left; auto].
Qed.
Lemma filter_filter {A} (f g : A -> bool) l : filter f (filter g l) = filter (fun x => g x && f x) l.
Proof. induction l as [|x l IH]; cbn; auto. destruct (g x); cbn; [destruct (f x); rewrite IH; auto|auto]. Qed.
Lemma is_elemb_spec t : is_elemb t = true <-> is_element t.
Proof. destruct t; cbn; split; intros H; auto; try discriminate; [repeat eexists|destruct H as (? & ? & ? & ?); discriminate]. Qed.

Lemma select_elements_filtered s : filtered (fun x => is_element (snd x)) (source_items s) (select_elements s).
Proof. apply filter_filtered. intros x _. apply is_elemb_spec. Qed.
Lemma select_name_filtered s name : filtered (fun x => exists a ks, snd x = XE name a ks) (source_items s) (select_name s name).
Proof.
  unfold select_name, select_elements. rewrite filter_filter. apply filter_filtered. intros [b u] _. cbn [snd]. destruct u as [n a ks|s']; cbn.
  - rewrite str_eqb_eq. split; [intros ->; eauto|intros (? & ? & E); congruence].
  - split; [discriminate|]. intros (? & ? & E). discriminate.
Qed.
Lemma select_pat_filtered s pat : filtered (fun x => exists n a ks, snd x = XE n a ks /\ pat n = true) (source_items s) (select_name_pattern s pat).
Proof.
  unfold select_name_pattern, select_elements. rewrite filter_filter. apply filter_filtered. intros [b u] _. cbn [snd]. destruct u as [n a ks|s']; cbn.
  - split; [intros; repeat eexists; auto|intros (? & ? & ? & E & H); congruence].
  - split; [discriminate|]. intros (? & ? & ? & E & _). discriminate.
Qed.
Lemma xml_value_text t : xml_value t = tree_text t.
Proof.
  induction t as [n a ks IH|s] using xtree_ind'; cbn; auto. unfold py_join. induction IH as [|k ks Hk _ IHk]; cbn; auto. rewrite Hk. f_equal. exact IHk.
Qed.
Lemma select_value_filtered s val : filtered (fun x => tree_text (snd x) = val) (source_items s) (select_value s val).
Proof. apply filter_filtered. intros x _. rewrite str_eqb_eq, xml_value_text. tauto. Qed.
Lemma dict_get_in {A} (d : dict A) k v : NoDup (map fst d) -> (dict_get d k = Some v <-> In (k, v) d).
Proof.
  induction d as [|[k' v'] d IH]; cbn; intros H; [split; [discriminate|intros []]|]. inversion H; subst.
  destruct (str_eqb k' k) eqn:E.
  - apply str_eqb_eq in E; subst. split; [intros Hs; left; congruence|]. intros [Hs|Hs]; [congruence|]. exfalso. apply H2. apply in_map_iff. exists (k, v). auto.
  - rewrite IH by auto. split; [auto|]. intros [Hs|Hs]; auto. inversion Hs; subst. rewrite str_eqb_refl in E. discriminate.
Qed.
Lemma dict_get_none {A} (d : dict A) k : dict_get d k = None <-> ~ In k (map fst d).
Proof.
  induction d as [|[k' v'] d IH]; cbn; [tauto|]. destruct (str_eqb k' k) eqn:E.
  - apply str_eqb_eq in E; subst. split; [discriminate|tauto].
  - rewrite IH. split; [|tauto]. intros H [->|Hi]; [rewrite str_eqb_refl in E; discriminate|auto].
Qed.
Lemma select_attr_filtered s name : filtered (fun x => exists n a ks, snd x = XE n a ks /\ In name (map fst a)) (source_items s) (select_attribute s name None).
Proof.
  unfold select_attribute, select_elements. rewrite filter_filter. apply filter_filtered. intros [b u] _. cbn [snd]. destruct u as [n a ks|s']; cbn.
  - unfold attr_check. cbn [elem_attrs]. destruct (dict_get a name) eqn:E.
    + split; auto. intros _. exists n, a, ks. split; auto. destruct (in_dec (list_eq_dec N.eq_dec) name (map fst a)) as [Hi|Hi]; auto.
      apply dict_get_none in Hi. congruence.
    + apply dict_get_none in E. split; [discriminate|]. intros (? & ? & ? & Ex & Hi). inversion Ex; subst. tauto.
  - split; [discriminate|]. intros (? & ? & ? & Ex & _). discriminate.
Qed.
Lemma select_attrval_filtered s name v : (forall b n a ks, In (b, XE n a ks) (source_items s) -> NoDup (map fst a)) ->
  filtered (fun x => exists n a ks, snd x = XE n a ks /\ In (name, v) a) (source_items s) (select_attribute s name (Some v)).
Proof.
  intros Hd. unfold select_attribute, select_elements. rewrite filter_filter. apply filter_filtered. intros [b u] Hi. cbn [snd]. destruct u as [n a ks|s']; cbn.
  - specialize (Hd _ _ _ _ Hi). unfold attr_check. cbn [elem_attrs]. destruct (dict_get a name) as [w|] eqn:E.
    + rewrite str_eqb_eq. split.
      * intros ->. apply dict_get_in in E; auto. eauto 6.
      * intros (? & ? & ? & Ex & Hn). inversion Ex; subst. apply dict_get_in in Hn; auto. congruence.
    + apply dict_get_none in E. split; [discriminate|]. intros (? & ? & ? & Ex & Hn). inversion Ex; subst. exfalso. apply E. apply in_map_iff. exists (name, v). auto.
  - split; [discriminate|]. intros (? & ? & ? & Ex & _). discriminate.
Qed.
Lemma source_children n a ks : listing (XE n a ks) (fun b _ => exists i, b = [i]) (source_items (SrcElem (XE n a ks))).
Proof.
  cbn [source_items]. split.
  - apply over_sorted. intros. repeat constructor.
  - intros b u. rewrite over_in. split.
    + intros (j & k & c & Hj & -> & [E|[]]). inversion E; subst. cbn. rewrite Hj. eauto.
    + intros (H & i & ->). cbn in H. destruct (nth_error ks i) as [k|] eqn:E; [|discriminate]. inversion H; subst. exists i, u, []. split; [auto|]. split; [reflexivity|left; auto].
Qed.

(** ** following_siblings *)
Lemma dropwhile_split {A} (p : A -> bool) l1 x l2 : (forall y, In y l1 -> p y = true) -> p x = false -> dropwhile p (l1 ++ x :: l2) = x :: l2.
Proof. intros H Hx. induction l1 as [|y l1 IH]; cbn; [rewrite Hx; auto|]. rewrite H by (left; auto). apply IH. intros; apply H; right; auto. Qed.
Lemma siblings_elem h i p : well_linked h -> is_elem h i -> parent_is h i (Some p) ->
  exists n a l1 l2 q, hp h p = Some (OElem n a (l1 ++ i :: l2) q) /\ following_siblings h i = Some l2.
Proof.
  intros (Hn & Hl & Ht & _) (n & a & ks & q & Hi) Hp. destruct (proj2 (Hl p i) Hp) as (o & Ho & Hin).
  destruct o as [n' a' ks' q'|s' q']; [|destruct Hin]. cbn [okids] in Hin. apply in_split in Hin as (l1 & l2 & ->).
  exists n', a', l1, l2, q'. split; auto. unfold following_siblings, xml_parent. destruct Hp as (oi & Hoi & Hpi). rewrite Hoi, Hpi, Ho, Ho.
  cbn [okids]. rewrite dropwhile_split; [reflexivity| |].
  - intros y Hy. unfold node_eqb. apply Bool.negb_true_iff. apply Bool.orb_false_iff. split.
    + apply Nat.eqb_neq. intros ->. apply Ht in Ho. cbn [okids] in Ho. apply NoDup_remove_2 in Ho. apply Ho. apply in_or_app; auto.
    + rewrite Hi. destruct (hp h y) as [[]|]; reflexivity.
  - unfold node_eqb. rewrite Nat.eqb_refl. reflexivity.
Qed.
Lemma siblings_text h i p s : well_linked h -> is_text h i s -> parent_is h i (Some p) ->
  exists n a l1 j l2 q, hp h p = Some (OElem n a (l1 ++ j :: l2) q) /\ is_text h j s /\
    (forall x, In x l1 -> ~ is_text h x s) /\ following_siblings h i = Some l2.
Proof.
  intros (Hn & Hl & Ht & _) (q & Hi) Hp. destruct (proj2 (Hl p i) Hp) as (o & Ho & Hin).
  destruct o as [n' a' ks' q'|s' q']; [|destruct Hin]. cbn [okids] in Hin.
  assert (Hsplit : exists l1 j l2, ks' = l1 ++ j :: l2 /\ is_text h j s /\ forall x, In x l1 -> ~ is_text h x s).
  { clear Ho Hp. induction ks' as [|k ks' IH]; [destruct Hin|].
    assert (Hd : is_text h k s \/ ~ is_text h k s).
    { unfold is_text. destruct (hp h k) as [[? ? ? ?|s0 p0]|] eqn:E.
      - right. intros (? & ?). discriminate.
      - destruct (list_eq_dec N.eq_dec s0 s) as [->|Hne]; [left; eauto|]. right. intros (? & Hx). congruence.
      - right. intros (? & ?). discriminate. }
    destruct Hd as [Hd|Hd].
    - exists [], k, ks'. repeat split; auto.
    - destruct Hin as [->|Hin]; [exfalso; apply Hd; eexists; eauto|]. destruct (IH Hin) as (l1 & j & l2 & -> & H1 & H2).
      exists (k :: l1), j, l2. repeat split; auto. intros x [<-|Hx]; auto. }
  destruct Hsplit as (l1 & j & l2 & -> & Hj & Hno). exists n', a', l1, j, l2, q'. do 3 (split; [auto|]).
  unfold following_siblings, xml_parent. destruct Hp as (oi & Hoi & Hpi). rewrite Hoi, Hpi, Ho, Ho.
  cbn [okids]. rewrite dropwhile_split; [reflexivity| |].
  - intros y Hy. unfold node_eqb. apply Bool.negb_true_iff. apply Bool.orb_false_iff. specialize (Hno y Hy). split.
    + apply Nat.eqb_neq. intros ->. apply Hno. eexists; eauto.
    + rewrite Hi. destruct (hp h y) as [[? ? ? ?|s0 p0]|] eqn:E; auto. destruct (str_eqb s0 s) eqn:Es; auto. apply str_eqb_eq in Es; subst. exfalso. apply Hno. eexists; eauto.
  - destruct Hj as (pj & Hj). unfold node_eqb. rewrite Hi, Hj, str_eqb_refl, Bool.orb_true_r. reflexivity.
Qed.

(** ** select_pattern *)
Lemma fails_cons s n s' r : pst_step s n = SState s' -> s' <> PMatched -> fails s (n :: r) = fails s' r.
Proof. intros H Hn. cbn [fails]. rewrite H. destruct s'; auto. congruence. Qed.
Lemma sel_kids_ok f g ks : (forall k, In k ks -> f k = (g k, false)) -> forall i, sel_kids f i ks = (over g i ks, false).
Proof.
  induction ks as [|k ks IH]; intros H i; cbn [sel_kids over]; auto. rewrite H by (left; auto). rewrite IH by (intros; apply H; right; auto). reflexivity.
Qed.
Lemma select_state_found t : forall s, s <> PMatched -> (forall names, fails s names = false) ->
  select_state t s = (match t with XE _ _ ks => over (found (hits s) []) 0 ks | XT _ => [] end, false).
Proof.
  induction t as [n a ks IH|x] using xtree_ind'; intros s Hs Hf; cbn [select_state]; [|reflexivity].
  apply sel_kids_ok. rewrite Forall_forall in IH. intros k Hk. destruct k as [n' a' ks'|x]; cbn [node_step found app].
  - pose proof (Hf [n']) as H1. cbn [fails] in H1. cbn [hits]. destruct (pst_step s n') as [| |s'] eqn:E; [discriminate| |].
    + f_equal. symmetry. change [n'] with ([n'] ++ []). rewrite (over_ext _ (fun _ => [])).
      * clear. generalize 0. induction ks' as [|k ks' IHk]; intros i; cbn; auto.
      * intros k _. rewrite found_anc. destruct (found _ [] k) as [|[b u] l] eqn:Ef; auto. assert (Hin : In (b, u) (found (fun l => hits s ([n'] ++ l)) [] k)) by (rewrite Ef; left; auto).
        apply found_in in Hin as (_ & _ & Hh & _). cbn [app hits] in Hh. rewrite E in Hh. discriminate.
    + destruct (match s' with PMatched => true | _ => false end) eqn:Em.
      * destruct s'; try discriminate. reflexivity.
      * assert (Hm : s' <> PMatched) by (intros ->; discriminate).
        replace (match s' with PMatched => ([([], XE n' a' ks')], false) | _ => select_state (XE n' a' ks') s' end)
          with (select_state (XE n' a' ks') s') by (destruct s'; auto; discriminate).
        replace (match s' with PMatched => true | _ => hits s' [] end) with false by (destruct s'; auto; discriminate).
        rewrite (IH _ Hk) by (auto; intros names; rewrite <- (fails_cons s n' s' names E Hm); auto). f_equal.
        change [n'] with ([n'] ++ []). apply over_ext. intros k _. rewrite found_anc.
        assert (Hx : forall t' anc, found (hits s') anc t' = found (fun l => hits s ([n'] ++ l)) anc t').
        { clear - E Hm. induction t' as [n a ks IH|x] using xtree_ind'; intros anc; cbn [found]; [|reflexivity].
          change ([n'] ++ anc ++ [n]) with (n' :: (anc ++ [n])). rewrite (hits_cons s n' s' _ E Hm).
          destruct (hits s' (anc ++ [n])); auto. apply over_ext. rewrite Forall_forall in IH. auto. }
        apply Hx.
  - destruct s; auto. congruence.
Qed.

Lemma over_found_listing m n a ks :
  listing (XE n a ks) (fun b u => b <> [] /\ is_element u /\ m (names_below (XE n a ks) b) = true /\
                         forall c, c <> [] -> above c b -> m (names_below (XE n a ks) c) = false)
          (over (found m []) 0 ks).
Proof.
  split; [apply over_sorted; intros; apply found_sorted|]. intros b u. rewrite over_in. split.
  - intros (j & k & c & Hj & -> & Hi). apply found_in in Hi as (H1 & H2 & H3 & H4). cbn [Nat.add subtree]. rewrite Hj.
    split; [auto|]. split; [discriminate|]. split; [auto|]. unfold names_below. cbn [path_names]. rewrite Hj. split; [auto|].
    intros d Hd (i & r & E). destruct d as [|j' d]; [congruence|]. cbn in E. inversion E; subst. cbn [path_names tl]. rewrite Hj. apply H4. exists i, r; auto.
  - intros (H1 & H2 & H3 & H4 & H5). destruct b as [|j b]; [congruence|]. cbn [subtree] in H1. destruct (nth_error ks j) as [k|] eqn:Ej; [|discriminate].
    exists j, k, b. split; [auto|]. split; [reflexivity|]. apply found_in. unfold names_below in *. cbn [path_names tl] in *. rewrite Ej in *.
    do 3 (split; [auto|]). intros c (i & r & ->). specialize (H5 (j :: c)). cbn [path_names tl] in H5. rewrite Ej in H5. apply H5; [discriminate|]. exists i, r; auto.
Qed.

Lemma no_alt_bad p : no_alt p -> existsb bad_stage p = false.
Proof.
  intros H. destruct (existsb bad_stage p) eqn:E; auto. apply existsb_exists in E as (st & Hi & Hb). destruct st as [| | |[|]]; try discriminate.
  exfalso. eapply H; eauto.
Qed.
Lemma select_pattern_found p n a ks : no_alt p -> p <> [] -> ~ ends_deep p ->
  select_pattern (XE n a ks) p = (over (found (hits (prep_from PMatched p)) []) 0 ks, false).
Proof.
  intros Ha Hp He. unfold select_pattern. rewrite no_alt_bad by auto. rewrite select_state_found; auto.
  - intros E. apply prep_matched in E. auto.
  - intros names. apply fails_never; auto.
Qed.
Lemma no_deep_ends p : no_deep p -> ~ ends_deep p.
Proof. intros H (q & ->). apply H. apply in_or_app. right. left. auto. Qed.

(** Names along a path *)
Lemma path_names_above t : forall a b u, subtree t a = Some u -> is_element u -> above b a ->
  exists r, path_names t a = path_names t b ++ r /\ r <> [].
Proof.
  induction t as [n at' ks IH|x] using xtree_ind'; intros a b u Hs Hu (i & r & ->).
  - destruct b as [|j b]; cbn [app subtree path_names] in *.
    + destruct (nth_error ks i) as [k|] eqn:Ek; [|discriminate]. destruct k as [n' a' ks'|x].
      * eexists. split; [reflexivity|]. destruct r; discriminate.
      * destruct r; cbn in Hs; [|discriminate]. inversion Hs; subst. destruct Hu as (? & ? & ? & ?). discriminate.
    + destruct (nth_error ks j) as [k|] eqn:Ek; [|discriminate]. rewrite Forall_forall in IH.
      destruct (IH k (nth_error_In _ _ Ek) _ b u Hs Hu) as (r' & -> & Hr); [exists i, r; auto|]. exists r'. split; auto.
  - destruct b; discriminate.
Qed.
Lemma path_names_prefix t : forall a u x y, subtree t a = Some u -> is_element u -> path_names t a = x ++ y -> x <> [] -> y <> [] ->
  exists b, above b a /\ path_names t b = x.
Proof.
  induction t as [n at' ks IH|s] using xtree_ind'; intros a u x y Hs Hu E Hx Hy.
  - destruct x as [|n0 x]; [congruence|]. destruct a as [|i a]; cbn [path_names app] in E.
    + inversion E. destruct x, y; try discriminate. congruence.
    + cbn [subtree] in Hs. destruct (nth_error ks i) as [k|] eqn:Ek; [|discriminate]. inversion E as [[E1 E2]]; subst n0.
      destruct x as [|n1 x].
      * exists []. split; [exists i, a; auto|]. cbn. reflexivity.
      * rewrite Forall_forall in IH. destruct (IH k (nth_error_In _ _ Ek) a u (n1 :: x) y Hs Hu E2 ltac:(discriminate) Hy) as (b & (j & r & ->) & Hb).
        exists (i :: b). split; [exists j, r; auto|]. cbn [path_names]. rewrite Ek, Hb. reflexivity.
  - destruct a; cbn in E; symmetry in E; apply app_eq_nil in E as [E _]; congruence.
Qed.

(** Exact selection for a machine that is exact on first matches. *)
Lemma selected_iff p t b u : p <> [] -> (p = [StDeep] -> False) ->
  (forall names, names <> [] -> hits (prep_from PMatched p) names = true <-> first_match p names) ->
  ~ matches p [] ->
  subtree t b = Some u -> 
  (b <> [] /\ is_element u /\ hits (prep_from PMatched p) (names_below t b) = true /\
     forall c, c <> [] -> above c b -> hits (prep_from PMatched p) (names_below t c) = false) <-> selected p t b u.
Proof.
  intros Hp _ Hh Hnil Hs. unfold selected.
  assert (Hne : forall c, c <> [] -> (exists v, subtree t c = Some v /\ is_element v) -> names_below t c <> []).
  { intros c Hc (v & Hv & He). destruct c as [|i c]; [congruence|]. destruct t as [n a ks|x]; [|discriminate]. unfold names_below. cbn in *.
    destruct (nth_error ks i) as [k|]; [|discriminate]. destruct k as [|x]; [destruct c; discriminate|]. destruct c; cbn in Hv; [|discriminate]. inversion Hv; subst.
    destruct He as (? & ? & ? & ?). discriminate. }
  split; intros (H1 & H2 & H3 & H4); do 2 (split; [auto|]).
  - assert (Hn := Hne b H1 (ex_intro _ u (conj Hs H2))). apply Hh in H3 as [M F]; auto. split; auto.
    intros c Hc Ha Hm. destruct (path_names_above t b c u Hs H2 Ha) as (r & Er & Hr).
    apply (F (names_below t c) r); auto. unfold names_below. rewrite Er. destruct (path_names t c) eqn:Ec; [|reflexivity].
    exfalso. apply Hnil. unfold names_below in Hm. rewrite Ec in Hm. exact Hm.
  - assert (Hn := Hne b H1 (ex_intro _ u (conj Hs H2))). split.
    + apply Hh; auto. split; auto. intros x y E Hy Hm. destruct x as [|x0 x]; [tauto|].
      assert (Ep : exists n0, path_names t b = (n0 :: x0 :: x) ++ y).
      { unfold names_below in E. destruct (path_names t b) as [|n0 l]; [discriminate|]. exists n0. cbn in E. rewrite E. reflexivity. }
      destruct Ep as (n0 & Ep). destruct (path_names_prefix t b u _ y Hs H2 Ep ltac:(discriminate) Hy) as (c & Hc & Ec).
      apply (H4 c); auto; [|unfold names_below; rewrite Ec; exact Hm]. intros ->. destruct t; cbn in Ec; discriminate.
    + intros c Hc Ha. destruct (hits (prep_from PMatched p) (names_below t c)) eqn:E; auto. exfalso. apply (H4 c); auto. apply hits_sound in E. exact E.
Qed.

Lemma no_deep_first p names : no_deep p -> (matches p names <-> first_match p names).
Proof.
  intros Hd. unfold first_match. split; [|tauto]. intros H. split; auto. intros a b -> Hb Ha.
  apply matches_len in H; auto. apply matches_len in Ha; auto. rewrite app_length in H. destruct b; [congruence|cbn in H; lia].
Qed.
Lemma matches_nil p : matches p [] -> forall st, In st p -> st = StDeep.
Proof.
  remember [] as names eqn:E. intros H. induction H as [|st0 p n names Ho H IH|p ns names H IH]; intros st Hi; [destruct Hi|discriminate|].
  apply app_eq_nil in E as [-> ->]. destruct Hi as [<-|Hi]; auto.
Qed.

Lemma select_no_deep p t : no_alt p -> no_deep p -> p <> [] -> is_element t ->
  exists l, select_pattern t p = (l, false) /\ listing t (fun b u => b <> [] /\ is_element u /\ matches p (names_below t b)) l.
Proof.
  intros Ha Hd Hp (n & a & ks & ->). eexists. split; [apply select_pattern_found; auto using no_deep_ends|].
  eapply listing_ext; [|apply over_found_listing]. intros b u Hs. rewrite (selected_iff p _ b u); auto.
  - unfold selected. split; intros H; [tauto|]. destruct H as (H1 & H2 & H3). do 3 (split; [auto|]). intros c Hc Hab Hm.
    destruct (path_names_above _ _ _ _ Hs H2 Hab) as (r & Er & Hr). apply matches_len in H3, Hm; auto. unfold names_below in *. rewrite Er in H3.
    destruct (path_names (XE n a ks) c) eqn:Ec; [destruct c; discriminate|]. cbn [tl app] in *. rewrite app_length in H3. destruct r; [congruence|cbn in H3; lia].
  - intros ->. apply Hd. left; auto.
  - intros names _. rewrite hits_exact by auto. apply no_deep_first; auto.
  - intros Hm. destruct p as [|st p]; [congruence|]. apply (Hd). rewrite <- (matches_nil _ Hm st (or_introl eq_refl)). left; auto.
Qed.
Lemma select_deep_last pre st t : no_alt (pre ++ [st]) -> no_deep (pre ++ [st]) -> is_element t ->
  exists l, select_pattern t (pre ++ [StDeep; st]) = (l, false) /\ listing t (selected (pre ++ [StDeep; st]) t) l.
Proof.
  intros Ha Hd (n & a & ks & ->).
  assert (Hst : st <> StDeep) by (intros ->; apply Hd, in_or_app; right; left; auto).
  assert (Hpre : no_deep pre) by (intros Hi; apply Hd, in_or_app; left; auto).
  assert (Hp : pre ++ [StDeep; st] <> []) by (destruct pre; discriminate).
  eexists. split.
  - apply select_pattern_found; auto.
    + intros ns Hi. apply in_app_or in Hi as [Hi|[Hi|[Hi|[]]]]; [|discriminate|].
      * apply (Ha ns), in_or_app; auto.
      * apply (Ha ns), in_or_app. right; left; auto.
    + intros (q & E). change [StDeep; st] with ([StDeep] ++ [st]) in E. rewrite app_assoc in E. apply app_inj_tail in E as [_ E]. auto.
  - eapply listing_ext; [|apply over_found_listing]. intros b u Hs. apply selected_iff; auto.
    + intros E. destruct pre as [|? [|]]; discriminate.
    + intros names _. apply hits_deep_last; auto.
    + intros Hm. apply Hst. apply (matches_nil _ Hm). apply in_or_app. right; right; left; auto.
Qed.
Lemma select_sound p t b u : no_alt p -> ~ ends_deep p -> p <> [] -> In (b, u) (fst (select_pattern t p)) ->
  subtree t b = Some u /\ b <> [] /\ is_element u /\ matches p (names_below t b).
Proof.
  intros Ha He Hp Hi. destruct t as [n a ks|x].
  - rewrite select_pattern_found in Hi by auto. cbn [fst] in Hi. apply (proj2 (over_found_listing _ n a ks)) in Hi as (H1 & H2 & H3 & H4 & _). auto using hits_sound.
  - unfold select_pattern in Hi. rewrite no_alt_bad in Hi by auto. destruct Hi.
Qed.
Lemma select_alt p n ns t : In (StAlt (n :: ns)) p -> select_pattern t p = ([], true).
Proof. intros H. unfold select_pattern. replace (existsb bad_stage p) with true; auto. symmetry. apply existsb_exists. eauto. Qed.

(** A trailing '**' selects nothing. *)
Lemma ends_deep_hits names : forall p, ends_deep p -> hits (prep_from PMatched p) names = false.
Proof.
  assert (K : forall p n, ends_deep p -> match pst_step (prep_from PMatched p) n with SState s => exists q, s = prep_from PMatched q /\ ends_deep q | _ => True end).
  { intros p n (q & ->). induction q as [|st q IH]; cbn [app prep_from fold_right]; [exact I|].
    destruct (stage_dec st) as [->|Hd].
    - change (pst_step (prep_stage StDeep (fold_right prep_stage PMatched (q ++ [StDeep]))) n) with
        (match pst_step (prep_from PMatched (q ++ [StDeep])) n with SNone => SState (PUntil (prep_from PMatched (q ++ [StDeep]))) | r => r end).
      destruct (pst_step (prep_from PMatched (q ++ [StDeep])) n); auto. exists ((StDeep :: q) ++ [StDeep]). split; [reflexivity|eexists; reflexivity].
    - destruct (stage_ok_dec st n) as [Ho|Ho]; [rewrite stage_ok_spec by auto|rewrite stage_no_spec by auto; exact I].
      exists (q ++ [StDeep]). split; [reflexivity|eexists; reflexivity]. }
  induction names as [|n names IH]; intros p He; [reflexivity|]. cbn [hits]. specialize (K p n He).
  destruct (pst_step (prep_from PMatched p) n) as [| |s]; auto. destruct K as (q & -> & Hq).
  specialize (IH q Hq). destruct (prep_from PMatched q) eqn:E; auto. apply prep_matched in E as ->. destruct Hq as (q & E). destruct q; discriminate.
Qed.
Lemma sel_kids_nil f ks : (forall k, In k ks -> fst (f k) = []) -> forall i, fst (sel_kids f i ks) = [].
Proof.
  induction ks as [|k ks IH]; intros H i; cbn [sel_kids]; auto. specialize (H k (or_introl eq_refl)) as Hk. destruct (f k) as [l e]. cbn in Hk; subst.
  destruct e; auto. specialize (IH ltac:(intros; apply H; right; auto) (S i)). destruct (sel_kids f (S i) ks); auto.
Qed.
Lemma select_state_none t : forall s, (forall names, hits s names = false) -> fst (select_state t s) = [].
Proof.
  induction t as [n a ks IH|x] using xtree_ind'; intros s Hs; cbn [select_state]; [|reflexivity]. apply sel_kids_nil. rewrite Forall_forall in IH.
  intros k Hk. destruct k as [n' a' ks'|x]; cbn [node_step].
  - destruct (pst_step s n') as [| |s'] eqn:E; auto. destruct (match s' with PMatched => true | _ => false end) eqn:Em.
    + exfalso. specialize (Hs [n']). cbn in Hs. rewrite E in Hs. destruct s'; discriminate.
    + replace (match s' with PMatched => ([([], XE n' a' ks')], false) | _ => select_state (XE n' a' ks') s' end)
          with (select_state (XE n' a' ks') s') by (destruct s'; auto; discriminate). apply IH; auto.
      intros names. rewrite <- (hits_cons s n' s' names E); auto. intros ->; discriminate.
  - destruct s; auto.
Qed.
Lemma select_trailing p t : ends_deep p -> fst (select_pattern t p) = [].
Proof. intros H. unfold select_pattern. destruct (existsb bad_stage p); auto. apply select_state_none. intros. apply ends_deep_hits; auto. Qed.

(** ** make_pretty *)
Lemma isspace_spec c : py_isspace c = true <-> In c space_chars.
Proof.
  unfold py_isspace. split.
  - intros H. repeat rewrite Bool.orb_true_iff in H. repeat rewrite Bool.andb_true_iff in H. rewrite ?N.leb_le, ?N.eqb_eq in H.
    destruct (N.le_gt_cases c 12288); [|lia].
    assert (Hc : (c = 9 \/ c = 10 \/ c = 11 \/ c = 12 \/ c = 13 \/ c = 28 \/ c = 29 \/ c = 30 \/ c = 31 \/ c = 32 \/ c = 133 \/ c = 160 \/ c = 5760
      \/ c = 8192 \/ c = 8193 \/ c = 8194 \/ c = 8195 \/ c = 8196 \/ c = 8197 \/ c = 8198 \/ c = 8199 \/ c = 8200 \/ c = 8201 \/ c = 8202
      \/ c = 8232 \/ c = 8233 \/ c = 8239 \/ c = 8287 \/ c = 12288)%N) by lia.
    unfold space_chars. cbn [In]. intuition auto.
  - unfold space_chars. cbn [In]. intros H. repeat destruct H as [<-|H]; try reflexivity. destruct H.
Qed.
Lemma blank_spec s : blankb s = true <-> space s.
Proof. unfold blankb, space. rewrite forallb_forall. split; intros H c Hc; apply isspace_spec; auto. Qed.
Lemma blank_dec s : space s \/ ~ space s.
Proof. destruct (blankb s) eqn:E; [left; apply blank_spec; auto|right; rewrite <- blank_spec; congruence]. Qed.
Lemma space_line ind d : space ind -> space (c_nl :: str_repeat ind d).
Proof.
  intros H c [<-|Hc]; [cbn; auto|]. induction d as [|d IH]; cbn in Hc; [destruct Hc|]. apply in_app_or in Hc as [Hc|Hc]; auto.
Qed.
Lemma space_default : space default_indent.
Proof. apply blank_spec. reflexivity. Qed.

(** The elements below are unaffected by the indent argument. *)
Lemma pretty_elems f ind d ks : forall ix, (forall k, is_elemb (f k) = is_elemb k) ->
  filter is_elemb (pretty_kids f ind d ix ks) = map f (filter is_elemb ks).
Proof.
  intros ix H. revert ix. induction ks as [|k ks IH]; intros ix; cbn [pretty_kids].
  - destruct (Nat.even ix); reflexivity.
  - destruct k as [n a ks'|s].
    + destruct (Nat.odd ix); cbn [filter is_elemb ind_text map]; rewrite H; cbn [is_elemb]; rewrite IH; reflexivity.
    + destruct (blankb s); cbn [filter is_elemb ind_text]; apply IH.
Qed.
Lemma make_pretty_elem d ind k : is_elemb (make_pretty d ind k) = is_elemb k.
Proof. destruct k; reflexivity. Qed.

Lemma un_text_inv s k : unspaced (XT s) k -> k = XT s /\ ~ space s.
Proof. intros H. inversion H; auto. Qed.
Lemma un_elem_inv n a ks k : unspaced (XE n a ks) k -> exists ks', k = XE n a ks' /\ unspaced_all ks ks'.
Proof. intros H. inversion H; eauto. Qed.
(** What is not white space stays. *)
Lemma pretty_unspaced t : forall d ind t', space ind -> is_element t -> (unspaced (make_pretty d ind t) t' <-> unspaced t t').
Proof.
  induction t as [n a ks IH|s] using xtree_ind'; intros d ind t' Hi Ht; [|destruct Ht as (? & ? & ? & ?); discriminate].
  cbn [make_pretty].
  assert (K : forall ks' ix, unspaced_all (pretty_kids (make_pretty (S d) default_indent) ind (S d) ix ks) ks' <-> unspaced_all ks ks').
  { clear Ht t'. induction IH as [|k ks Hk _ IHk]; intros ks' ix; cbn [pretty_kids].
    - destruct (Nat.even ix); [|tauto]. split; intros H.
      + inversion H as [|s0 k0 k0' Hs H0|k0 k0' l0 l0' Hk0 H0]; subst; [exact H0|]. apply un_text_inv in Hk0 as [_ Hk0]. exfalso. apply Hk0. apply space_line; auto.
      + apply ua_blank; auto. apply space_line; auto.
    - destruct k as [n' a' ks0|s].
      + assert (E : is_element (XE n' a' ks0)) by (repeat eexists).
        assert (Kk : forall l l' ix', (unspaced_all (make_pretty (S d) default_indent (XE n' a' ks0) :: pretty_kids (make_pretty (S d) default_indent) ind (S d) ix' l) l') ->
                   exists k' r, l' = k' :: r /\ unspaced (XE n' a' ks0) k' /\ unspaced_all (pretty_kids (make_pretty (S d) default_indent) ind (S d) ix' l) r).
        { intros l l' ix' H. inversion H as [|s0 k0 k0' Hs H0|k0 k0' l0 l0' Hk0 H0]; subst. exists k0', l0'. split; auto. split; auto. apply Hk in Hk0; auto using space_default. }
        destruct (Nat.odd ix); split; intros H.
        * apply Kk in H as (k' & r & -> & H1 & H2). apply ua_keep; auto. apply IHk in H2. auto.
        * inversion H as [|s0 k0 k0' Hs H0|k0 k0' l0 l0' Hk0 H0]; subst. apply ua_keep; [apply Hk; auto using space_default|]. apply IHk; auto.
        * inversion H as [|s0 k0 k0' Hs H0|k0 k0' l0 l0' Hk0 H0]; subst.
          -- apply Kk in H0 as (k' & r & -> & H1 & H2). apply ua_keep; auto. apply IHk in H2. auto.
          -- apply un_text_inv in Hk0 as [_ Hk0]. exfalso. apply Hk0. apply space_line; auto.
        * inversion H as [|s0 k0 k0' Hs H0|k0 k0' l0 l0' Hk0 H0]; subst. apply ua_blank; [apply space_line; auto|]. apply ua_keep; [apply Hk; auto using space_default|]. apply IHk; auto.
      + destruct (blankb s) eqn:Eb.
        * apply blank_spec in Eb. split; intros H.
          -- apply ua_blank; auto. inversion H as [|s0 k0 k0' Hs H0|k0 k0' l0 l0' Hk0 H0]; subst; [apply IHk in H0; auto|].
             apply un_text_inv in Hk0 as [_ Hk0]. exfalso. apply Hk0. apply space_line; auto.
          -- apply ua_blank; [apply space_line; auto|]. inversion H as [|s0 k0 k0' Hs H0|k0 k0' l0 l0' Hk0 H0]; subst; [apply IHk; auto|]. apply un_text_inv in Hk0 as [_ Hk0]. tauto.
        * assert (Hs : ~ space s) by (rewrite <- blank_spec; congruence). split; intros H.
          -- inversion H as [|s0 k0 k0' Hs0 H0|k0 k0' l0 l0' Hk0 H0]; subst; [tauto|]. apply ua_keep; auto. apply IHk in H0; auto.
          -- inversion H as [|s0 k0 k0' Hs0 H0|k0 k0' l0 l0' Hk0 H0]; subst; [tauto|]. apply ua_keep; auto. apply IHk; auto. }
  split; intros H; apply un_elem_inv in H as (l & -> & H); constructor; apply K in H || apply K; auto.
Qed.
(** [unspaced] is a total function. *)
Lemma unspaced_total t : is_element t -> exists t', unspaced t t'.
Proof.
  induction t as [n a ks IH|s] using xtree_ind'; intros H; [|destruct H as (? & ? & ? & ?); discriminate]. clear H.
  assert (K : exists ks', unspaced_all ks ks').
  { induction IH as [|k ks Hk _ (ks' & IHk)]; [eexists; constructor|]. destruct k as [n' a' l|s].
    - destruct Hk as (k' & Hk'); [repeat eexists|]. exists (k' :: ks'). apply ua_keep; auto.
    - destruct (blank_dec s); [exists ks'; apply ua_blank; auto|]. exists (XT s :: ks'). apply ua_keep; auto. constructor; auto. }
  destruct K as (ks' & K). eexists. constructor; eauto.
Qed.
Lemma unspaced_fun t : forall t1 t2, unspaced t t1 -> unspaced t t2 -> t1 = t2.
Proof.
  intros t1 t2 H. revert t2. induction H using unspaced_mut with
    (P0 := fun ks ks1 => forall ks2, unspaced_all ks ks2 -> ks1 = ks2); intros t2 H2.
  - inversion H2; subst. f_equal. auto.
  - inversion H2; auto.
  - inversion H2; auto.
  - inversion H2; subst; auto. inversion H4; subst. tauto.
  - inversion H2; subst; [inversion H; subst; tauto|]. f_equal; auto.
Qed.

(** Every text node is an old one that is not white space, or a line break. *)
Lemma pretty_texts d ind n a ks s : In (XT s) (match make_pretty d ind (XE n a ks) with XE _ _ l => l | XT _ => [] end) ->
  (~ space s /\ In (XT s) ks) \/ XT s = line ind (S d) \/ XT s = line ind d.
Proof.
  assert (L : forall k, ind_text ind k = line ind k) by (intros k; unfold ind_text, line; f_equal; f_equal; induction k as [|k IH]; cbn; congruence).
  cbn [make_pretty]. generalize 0. induction ks as [|k ks IH]; intros ix; cbn [pretty_kids].
  - replace (S d - 1) with d by lia. destruct (Nat.even ix); [|intros []]. intros [H|[]]. rewrite L in H. auto.
  - destruct k as [n' a' l|s'].
    + destruct (Nat.odd ix).
      * intros [H|H]; [discriminate|]. destruct (IH _ H) as [[H1 H2]|H1]; auto. left. split; auto. right; auto.
      * intros [H|[H|H]]; [rewrite L in H; auto|discriminate|]. destruct (IH _ H) as [[H1 H2]|H1]; auto. left. split; auto. right; auto.
    + intros [H|H].
      * destruct (blankb s') eqn:E; [rewrite L in H; auto|]. inversion H; subst. left. rewrite <- blank_spec. split; [congruence|left; auto].
      * destruct (IH _ H) as [[H1 H2]|H1]; auto. left. split; auto. right; auto.
Qed.

(** Layout of data. *)
Lemma str_repeat_concat ind k : str_repeat ind k = concat (repeat ind k).
Proof. induction k as [|k IH]; cbn; congruence. Qed.
Lemma pretty_layout t : data_tree t -> forall d, laid_out default_indent d t (make_pretty d default_indent t).
Proof.
  induction t as [n a ks IH|s] using xtree_ind'; intros H d; [|inversion H].
  inversion H as [n0 a0 ks0 Hk|n0 a0 s Hs]; subst.
  - cbn [make_pretty]. apply lo_kids; [intros k Hi; apply Hk; auto|].
    assert (K : forall ix, Nat.even ix = true -> laid_kids default_indent d ks (pretty_kids (make_pretty (S d) default_indent) default_indent (S d) ix ks)); [|apply K; reflexivity].
    clear H. induction IH as [|k ks Hd _ IHk]; intros ix Hx; cbn [pretty_kids].
    + rewrite Hx. replace (S d - 1) with d by lia. unfold ind_text. rewrite str_repeat_concat. constructor.
    + destruct (Hk k (or_introl eq_refl)) as [(n' & a' & l & ->) Hdt]. rewrite <- Nat.negb_even, Hx. cbn [negb]. unfold ind_text. rewrite str_repeat_concat.
      apply lk_kid; [apply Hd; auto|]. apply IHk; [intros; apply Hk; right; auto|]. rewrite Nat.even_add, Hx. reflexivity.
  - cbn [make_pretty pretty_kids]. rewrite <- blank_spec in Hs. destruct (blankb s); [congruence|]. cbn. constructor.
Qed.

(** The third application changes nothing more. *)
Section Again.
  Variables (f : xtree -> xtree) (ind : str) (d : nat).
  Hypothesis f_elem : forall k, is_elemb (f k) = is_elemb k.
  Hypothesis ind_sp : space ind.
  Definition again (k : xtree) : xtree := match k with XE _ _ _ => f k | XT s => if blankb s then ind_text ind d else XT s end.
  (** A list with every element at an odd position and of odd length is treated node by node. *)
  Inductive alternating : nat -> list xtree -> Prop :=
  | al_nil ix : Nat.odd ix = true -> alternating ix []
  | al_elem ix n a ks r : Nat.odd ix = true -> alternating (S ix) r -> alternating ix (XE n a ks :: r)
  | al_text ix s r : alternating (S ix) r -> alternating ix (XT s :: r).
  Lemma pretty_alternating ks : forall ix, alternating ix (pretty_kids f ind d ix ks).
  Proof.
    assert (E : forall k, exists n a l, k = XE n a l \/ exists s, k = XT s) by (intros [n a l|s]; [exists n, a, l; auto|exists [], [], []; right; eauto]).
    induction ks as [|k ks IH]; intros ix; cbn [pretty_kids].
    - destruct (Nat.even ix) eqn:Ex.
      + apply al_text. apply al_nil. rewrite Nat.odd_succ. auto.
      + apply al_nil. rewrite <- Nat.negb_even, Ex. auto.
    - destruct k as [n a l|s].
      + specialize (f_elem (XE n a l)) as Hf. destruct (f (XE n a l)) as [n' a' l'|]; [|discriminate]. destruct (Nat.odd ix) eqn:Ex.
        * rewrite Nat.add_1_r. apply al_elem; [auto|apply IH].
        * apply al_text. apply al_elem; [rewrite Nat.odd_succ, <- Nat.negb_odd, Ex; auto|]. replace (ix + 2) with (S (S ix)) by lia. apply IH.
      + rewrite Nat.add_1_r. destruct (blankb s); apply al_text; apply IH.
  Qed.
  Lemma pretty_again ks : forall ix, alternating ix ks -> pretty_kids f ind d ix ks = map again ks.
  Proof.
    induction ks as [|k ks IH]; intros ix H; cbn [pretty_kids map].
    - inversion H; subst. rewrite <- Nat.negb_odd, H0. auto.
    - inversion H as [|ix0 n a l r Ho Hr|ix0 s r Hr]; subst.
      + rewrite Ho. rewrite Nat.add_1_r. cbn [again]. f_equal. auto.
      + rewrite Nat.add_1_r. cbn [again]. f_equal. auto.
  Qed.
  Lemma again_alternating ks : forall ix, alternating ix ks -> alternating ix (map again ks).
  Proof.
    induction ks as [|k ks IH]; intros ix H; cbn [map]; auto. inversion H; subst.
    - cbn [again]. specialize (f_elem (XE n a ks0)) as Hf. destruct (f (XE n a ks0)) as [n' a' l'|]; [|discriminate]. apply al_elem; auto.
    - cbn [again]. destruct (blankb s); apply al_text; auto.
  Qed.
End Again.
Lemma pretty_thrice t : forall d ind, space ind -> make_pretty d ind (make_pretty d ind (make_pretty d ind t)) = make_pretty d ind (make_pretty d ind t).
Proof.
  induction t as [n a ks IH|s] using xtree_ind'; intros d ind Hi; [|reflexivity]. cbn [make_pretty]. f_equal.
  set (f := make_pretty (S d) default_indent) in *.
  assert (Hf : forall k, is_elemb (f k) = is_elemb k) by (intros [|]; reflexivity).
  set (ks1 := pretty_kids f ind (S d) 0 ks). assert (A1 : alternating 0 ks1) by (apply pretty_alternating; auto).
  rewrite (pretty_again f ind (S d) ks1 0 A1). rewrite pretty_again by (apply again_alternating; auto).
  rewrite map_map. apply map_ext_in. intros k Hk.
  assert (Hin : is_elemb k = true -> exists k0, In k0 ks /\ k = f k0).
  { intros Ek. assert (Hx : In k (filter is_elemb ks1)) by (apply filter_In; auto). unfold ks1 in Hx. rewrite pretty_elems in Hx by auto.
    apply in_map_iff in Hx as (k0 & <- & H0). apply filter_In in H0 as [H0 _]. eauto. }
  destruct k as [n' a' l|s]; cbn [again].
  - destruct (Hin eq_refl) as (k0 & H0 & E). specialize (Hf (XE n' a' l)) as Hf'. destruct (f (XE n' a' l)) as [n2 a2 l2|] eqn:E2; [|discriminate].
    cbn [again]. rewrite <- E2, E. rewrite Forall_forall in IH. apply IH; auto. apply space_default.
  - destruct (blankb s) eqn:Eb; [|cbn [again]; rewrite Eb; reflexivity]. unfold ind_text at 1. cbn [again].
    rewrite (proj2 (blank_spec _) (space_line ind (S d) Hi)). reflexivity.
Qed.

(** The second application changes the indentation of the end tag. *)
Lemma pretty_last f ind d ks : (forall k, In k ks -> is_element k) -> forall ix, Nat.even ix = true ->
  exists l, pretty_kids f ind d ix ks = l ++ [ind_text ind (d - 1)].
Proof.
  intros H. induction ks as [|k ks IH]; intros ix Hx; cbn [pretty_kids].
  - rewrite Hx. exists []. reflexivity.
  - destruct (H k (or_introl eq_refl)) as (n & a & l & ->). rewrite <- Nat.negb_even, Hx. cbn [negb].
    destruct (IH ltac:(intros; apply H; right; auto) (ix + 2)) as (l' & ->); [rewrite Nat.even_add, Hx; reflexivity|]. eexists (_ :: _ :: _). reflexivity.
Qed.
Lemma str_repeat_len ind k : length (str_repeat ind k) = k * length ind.
Proof. induction k as [|k IH]; cbn; auto. rewrite app_length, IH. lia. Qed.
Lemma pretty_not_idem d ind n a ks : space ind -> ind <> [] -> (forall k, In k ks -> is_element k) ->
  make_pretty d ind (make_pretty d ind (XE n a ks)) <> make_pretty d ind (XE n a ks).
Proof.
  intros Hi Hne Hk E. cbn [make_pretty] in E. inversion E as [E1]. clear E. set (f := make_pretty (S d) default_indent) in *.
  assert (Hf : forall k, is_elemb (f k) = is_elemb k) by (intros [|]; reflexivity).
  rewrite pretty_again in E1 by (apply pretty_alternating; auto).
  destruct (pretty_last f ind (S d) ks Hk 0 eq_refl) as (l & El). rewrite El in E1. rewrite map_app in E1. cbn [map] in E1.
  apply app_inj_tail in E1 as [_ E1]. unfold ind_text at 1 in E1. cbn [again] in E1.
  rewrite (proj2 (blank_spec _) (space_line ind (S d - 1) Hi)) in E1. unfold ind_text in E1. inversion E1 as [E2].
  apply (f_equal (@length N)) in E2. change (ind ++ str_repeat ind d) with (str_repeat ind (S d)) in E2. rewrite Nat.sub_0_r in E2. rewrite !str_repeat_len in E2.
  destruct ind; [congruence|]. cbn in E2. lia.
Qed.

Lemma pretty_indent_ignored d ind1 ind2 n a ks ks1 ks2 :
  make_pretty d ind1 (XE n a ks) = XE n a ks1 -> make_pretty d ind2 (XE n a ks) = XE n a ks2 ->
  exists l, filtered is_element ks1 l /\ filtered is_element ks2 l.
Proof.
  intros H1 H2. cbn [make_pretty] in H1, H2. inversion H1; inversion H2; subst. clear H1 H2.
  exists (map (make_pretty (S d) default_indent) (filter is_elemb ks)).
  split; [rewrite <- (pretty_elems _ ind1 (S d) ks 0 (make_pretty_elem (S d) default_indent))
         |rewrite <- (pretty_elems _ ind2 (S d) ks 0 (make_pretty_elem (S d) default_indent))];
    apply filter_filtered; intros; apply is_elemb_spec.
Qed.
Lemma pretty_text_nodes d ind n a ks n' a' ks' s : make_pretty d ind (XE n a ks) = XE n' a' ks' -> In (XT s) ks' ->
  (~ space s /\ In (XT s) ks) \/ XT s = line ind (S d) \/ XT s = line ind d.
Proof. intros E H. apply (pretty_texts d ind n a). rewrite E. exact H. Qed.
