From Verif Require Import PyStr Parser XTree Tree Path TreeUtil TreeUtilFacts Heap Builder BuilderFacts HeapSpec HeapFacts BuilderMore RootCache RootSpec RootFacts.
From Verif Require Import DocOrder DocOrderSpec DocOrderFacts DocOrderInv DocOrderUse XPath XPathSpec XPathFacts XPathExpr HeapNav HeapNavSpec HeapNavFacts HeapEval HeapEvalSpec.

Lemma F2_all {A B} (P : A -> B -> Prop) l m : Forall2 P l m -> forall y, In y m -> exists x, In x l /\ P x y.
Proof. induction 1 as [|x y l m H _ IH]; intros z []; [subst; exists x; split; [left; auto|auto]|]. destruct (IH z H0) as (u & Hu & K). exists u. split; [right; auto|auto]. Qed.

Section Doc.
  Variable h : heap.
  Variable r : ref.
  Variable w : env.
  Hypothesis W : well_linked h.
  Hypothesis D : HeapNavSpec.document h r (doc w).
  Hypothesis El : is_element (doc w).
  Local Notation vst := (vstands h r).
  Local Notation vsm := (vsame h r).

  (** ** Items *)
  Definition birth_is (o : birth) (i : item) : Prop := forall a k s b, i = IAttr a k s b -> b = o.
  Lemma lift o l m : Forall2 (stands h r) l m -> Forall (birth_is o) l -> Forall2 vst l (map (fun z => Obj z o) m).
  Proof.
    induction 1 as [|x y l m H _ IH]; intros F; cbn [map]; [constructor|]. inversion F; subst. constructor; [|auto].
    destruct H as [q Hq|a i Hi|a i k s b Hi]; [constructor; auto|constructor; auto|]. rewrite (H2 a k s b eq_refl). constructor; auto.
  Qed.
  Lemma vst_obj x y o : vst x (Obj y o) -> stands h r x y /\ birth_is o x.
  Proof. intros H. inversion H; subst; (split; [constructor; auto|]); intros ? ? ? ? E; inversion E; reflexivity. Qed.
  Lemma size_ok : tree_size (doc w) <= nxt h.
  Proof. destruct D as [_ (ids & H)]. exact (size_bound h None r (doc w) ids W H). Qed.

  Lemma string_rel x y : vst x y -> as_str w x = vstring h y.
  Proof. intros H. destruct H; cbn [as_str vstring]; try reflexivity. exact (proj2 (rel_elem h r w D a i H)). Qed.
  Lemma node_rel x y : vst x y -> is_node x = vnode y.
  Proof. intros []; reflexivity. Qed.
  Lemma num_rel x y : vst x y -> as_num x = vnum y.
  Proof. intros []; reflexivity. Qed.
  Lemma true_rel x y : vst x y -> truthy w x = vtrue h y.
  Proof.
    intros H. pose proof (string_rel x y H) as S. unfold vtrue. rewrite <- S. destruct H; cbn [as_str truthy] in *; reflexivity.
  Qed.
  Lemma vcopy_rel x y i j : vst x y -> vst i j -> vst (copy w x i) (vcopy h y j).
  Proof. intros H Hi. unfold copy, vcopy. rewrite (true_rel i j Hi). destruct (vtrue h j); auto. Qed.

  (** ** Generators *)
  Lemma yield_rel x y : vst x y -> vsm (yield1 x) (vyield y). Proof. intros H. split; [constructor; auto|reflexivity]. Qed.
  Lemma nothing_vrel : vsm nothing vnothing. Proof. split; [constructor|reflexivity]. Qed.
  Lemma raise_vrel e : vsm (raise e) (vraise e). Proof. split; [constructor|reflexivity]. Qed.
  Lemma stop_rel f : vsm ([], f) ([], f). Proof. split; [constructor|reflexivity]. Qed.
  Lemma for_rel l m f k k' : Forall2 vst l m -> (forall i j, vst i j -> vsm (k i) (k' j)) -> vsm (bindl l f k) (vfor m f k').
  Proof.
    intros H K. induction H as [|x y l m Hx _ IH]; cbn [bindl vfor]; [apply stop_rel|]. destruct (K x y Hx) as [K1 K2].
    destruct (k x) as [l1 f1], (k' y) as [m1 g1]. cbn [fst snd] in *. subst g1. destruct IH as [I1 I2].
    destruct (bindl l f k) as [l2 f2], (vfor m f k') as [m2 g2]. cbn [fst snd] in *. subst g2.
    destruct f1; (split; [|reflexivity]); cbn [fst]; auto. apply F2_app; auto.
  Qed.
  Lemma then_rel a b a' b' : vsm a a' -> vsm b b' -> vsm (seq2 a b) (vthen a' b').
  Proof.
    destruct a as [l1 f1], a' as [m1 g1], b as [l2 f2], b' as [m2 g2]. intros [A1 A2] [B1 B2]. cbn [fst snd] in *. subst g1 g2. unfold seq2, vthen.
    destruct f1; (split; [|reflexivity]); cbn [fst]; auto. apply F2_app; auto.
  Qed.
  Lemma chain_rel l m : Forall2 vsm l m -> vsm (seq_all l) (vchain m).
  Proof. induction 1; cbn [seq_all vchain]; [apply nothing_vrel|]. apply then_rel; auto. Qed.
  Lemma next_rel a a' n n' k k' : vsm a a' -> vsm n n' -> (forall i j, In i (fst a) -> vst i j -> vsm (k i) (k' j)) -> vsm (first a n k) (vnext a' n' k').
  Proof.
    destruct a as [l f], a' as [m g]. intros [A1 A2] N K. cbn [fst snd] in *. subst g. unfold first, vnext. destruct A1 as [|x y l m Hx Hl]; [destruct f; auto using stop_rel|].
    apply K; [left; reflexivity|auto].
  Qed.
  Lemma list_rel a a' k k' : vsm a a' -> (forall m, Forall2 vst (fst a) m -> vsm (k (fst a)) (k' m)) -> vsm (collected a k) (vlist a' k').
  Proof.
    destruct a as [l f], a' as [m g]. intros [A1 A2] K. cbn [fst snd] in *. subst g. unfold collected, vlist. destruct f; [apply K; auto|apply stop_rel|apply stop_rel].
  Qed.

  (** ** Tests and steps *)
  Lemma test_known t x i : In i (fst (test w t x)) -> i = x.
  Proof.
    unfold test, yield1, nothing. destruct t as [|n| |]; [cbn; intros K; intuition congruence| | |].
    - destruct x; cbn; try tauto. destruct (node_at w a) as [[m ? ?|]|]; cbn; try tauto. destruct (str_eqb m n); cbn; intros K; intuition congruence.
    - destruct (_ || _); cbn; intros K; intuition congruence.
    - destruct (as_str w x); cbn; intros K; intuition congruence.
  Qed.
  Lemma vtest_rel t x y : vst x y -> vsm (test w t x) (vtest h t y).
  Proof.
    intros H. destruct y as [y o|s|z|f|b].
    - destruct (vst_obj x y o H) as [S B]. destruct (test_rel h r w D t x y S) as (l & E & F). cbn [vtest]. rewrite E. split; [|reflexivity]. apply lift; [exact F|].
      assert (G : forall i, In i l -> i = x).
      { intros i Hi. apply (test_known t x). rewrite E. exact Hi. }
      rewrite Forall_forall. intros i Hi. rewrite (G i Hi). exact B.
    - inversion H; subst. destruct t; cbn; auto using nothing_vrel, yield_rel.
    - inversion H; subst. destruct t; cbn; auto using nothing_vrel, yield_rel.
    - inversion H; subst. destruct t; cbn; auto using nothing_vrel, yield_rel.
    - inversion H; subst. destruct t; cbn; auto using nothing_vrel, yield_rel.
  Qed.
  (** What a step yields is new, a node, the root, or the context item. *)
  Definition known (x i : item) : Prop := i = x \/ i = IRoot \/ exists a, i = INode a.
  Lemma bindl_in l f k i : In i (fst (bindl l f k)) -> exists x, In x l /\ In i (fst (k x)).
  Proof.
    induction l as [|x l IH]; cbn [bindl]; [intros []|]. destruct (k x) as [l1 f1] eqn:E. destruct f1.
    - destruct (bindl l f k) as [l2 f2] eqn:E2. cbn [fst] in *. intros H. apply in_app_iff in H as [H|H].
      + exists x. rewrite E. split; [left; auto|auto].
      + destruct (IH H) as (y & Hy & K). exists y. split; [right; auto|auto].
    - cbn [fst]. intros H. exists x. rewrite E. split; [left; auto|auto].
    - cbn [fst]. intros H. exists x. rewrite E. split; [left; auto|auto].
  Qed.
  Lemma test_all_known t x l i : In i (fst (test_all w t x l)) -> known x i.
  Proof.
    unfold test_all. intros H. apply bindl_in in H as (y & Hy & K). apply in_map_iff in Hy as (a & <- & _). apply test_known in K. subst i.
    unfold copy. destruct (truthy w (INode a)); [right; right; eauto|left; auto].
  Qed.
  Lemma seq2_in a b i : In i (fst (seq2 a b)) -> In i (fst a) \/ In i (fst b).
  Proof. destruct a as [l f], b as [m g]. unfold seq2. destruct f; cbn [fst]; intros H; auto. apply in_app_iff in H. exact H. Qed.
  Lemma with_root_in x k i : In i (fst (with_root w x k)) -> exists q, root_of w x = Some q /\ q = IRoot /\ In i (fst (k q)).
  Proof.
    unfold with_root. destruct (root_of w x) as [q|] eqn:E; [|intros []]. intros H. exists q. split; [auto|]. split; [|auto].
    destruct x; cbn in E; try discriminate; try congruence. destruct (is_elem_at w a); congruence.
  Qed.
  Lemma step_known fuel ax t x i : ax <> AxAttribute -> In i (fst (step w fuel ax t x)) -> known x i.
  Proof.
    intros Hx. destruct ax; cbn [step]; intros H; try congruence.
    - left. apply test_known in H. auto.
    - destruct (kids w x); [|destruct H]. eapply test_all_known; eauto.
    - destruct (parent x) as [p|]; [|destruct H]. apply seq2_in in H as [H|H]; [eapply test_all_known; eauto|]. apply with_root_in in H as (q & _ & -> & [<-|[]]). right; left; auto.
    - apply seq2_in in H as [H|H]; [left; apply test_known in H; auto|]. destruct (parent x) as [[p|]|]; [|destruct H|destruct H].
      destruct (test_all w t x (repeat p fuel)) as [l f] eqn:E. cbn [fst] in H. apply (test_all_known t x (repeat p fuel)). rewrite E. exact H.
    - destruct (kids w x); [|destruct H]. eapply test_all_known; eauto.
    - apply seq2_in in H as [H|H]; [left; apply test_known in H; auto|]. destruct (kids w x); [|destruct H]. eapply test_all_known; eauto.
    - destruct (parent x) as [[p|]|]; [|destruct H|destruct H]. destruct (sibling_index w p x); [|destruct H]. eapply test_all_known; eauto.
    - destruct (parent x) as [[p|]|]; [|destruct H|destruct H]. destruct (sibling_index w p x); [|destruct H]. eapply test_all_known; eauto.
    - destruct (parent x) as [[p|]|]; [| |destruct H]; [eapply test_all_known; eauto|]. apply with_root_in in H as (q & _ & -> & [<-|[]]). right; left; auto.
    - destruct (parent x) as [[p|]|]; [|destruct H|destruct H]. destruct (sibling_index w p x); destruct H.
    - destruct (parent x) as [[p|]|]; [|destruct H|destruct H]. destruct (sibling_index w p x); [|destruct H]. eapply test_all_known; eauto.
  Qed.
  Lemma attr_made fuel t x i : In i (fst (step w fuel AxAttribute t x)) -> birth_is Made i.
  Proof.
    cbn [step]. destruct x as [|a|a k s b|s|z|f|b]; try (intros []; fail). destruct (node_at w a) as [[n ats ks|]|]; try (intros []; fail).
    cbn [fst]. intros H. apply in_map_iff in H as (kv & <- & _). intros ? ? ? ? E. inversion E; reflexivity.
  Qed.

  Section Root.
    Variable c : hval -> rcache.
    Hypothesis Hc : forall x, cache_ok h (c x).

    Lemma step_base fuel ax t x y o : stands h r x y -> same_res h r (step w fuel ax t x) (hstep h (c (Obj y o)) (match ax with AxAncestorOrSelf => fuel | _ => nxt h end) ax t y).
    Proof.
      intros S. destruct ax; lazymatch goal with |- same_res _ _ (step _ _ AxAncestorOrSelf _ _) _ => idtac | |- same_res _ _ (step _ _ ?a _ _) _ => exact (step_rel h r w W D (c (Obj y o)) (Hc _) (nxt h) a t x y S size_ok) end.
      destruct (test_rel h r w D t x y S) as (lt & Et & Ft). pose proof (parent_rel h r w W D x y S) as Pa. cbn [step hstep]. rewrite Et.
      destruct (parent x) as [[p|]|]; [| |contradiction].
      - destruct Pa as (i & -> & Hi). destruct (test_all_rel h r w D t x y (repeat p fuel) (repeat i fuel) S (F2_repeat (HeapNavFacts.rel h r) p i fuel Hi)) as (l' & -> & F').
        split; [|reflexivity]. cbn [seq2 fst]. apply F2_app; auto.
      - rewrite Pa. split; [|reflexivity]. cbn. rewrite app_nil_r. exact Ft.
    Qed.
    Lemma vstep_rel fuel ax t x y : vst x y -> vsm (step w fuel ax t x) (vstep h c fuel ax t y).
    Proof.
      intros H. destruct y as [y o|s|z|f|b].
      - destruct (vst_obj x y o H) as [S B]. destruct (step_base fuel ax t x y o S) as [S1 S2]. cbn [vstep].
        destruct (hstep h (c (Obj y o)) _ ax t y) as [m g]. cbn [fst snd] in *. split; [|exact S2]. cbn [fst]. apply lift; [exact S1|].
        rewrite Forall_forall. intros i Hi. assert (Dec : ax = AxAttribute \/ ax <> AxAttribute) by (destruct ax; (left; reflexivity) || (right; discriminate)). destruct Dec as [->|Hn]; [eapply attr_made; eauto|].
        replace (match ax with AxAttribute => Made | _ => o end) with o by (destruct ax; congruence).
        destruct (step_known fuel ax t x i Hn Hi) as [->|[->|(a & ->)]]; [exact B|intros ? ? ? ? E; discriminate E|intros ? ? ? ? E; discriminate E].
      - inversion H; subst. destruct ax; cbn [vstep step parent kids sibling_index]; first [apply raise_vrel|apply nothing_vrel|apply vtest_rel; auto|apply then_rel; [apply vtest_rel; auto|apply raise_vrel]].
      - inversion H; subst. destruct ax; cbn [vstep step parent kids sibling_index]; first [apply raise_vrel|apply nothing_vrel|apply vtest_rel; auto|apply then_rel; [apply vtest_rel; auto|apply raise_vrel]].
      - inversion H; subst. destruct ax; cbn [vstep step parent kids sibling_index]; first [apply raise_vrel|apply nothing_vrel|apply vtest_rel; auto|apply then_rel; [apply vtest_rel; auto|apply raise_vrel]].
      - inversion H; subst. destruct ax; cbn [vstep step parent kids sibling_index]; first [apply raise_vrel|apply nothing_vrel|apply vtest_rel; auto|apply then_rel; [apply vtest_rel; auto|apply raise_vrel]].
    Qed.
    Lemma vabbrev_rel up x y : vst x y -> vsm (abbrev w up x) (vabbrev h c up y).
    Proof.
      intros H. destruct y as [y o|s|z|f|b].
      - destruct (vst_obj x y o H) as [S B]. destruct (abbrev_rel h r w W D (c (Obj y o)) (Hc _) up x y S) as [S1 S2]. cbn [vabbrev].
        destruct (habbrev h (c (Obj y o)) up y) as [m g]. cbn [fst snd] in *. split; [|exact S2]. cbn [fst]. apply lift; [exact S1|].
        rewrite Forall_forall. intros i Hi. unfold abbrev in Hi. destruct up; [|destruct Hi as [<-|[]]; exact B].
        destruct (parent x) as [[p|]|]; [destruct Hi as [<-|[]]; intros ? ? ? ? E; discriminate E| |destruct Hi].
        apply with_root_in in Hi as (q & _ & -> & [<-|[]]). intros ? ? ? ? E; discriminate E.
      - inversion H; subst. destruct up; cbn; [apply raise_vrel|apply yield_rel; auto].
      - inversion H; subst. destruct up; cbn; [apply raise_vrel|apply yield_rel; auto].
      - inversion H; subst. destruct up; cbn; [apply raise_vrel|apply yield_rel; auto].
      - inversion H; subst. destruct up; cbn; [apply raise_vrel|apply yield_rel; auto].
    Qed.
    Lemma vroot_rel x y k k' : vst x y -> (forall q, docelem q = r -> vsm (k IRoot) (k' q)) -> vsm (with_root w x k) (vroot h c y k').
    Proof.
      intros H K. destruct y as [y o|s|z|f|b].
      - destruct (vst_obj x y o H) as [S B]. destruct (root_rel h r w W D (c (Obj y o)) (Hc _) x y S) as [S1 S2]. cbn [vroot]. unfold with_root in *.
        destruct (root_of w x) as [q0|] eqn:E.
        + assert (q0 = IRoot) as -> by (destruct x; cbn in E; try discriminate; try congruence; destruct (is_elem_at w a); congruence).
          destruct (hroot h (c (Obj y o)) y) as [m g]. cbn [fst snd yield1] in *. inversion S1 as [|? ? ? ? S3 S4]; subst. inversion S3; subst. apply K. reflexivity.
        + destruct (hroot h (c (Obj y o)) y) as [m g]. cbn [fst snd raise] in *. inversion S1; subst. apply raise_vrel.
      - inversion H; subst. apply raise_vrel.
      - inversion H; subst. apply raise_vrel.
      - inversion H; subst. apply raise_vrel.
      - inversion H; subst. apply raise_vrel.
    Qed.
  End Root.

  (** ** Values *)
  Lemma value_ok : (forall p i t ids, holds h p i t ids -> forall n, tree_size t <= n -> value_of h n i = xml_value t) /\
    (forall q is ts ids, holds_all h q is ts ids -> forall n, (forall t, In t ts -> tree_size t <= n) -> map (value_of h n) is = map xml_value ts).
  Proof.
    apply holds_both.
    - intros p i n a is ks idss Hi Ha IH m Hm. destruct m as [|m]; [cbn in Hm; lia|]. cbn [value_of xml_value]. rewrite Hi. rewrite IH; [reflexivity|].
      intros t Ht. apply size_in in Ht. cbn [tree_size] in Hm. lia.
    - intros p i s Hi m Hm. destruct m as [|m]; [cbn in Hm; lia|]. cbn [value_of]. rewrite Hi. reflexivity.
    - reflexivity.
    - intros q i is t ts ids idss Hh IH1 Ha IH2 m Hm. cbn [map]. rewrite IH1 by (apply Hm; left; auto). rewrite IH2 by (intros; apply Hm; right; auto). reflexivity.
  Qed.
  Definition kid_acc (k : xtree) : list str := match k with XT s => [xml_value k] | XE _ _ _ => strval_acc k end.
  Lemma acc_ok : (forall p i t ids, holds h p i t ids -> forall n, tree_size t <= n ->
      match hp h i with Some (OElem _ _ ks _) => acc_of h n ks | Some (OText s _) => [s] | None => [] end = kid_acc t) /\
    (forall q is ts ids, holds_all h q is ts ids -> forall n, (forall t, In t ts -> tree_size t <= n) -> acc_of h (S n) is = flat_map kid_acc ts).
  Proof.
    apply holds_both.
    - intros p i n a is ks idss Hi Ha IH m Hm. rewrite Hi. destruct m as [|m]; [cbn in Hm; lia|]. cbn [kid_acc strval_acc]. apply IH.
      intros t Ht. apply size_in in Ht. cbn [tree_size] in Hm. lia.
    - intros p i s Hi m Hm. rewrite Hi. reflexivity.
    - reflexivity.
    - intros q i is t ts ids idss Hh IH1 Ha IH2 m Hm. specialize (IH2 m (fun t Ht => Hm t (or_intror Ht))). cbn [acc_of flat_map] in *. rewrite IH2.
      rewrite IH1 by (apply Hm; left; auto). reflexivity.
  Qed.
  Lemma value_rel x y : vst x y -> node_value w x = vvalue h y.
  Proof.
    intros H. destruct H as [q o Hq|a i o Hi|a i k s o Hi|s|z|f|b]; cbn [node_value vvalue]; try reflexivity. destruct (rel_holds h r w D a i Hi) as (u & q & ids & E & Hh).
    unfold node_at. rewrite E. cbn [option_map]. rewrite (proj1 value_ok _ _ _ _ Hh); [reflexivity|eapply size_bound; eauto].
  Qed.
  Lemma strval_rel x y : vst x y -> node_strval w x = vstrval h y.
  Proof.
    intros H. pose proof (value_rel x y H) as V. destruct H as [q o Hq|a i o Hi|a i k s o Hi|s|z|f|b]; cbn [node_strval vstrval]; try exact V; try reflexivity.
    destruct (rel_holds h r w D a i Hi) as (u & q & ids & E & Hh). unfold node_at. rewrite E. cbn [option_map].
    pose proof (proj1 acc_ok _ _ _ _ Hh (nxt h) ltac:(eapply size_bound; eauto)) as A. cbn [node_value] in V. unfold node_at in V. rewrite E in V. cbn [option_map] in V.
    inversion Hh as [p' j n at_ is ks idss Ho Ha|p' j s Ho]; subst; rewrite Ho in *; [|exact V]. unfold strval. rewrite A. reflexivity.
  Qed.
  Lemma to_string_rel x y : vst x y -> vst (to_string w x) (vto_string h w y).
  Proof.
    intros H. unfold to_string, vto_string. rewrite <- (string_rel x y H), <- (strval_rel x y H). destruct (as_str w x); [exact H|].
    destruct (node_strval w x) eqn:E; [constructor|]. destruct H; cbn; try constructor; auto; try discriminate E. destruct b; constructor.
  Qed.
  Lemma the_rel x y : vst x y -> str_of w x = vthe h y.
  Proof. intros H. unfold str_of, vthe. rewrite (string_rel x y H). reflexivity. Qed.
  Lemma float_rel s : vsm (or_raise (float_item w s)) (vfloat w s).
  Proof. unfold or_raise, float_item, vfloat. destruct (to_float w s); [apply yield_rel; constructor|apply raise_vrel]. Qed.
  Lemma to_number_rel x y : vst x y -> vsm (or_raise (to_number w x)) (vto_number h w y).
  Proof.
    intros H. unfold to_number, vto_number. rewrite <- (string_rel x y H), <- (strval_rel x y H). destruct (as_str w x); [apply float_rel|].
    destruct (node_strval w x); [apply float_rel|]. apply yield_rel; auto.
  Qed.
  Lemma to_boolean_rel x y : vst x y -> to_boolean w x = vto_boolean h y.
  Proof. intros H. unfold to_boolean, vto_boolean. rewrite <- (string_rel x y H), <- (node_rel x y H), <- (true_rel x y H). reflexivity. Qed.
  Lemma eq_rel x y i j : vst x y -> vst i j -> ~ (x = IRoot /\ i = IRoot) -> py_eq w x i = veq h y j.
  Proof.
    intros H Hi N. unfold py_eq, veq. rewrite <- (string_rel x y H), <- (string_rel i j Hi), <- (num_rel x y H), <- (num_rel i j Hi).
    destruct (as_str w x), (as_str w i); try reflexivity. destruct (as_num x), (as_num i); try reflexivity.
    destruct H as [| a i1 o Ha | | | | |], Hi as [| a' i2 o' Hb | | | | |]; try reflexivity; [destruct N; auto|]. destruct (list_eq_dec Nat.eq_dec a a') as [->|K]; symmetry; [apply Nat.eqb_eq; congruence|].
    apply Nat.eqb_neq. intros ->. apply K. exact (rel_inj h r w W D a a' i2 Ha Hb).
  Qed.
  Lemma cmp_rel x y i j : vst x y -> vst i j -> py_cmp w x i = vcmp h y j.
  Proof. intros H Hi. unfold py_cmp, vcmp. rewrite <- (string_rel x y H), <- (string_rel i j Hi), <- (num_rel x y H), <- (num_rel i j Hi). reflexivity. Qed.
  Lemma plain_rel x y : vst x y -> vst (plain w x) (vplain h y).
  Proof. intros H. unfold plain, vplain. rewrite <- (value_rel x y H). destruct (node_value w x); [constructor|exact H]. Qed.
  Lemma scan_rel x y l m f : vst x y -> Forall2 vst l m -> eq_scan w x l f = vscan h y m f.
  Proof.
    intros H. induction 1 as [|i j l m Hi _ IH]; cbn [eq_scan vscan]; [reflexivity|]. rewrite <- (node_rel i j Hi), <- IH.
    destruct (is_node i) eqn:E; [reflexivity|]. rewrite (eq_rel x y i j H Hi); [reflexivity|]. intros [_ ->]. discriminate E.
  Qed.
  Lemma equal_rel a a' b b' : vsm a a' -> vsm b b' -> vsm (equality w a b) (vequal h a' b').
  Proof.
    destruct a as [l f], a' as [m g]. intros [A1 A2] [B1 B2]. cbn [fst snd] in *. subst g. unfold equality, vequal. destruct A1 as [|x y l m Hx Hl].
    - destruct f; [apply yield_rel; constructor|apply stop_rel|apply stop_rel].
    - rewrite (scan_rel _ _ _ _ (snd b) (plain_rel x y Hx) B1), B2. destruct (vscan _ _ _ _) as [[|]|]; [apply yield_rel; constructor| |apply stop_rel].
      destruct f; [apply yield_rel; constructor|apply stop_rel|apply stop_rel].
  Qed.

  (** ** Unions *)
  Lemma rel_in h' a : forall q i, follow h' q a = Some i -> below h' q i.
  Proof.
    induction a as [|k a IH]; intros q i H; cbn [follow] in H; [injection H as <-; constructor|]. destruct (hp h' q) as [o|] eqn:E; [|discriminate].
    destruct (nth_error (okids o) k) as [j|] eqn:K; [|discriminate]. apply (below_child h' q j i); [exists o; split; [auto|]; eapply nth_error_In; eauto|auto].
  Qed.
  Lemma nth_left (l : list ref) i j x y : nth_error l i = Some x -> nth_error l j = Some y -> i < j -> left_of l x y.
  Proof.
    intros Hi Hj L. destruct (nth_error_split l i Hi) as (a & b & -> & <-). rewrite nth_error_app2 in Hj by lia. remember (j - length a) as d. destruct d as [|d]; [lia|].
    cbn [nth_error] in Hj. destruct (nth_error_split b d Hj) as (b1 & b2 & -> & _). exists a, b1, b2. reflexivity.
  Qed.
  Lemma before_rel a b : doc_before a b -> forall q i j, follow h q a = Some i -> follow h q b = Some j -> i <> j -> comes_before h i j.
  Proof.
    induction 1 as [k b|k l a b L|k a b _ IH]; intros q i j Hi Hj Hn.
    - injection Hi as <-. left. split; [auto|]. exact (rel_in h _ _ _ Hj).
    - cbn [follow] in Hi, Hj. destruct (hp h q) as [o|] eqn:E; [|discriminate]. destruct (nth_error (okids o) k) as [x|] eqn:Ek; [|discriminate].
      destruct (nth_error (okids o) l) as [y|] eqn:El'; [|discriminate]. right. exists q, o, x, y. split; [auto|]. split; [eapply nth_left; eauto|]. split; eapply rel_in; eauto.
    - cbn [follow] in Hi, Hj. destruct (hp h q) as [o|] eqn:E; [|discriminate]. destruct (nth_error (okids o) k) as [x|] eqn:Ek; [|discriminate]. eapply IH; eauto.
  Qed.
  Lemma rel_elem_is a i : follow h r a = Some i -> (is_elem h i <-> exists n ats ks, node_at w a = Some (XE n ats ks)).
  Proof.
    intros H. destruct (rel_holds h r w D a i H) as (u & q & ids & E & Hh). unfold node_at. rewrite E.
    inversion Hh as [p' j n at_ is ks idss Ho Ha|p' j s Ho]; subst; split.
    - intros _. eauto.
    - intros _. repeat eexists; eauto.
    - intros (? & ? & ? & ? & K). congruence.
    - intros (? & ? & ? & K). discriminate K.
  Qed.
  Lemma within_rel a i : follow h r a = Some i -> is_elem h i -> within h r i.
  Proof. intros H E. split; [eapply rel_in; eauto|auto]. Qed.
  Lemma top_elem : is_elem h r.
  Proof. apply (rel_elem_is [] r eq_refl). destruct El as (n & a & ks & E). unfold node_at. cbn [subtree]. rewrite E. eauto. Qed.
  Lemma tree_of_item x y : stands h r x y -> tree_of h (as_ditem y) r.
  Proof.
    intros H. destruct D as [P _]. destruct H as [q Hq|a i Hi|a i k s o Hi]; cbn [as_ditem tree_of].
    - split; [exact Hq|]. split; [apply top_elem|exact P].
    - split; [split; [eapply rel_in; eauto|exact P]|apply top_elem].
    - split; [split; [eapply rel_in; eauto|exact P]|apply top_elem].
  Qed.
  Lemma docorder_none a c : node_at w a = None \/ (exists s, node_at w a = Some (XT s)) -> docorder w c (INode a) = None.
  Proof.
    intros H. destruct (docorder w c (INode a)) as [x|] eqn:E; [|reflexivity]. exfalso. apply docorder_node in E as (k & -> & Hk). apply nth_error_In in Hk.
    destruct Hk as [<-|Hk].
    - destruct El as (n & ats & ks & E). unfold node_at in H. cbn [subtree] in H. rewrite E in H. destruct H as [H|(s & H)]; discriminate H.
    - apply in_map_iff in Hk as ([b u] & Eb & Hi). cbn in Eb. subst b. apply descendants_in in Hi as (Hu & _ & (n & ats & ks & ->)). unfold node_at in H. rewrite Hu in H.
      destruct H as [H|(s & H)]; discriminate H.
  Qed.

  Section Union.
    Variable v : hval -> numbers.
    Hypothesis Hv : good_numbers h v.

    Lemma key_rel x y o i j : vst x (Obj y o) -> vst i j -> i <> IRoot ->
      match docorder w x i, vnumber (v (Obj y o)) j with
      | Some n, Some m => exists a k b, i = INode a /\ j = Obj (HNode k) b /\ follow h r a = Some k /\ is_elem h k /\ en (v (Obj y o)) k = Some m
      | None, None => True
      | _, _ => False
      end.
    Proof.
      intros H Hi Hn. destruct (vst_obj x y o H) as [S _]. destruct (Hv y o) as (u & Hu & La). pose proof (tree_of_item x y S) as T.
      destruct (prepare_all h u (as_ditem y) r (numbered_inv h u Hu) T) as (v1 & E1 & I1 & A1 & _). rewrite E1 in La.
      pose proof (later_inv h v1 _ La I1) as I2.
      destruct Hi as [q b Hq|a k b Hk|a k kk s b Hk|s|z|f|b]; try congruence; cbn [vnumber]; try exact I.
      destruct (rel_holds h r w D a k Hk) as (t & q & ids & Et & Hh). destruct t as [n ats ks|s].
      - assert (Ek : is_elem h k) by (apply (rel_elem_is a k Hk); unfold node_at; eauto).
        destruct (docorder_some w x (INode a)) as (d & ->); [exact El|left; exists a, n, ats, ks; auto|].
        pose proof (later_mono h v1 _ (DNode k) W La (A1 k (within_rel a k Hk Ek))) as N. cbn [DocOrder.number_of] in N.
        destruct (en (v (Obj y o)) k) as [m|] eqn:Em; [|congruence]. exists a, k, b. auto 10.
      - rewrite (docorder_none a x) by (right; exists s; exact Et). destruct (en (v (Obj y o)) k) as [m|] eqn:E; [|exact I].
        destruct (i_elem h _ I2 k ltac:(congruence)) as [Ke|(s' & Ks & Kp)].
        + apply (rel_elem_is a k Hk) in Ke as (? & ? & ? & K). unfold node_at in K. congruence.
        + assert (a <> []). { intros ->. destruct El as (n & ats & ks & K). cbn [subtree] in Et. congruence. }
          destruct (exists_last H0) as (a' & (l & ->)). destruct (rel_pre h r a' l k Hk) as (i & Hi). pose proof (rel_parent h r W a' i l k Hi Hk) as P.
          destruct Kp as (ok & Ho & Ep). unfold xml_parent in P. rewrite Ho, Ep in P. discriminate P.
    Qed.
    Lemma leb_rel x y o a b k l n m n' m' : vst x (Obj y o) -> follow h r a = Some k -> follow h r b = Some l -> is_elem h k -> is_elem h l ->
      docorder w x (INode a) = Some n -> docorder w x (INode b) = Some m -> en (v (Obj y o)) k = Some n' -> en (v (Obj y o)) l = Some m' -> Nat.leb n m = Nat.leb n' m'.
    Proof.
      intros H Hk Hl Ek El' Na Nb Va Vb. destruct (vst_obj x y o H) as [S _]. destruct (Hv y o) as (u & Hu & La). pose proof (tree_of_item x y S) as T.
      destruct (prepare_all h u (as_ditem y) r (numbered_inv h u Hu) T) as (v1 & E1 & I1 & A1 & _). rewrite E1 in La.
      pose proof (later_inv h v1 _ La I1) as I2. destruct (Nat.eq_dec k l) as [->|Hn].
      - assert (a = b) as -> by exact (rel_inj h r w W D a b l Hk Hl). assert (n = m) as -> by congruence. assert (n' = m') as -> by congruence. rewrite !Nat.leb_refl. reflexivity.
      - assert (Hab : a <> b) by congruence. destruct (docorder_node w x a n Na) as (i & -> & Hi), (docorder_node w x b m Nb) as (j & -> & Hj).
        destruct (Nat.lt_trichotomy i j) as [L|[->|L]]; [| congruence |].
        + pose proof (nth_sorted _ _ _ _ _ _ (elements_sorted w) Hi Hj L) as B. pose proof (i_less h _ I2 k l n' m' Ek El' (before_rel a b B r k l Hk Hl Hn) Va Vb).
          rewrite !(proj2 (Nat.leb_le _ _)) by lia. reflexivity.
        + pose proof (nth_sorted _ _ _ _ _ _ (elements_sorted w) Hj Hi L) as B. pose proof (i_less h _ I2 l k m' n' El' Ek (before_rel b a B r l k Hl Hk ltac:(congruence)) Vb Va).
          rewrite !(proj2 (Nat.leb_gt _ _)) by lia. reflexivity.
    Qed.
    Definition keyrel (x : item) (u : numbers) (p : nat * item) (q : nat * hval) : Prop :=
      vst (snd p) (snd q) /\ exists a k b, snd p = INode a /\ snd q = Obj (HNode k) b /\ follow h r a = Some k /\ is_elem h k /\ docorder w x (INode a) = Some (fst p) /\ en u k = Some (fst q).
    Lemma keys_rel x y o l m : vst x (Obj y o) -> Forall2 vst l m -> Forall (fun i => i <> IRoot) l ->
      match keyed w x l, vkeys (v (Obj y o)) m with
      | Some ks, Some ks' => Forall2 (keyrel x (v (Obj y o))) ks ks'
      | None, None => True
      | _, _ => False
      end.
    Proof.
      intros H. induction 1 as [|i j l m Hi _ IH]; intros F; cbn [keyed vkeys]; [constructor|]. inversion F; subst. specialize (IH H3).
      pose proof (key_rel x y o i j H Hi H2) as K. destruct (docorder w x i) as [n|] eqn:E, (vnumber (v (Obj y o)) j) as [n'|]; try contradiction; [|exact I].
      destruct (keyed w x l), (vkeys (v (Obj y o)) m); try contradiction; [|exact I]. constructor; [|exact IH]. split; [exact Hi|].
      destruct K as (a & k & b & -> & -> & Hk & Ek & Ev). exists a, k, b. auto 10.
    Qed.
    Lemma insert_rel x y o p q l m : vst x (Obj y o) -> keyrel x (v (Obj y o)) p q -> Forall2 (keyrel x (v (Obj y o))) l m ->
      Forall2 (keyrel x (v (Obj y o))) (insert_by p l) (vput q m).
    Proof.
      intros H K. induction 1 as [|p' q' l m K' F IH]; cbn [insert_by vput]; [constructor; auto|].
      assert (E : Nat.leb (fst p) (fst p') = Nat.leb (fst q) (fst q')).
      { destruct K as (_ & a & k & b & _ & _ & Hk & Ek & Na & Va), K' as (_ & a' & k' & b' & _ & _ & Hk' & Ek' & Na' & Va'). exact (leb_rel x y o a a' k k' _ _ _ _ H Hk Hk' Ek Ek' Na Na' Va Va'). }
      rewrite E. destruct (Nat.leb (fst q) (fst q')); constructor; auto.
    Qed.
    Lemma union_rel x y a a' b b' : vst x y -> vsm a a' -> vsm b b' -> (forall i, In i (fst a) -> i <> IRoot) -> (forall i, In i (fst b) -> i <> IRoot) ->
      vsm (union w x a b) (vunion v y a' b').
    Proof.
      intros H A B Na Nb. unfold union, vunion. destruct y as [y o|s|z|f|bb]; [|inversion H; subst; apply raise_vrel..]. cbn [vnode].
      assert (P : exists p, parent x = Some p) by (inversion H; subst; cbn [parent]; eauto; destruct a0; eauto). destruct P as (p & ->).
      apply list_rel; [exact A|]. intros m Hm. apply list_rel; [exact B|]. intros m' Hm'.
      pose proof (keys_rel x y o (fst a ++ fst b) (m ++ m') H (F2_app _ _ _ _ _ Hm Hm')) as K. destruct (keyed w x (fst a ++ fst b)) as [ks|], (vkeys (v (Obj y o)) (m ++ m')) as [ks'|];
        try (destruct K; rewrite Forall_forall; intros i Hi; apply in_app_iff in Hi as [Hi|Hi]; auto; fail); [|apply raise_vrel].
      assert (K' : Forall2 (keyrel x (v (Obj y o))) ks ks') by (apply K; rewrite Forall_forall; intros i Hi; apply in_app_iff in Hi as [Hi|Hi]; auto).
      split; [|reflexivity]. cbn [fst]. unfold sort_by.
      assert (G : Forall2 (keyrel x (v (Obj y o))) (fold_right insert_by [] ks) (fold_right vput [] ks')) by (clear - K' H W D El Hv; induction K'; cbn [fold_right]; [constructor|eapply insert_rel; eauto]).
      induction G as [|p' q' l l' [G _] _ IH]; cbn [map]; constructor; auto.
    Qed.
  End Union.
End Doc.
