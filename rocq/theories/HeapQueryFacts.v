From Verif Require Import PyStr Parser XTree Grammar Tree Path Heap Builder BuilderFacts HeapSpec HeapFacts BuilderMore RootCache RootSpec RootFacts.
From Verif Require Import DocOrder XPath XPathSpec XPathFacts XPathExpr XGramSpec XQuery XQueryFacts HeapNav HeapNavSpec HeapNavFacts HeapEval HeapEvalSpec HeapEvalFacts HeapEvalMain HeapQuery.
From Verif Require Import XPathFuel XNavSpec HeapQuerySpec XNav XNavOrder XNavMain.

Section Query.
  Variable h : heap.
  Variable r : ref.
  Variable w : env.
  Variable hv : dict hval.
  Variable c : hval -> rcache.
  Variable v : hval -> numbers.
  Variable DD : Prop.
  Hypothesis W : well_linked h.
  Hypothesis D : HeapNavSpec.document h r (doc w).
  Hypothesis El : is_element (doc w).
  Hypothesis Hc : forall x, cache_ok h (c x).
  Hypothesis Hvars : same_vars h r (vars w) hv.
  Hypothesis Hnums : good_numbers h v.
  Hypothesis Hdyn : DD -> forall s e, xparse w s = inl e -> careful DD e.
  Lemma parent_same i y o : vstands h r i (Obj y o) -> has_parent i = obj_parent h (Obj y o).
  Proof.
    intros H. destruct (vst_obj h r w D i y o H) as [S _]. pose proof (parent_rel h r w W D i y S) as P. cbn [obj_parent].
    destruct S as [q Hq|a j Hj|a j k s b Hj]; cbn [parent has_parent] in *; [rewrite P; reflexivity| |destruct P as (p & -> & _); reflexivity].
    destruct a as [|x a]; [rewrite P; reflexivity|destruct P as (p & -> & _); reflexivity].
  Qed.
  Lemma context_same n f i y o e : careful DD e -> vstands h r i (Obj y o) -> vsame h r (in_context w n f i e) (obj_context h w hv c v n f (Obj y o) e).
  Proof.
    intros K H. unfold in_context, obj_context, initial. cbn [vnode].
    assert (N : is_node i = true) by (inversion H; reflexivity). rewrite N. destruct f; cbn [andb].
    - replace (match root_of w i with Some c0 => eval w n e c0 | None => raise AssertionErr end) with (with_root w i (eval w n e)) by reflexivity.
      apply vroot_rel; auto. intros q Hq. apply (expr_rel h r w hv c v DD); auto. constructor. exact Hq.
    - apply (expr_rel h r w hv c v DD); auto.
  Qed.
  Lemma xpath_same n i y o p : fine w DD p -> vstands h r i (Obj y o) -> vsame h r (xml_xpath w n i p) (obj_xpath h w hv c v n (Obj y o) p).
  Proof.
    intros K H. unfold xml_xpath, obj_xpath. rewrite (parent_same i y o H). destruct p as [s|e|]; cbn [fine] in K.
    - destruct (xparse w s) as [e|z] eqn:E; [apply context_same; auto|apply raise_vrel].
    - apply context_same; auto.
    - apply raise_vrel.
  Qed.
  Lemma qquery_same n i y o p : fine w DD p -> vstands h r i (Obj y o) -> vsame h r (qquery_node w n i p) (obj_qquery h w hv c v n (Obj y o) p).
  Proof.
    intros K H. unfold qquery_node, obj_qquery. rewrite (true_rel h r w D i _ H). destruct (vtrue h (Obj y o)); [|apply nothing_vrel].
    rewrite (parent_same i y o H). assert (N : is_node i = true) by (inversion H; reflexivity).
    assert (G : vsame h r (match initial w (negb (obj_parent h (Obj y o))) i with Some _ => raise NameErr | None => raise AssertionErr end)
      (if negb (obj_parent h (Obj y o)) then vroot h c (Obj y o) (fun _ => vraise NameErr) else vraise NameErr)).
    { unfold initial. rewrite N. destruct (negb (obj_parent h (Obj y o))); cbn [andb]; [|apply raise_vrel].
      replace (match root_of w i with Some _ => raise NameErr | None => raise AssertionErr end) with (with_root w i (fun _ => raise NameErr)) by reflexivity.
      apply vroot_rel; auto. intros q Hq. apply raise_vrel. }
    destruct p as [s|e|]; cbn [fine] in K; [|exact G|exact G]. destruct (xparse w s) as [e|z] eqn:E; [apply context_same; auto|apply raise_vrel].
  Qed.
End Query.

(** ** The expressions of C110 never show which root node object it is. *)
Lemma elements_rootless e : forall k k', kind_of k e = Some k' -> elements_only e = true -> rootless e.
Proof.
  induction e as [l|e IHe|l op e IHl IHr|d|d e IHe|ax t|e ps IHe IHps|t|u|n|f l IHl|l IHl] using expr_ind'; intros k k' K H; cbn [elements_only] in H; try discriminate.
  - destruct op; try discriminate; cbn [rootless kind_of] in *.
    + destruct (no_value (kind_of k l)) as [k1|]; [|discriminate]. destruct (kind_of k1 e) as [k2|] eqn:E; [|discriminate]. eauto.
    + destruct e as [| | | |ax t| | | | | |]; try discriminate. destruct t; try discriminate. exact I.
    + destruct (kind_of k l) as [k1|] eqn:E1; [|discriminate]. destruct (kind_of k e) as [k2|] eqn:E2; [|cbn [no_value] in K; destruct (is_value k1); discriminate].
      apply andb_prop in H as [H1 H2]. eauto.
  - cbn [rootless kind_of] in *. destruct d, k; try discriminate; (destruct (just_node e) eqn:J; [discriminate|]; split; [reflexivity|]).
    + destruct (kind_of KNode e) as [k2|] eqn:E; [eauto|discriminate].
    + destruct (kind_of KElem e) as [k2|] eqn:E; [eauto|discriminate].
  - cbn [rootless]. destruct ax, t; try discriminate; exact I.
  - cbn [rootless kind_of] in *. destruct (kind_of k e) as [k2|] eqn:E; [eauto|discriminate].
Qed.
Lemma value_rootless e : forall k k', kind_of k e = Some k' -> is_value k' = true -> rootless e.
Proof.
  assert (NV : forall o k', no_value o = Some k' -> is_value k' = true -> False).
  { intros [k1|] k' H V; [|discriminate]. cbn [no_value] in H. destruct (is_value k1) eqn:E; [discriminate|]. injection H as <-. congruence. }
  induction e as [l|e IHe|l op e IHl IHr|d|d e IHe|ax t|e ps IHe IHps|t|u|n|f l IHl|l IHl] using expr_ind'; intros k k' K V; try exact I; try (cbn [kind_of] in K; discriminate).
  - cbn [rootless kind_of] in *. destruct op; try exact I; try discriminate.
    + destruct (no_value (kind_of k l)) as [k1|]; [|discriminate]. exfalso. eapply NV; eauto.
    + destruct e as [| | | |ax t| | | | | |]; try discriminate. destruct (kind_of k l) as [[]|]; try discriminate; injection K as <-; destruct t; discriminate.
    + destruct (no_value (kind_of k l)) as [k1|]; [|discriminate]. destruct (no_value (kind_of k e)) as [k2|]; [|discriminate]. destruct (elements_only l && elements_only e); [injection K as <-|]; discriminate.
    + destruct (kind_of k l) as [[]|] eqn:E1; try discriminate. destruct (kind_of k e) as [[]|] eqn:E2; try discriminate. split; [eapply IHl|eapply IHr]; eauto.
    + destruct (kind_of k l) as [[]|] eqn:E1; try discriminate. destruct (kind_of k e) as [[]|] eqn:E2; try discriminate. split; [eapply IHl|eapply IHr]; eauto.
  - cbn [kind_of] in K. destruct d; discriminate.
  - cbn [kind_of] in K. exfalso. destruct d, k; try discriminate; destruct (just_node e); try discriminate; eapply NV; eauto.
  - cbn [kind_of] in K. exfalso. revert K. unfold step_kind, tested. destruct k, ax; try discriminate; destruct t as [|m| |]; try (destruct (str_eqb m (lit "*"))); intros K; try discriminate K; injection K as <-; discriminate V.
  - cbn [kind_of] in K. exfalso. destruct (no_value (kind_of k e)) as [k1|] eqn:E; [|discriminate]. match type of K with (if ?b then _ else _) = _ => destruct b end; [|discriminate]. injection K as <-. eapply NV; eauto.
  - exfalso. cbn [kind_of] in K. destruct u.
    + destruct (is_value k); [discriminate|]. injection K as <-. discriminate.
    + destruct (is_value k) eqn:E; [discriminate|]. injection K as <-. congruence.
  - cbn [rootless]. intros ->. cbn [kind_of] in K. destruct (is_value k); [discriminate|]. change (is_fn (lit "for-each") "concat") with false in K. cbv iota in K.
    destruct l as [|e1 [|e2 [|e3 [|e4 l]]]]; try discriminate.
    + destruct (kind_of k e1); [|discriminate]. unfold call1_kind in K. cbn in K. discriminate.
    + destruct (kind_of k e1); [|discriminate]. destruct (kind_of k e2); [|discriminate]. unfold call2_kind in K. cbn in K. destruct (has_first _ _ && has_first _ _); [|discriminate]. destruct e2 as [[[|]| |]| | | | | | | | | |]; discriminate.
    + destruct (kind_of k e1); [|discriminate]. unfold call3_kind in K. destruct e2 as [[| |]| | | | | | | | | |]; try discriminate. destruct e3 as [[| |]| | | | | | | | | |]; discriminate.
Qed.
Lemma kind_careful (DD : Prop) e : forall k k', kind_of k e = Some k' -> careful DD e.
Proof.
  induction e as [l|e IHe|l op e IHl IHr|d|d e IHe|ax t|e ps IHe IHps|t|u|n|f l IHl|l IHl] using expr_ind'; intros k k' K; try exact I; try (cbn [kind_of] in K; discriminate).
  - assert (A : (exists k1, kind_of k l = Some k1) /\ careful DD e).
    { cbn [kind_of] in K. destruct op; try discriminate K.
      - destruct (kind_of k l) as [k1|]; [|discriminate]. split; [eauto|]. destruct (no_value (Some k1)) as [k2|]; [|discriminate]. destruct (kind_of k2 e) as [k3|] eqn:E; [eauto|discriminate].
      - destruct e as [| | | |ax t| | | | | |]; try discriminate. destruct (kind_of k l) as [k1|]; [|discriminate]. split; [eauto|exact I].
      - destruct (kind_of k l) as [k1|]; [|discriminate]. split; [eauto|]. destruct (no_value (Some k1)) as [k2|]; [|discriminate]. destruct (kind_of k e) as [k3|] eqn:E; [eauto|discriminate].
      - destruct (kind_of k l) as [k1|]; [|discriminate]. split; [eauto|]. destruct (kind_of k e) as [k3|] eqn:E; [eauto|discriminate].
      - destruct (kind_of k l) as [k1|]; [|discriminate]. split; [eauto|]. destruct (kind_of k e) as [k3|] eqn:E; [eauto|discriminate].
      - destruct (kind_of k l) as [k1|]; [|discriminate]. split; [eauto|]. destruct (kind_of k e) as [k3|] eqn:E; [eauto|discriminate].
      - destruct (kind_of k l) as [k1|]; [|discriminate]. split; [eauto|]. destruct (kind_of k e) as [k3|] eqn:E; [eauto|discriminate].
      - destruct (kind_of k l) as [k1|]; [|discriminate]. split; [eauto|]. destruct (kind_of k e) as [k3|] eqn:E; [eauto|discriminate].
      - destruct (kind_of k l) as [k1|]; [|discriminate]. split; [eauto|]. destruct (kind_of k e) as [k3|] eqn:E; [eauto|discriminate].
      - destruct (kind_of k l) as [k1|]; [|discriminate]. split; [eauto|]. destruct (kind_of k e) as [k3|] eqn:E; [eauto|destruct k1; discriminate].
      - destruct (kind_of k l) as [k1|]; [|discriminate]. split; [eauto|]. destruct (kind_of k e) as [k3|] eqn:E; [eauto|destruct k1; discriminate].
      - destruct (kind_of k l) as [k1|]; [|discriminate]. split; [eauto|]. destruct (kind_of k e) as [k3|] eqn:E; [eauto|destruct k1; discriminate]. }
    destruct A as ((k1 & E1) & Ce). cbn [careful]. split; [eauto|]. split; [exact Ce|]. destruct op; try exact I; cbn [kind_of] in K; rewrite E1 in K.
    + destruct (kind_of k e) as [k2|] eqn:E2; [|destruct (no_value (Some k1)); discriminate]. destruct (no_value (Some k1)); [|discriminate]. destruct (no_value (Some k2)); [|discriminate].
      destruct (elements_only l && elements_only e) eqn:H; [|discriminate]. apply andb_prop in H as [H1 H2]. split; eapply elements_rootless; eauto.
    + left. destruct (kind_of k e) as [k2|] eqn:E2; [|discriminate]. destruct (comparable OpNe k1 k2) eqn:C; [|discriminate]. eapply value_rootless; [exact E1|]. destruct k1, k2; try discriminate C; reflexivity.
  - cbn [careful kind_of] in *. destruct d, k; try discriminate; destruct (just_node e); try discriminate.
    + destruct (kind_of KNode e) as [k2|] eqn:E; [eauto|discriminate].
    + destruct (kind_of KElem e) as [k2|] eqn:E; [eauto|discriminate].
  - cbn [careful kind_of] in *. destruct (kind_of k e) as [k2|] eqn:E; [|discriminate]. split; [eauto|]. destruct (no_value (Some k2)) as [k1|]; [|discriminate].
    match type of K with (if ?b then _ else _) = _ => destruct b eqn:A end; [|discriminate]. clear K E IHe. induction IHps as [|p ps Hp _ IH]; [exact I|].
    apply andb_prop in A as [A1 A2]. cbn [fold_right]. split; [|apply IH; exact A2]. destruct (kind_of k1 p) as [k3|] eqn:Ep; [eauto|discriminate].
  - cbn [careful]. split.
    { intros ->. exfalso. pose proof K as K'. cbn [kind_of] in K'. destruct (is_value k); [discriminate|]. change (is_fn (lit "for-each") "concat") with false in K'. cbv iota in K'.
      destruct l as [|e1 [|e2 [|e3 [|e4 l]]]]; try discriminate.
      - destruct (kind_of k e1); [|discriminate]. unfold call1_kind in K'. cbn in K'. discriminate.
      - destruct (kind_of k e1); [|discriminate]. destruct (kind_of k e2); [|discriminate]. unfold call2_kind in K'. cbn in K'. destruct (has_first _ _ && has_first _ _); [|discriminate]. destruct e2 as [[[|]| |]| | | | | | | | | |]; discriminate.
      - destruct (kind_of k e1); [|discriminate]. unfold call3_kind in K'. destruct e2 as [[| |]| | | | | | | | | |]; try discriminate. destruct e3 as [[| |]| | | | | | | | | |]; discriminate. }
    cbn [kind_of] in K. destruct (is_value k); [discriminate|]. destruct (is_fn f "concat").
    + match type of K with (if ?b then _ else _) = _ => destruct b eqn:A end; [|discriminate]. clear K. induction IHl as [|p ps Hp _ IH]; [exact I|].
      apply andb_prop in A as [A1 A2]. cbn [fold_right]. split; [|apply IH; exact A2]. destruct (kind_of k p) as [k3|] eqn:Ep; [eauto|discriminate].
    + destruct l as [|e1 [|e2 [|e3 [|e4 l]]]]; try discriminate; cbn [fold_right]; [exact I| | |]; inversion IHl as [|? ? H1 IHl1]; subst.
      * destruct (kind_of k e1) eqn:E1; [|discriminate]. split; [eauto|exact I].
      * inversion IHl1 as [|? ? H2 IHl2]; subst. destruct (kind_of k e1) eqn:E1; [|discriminate]. destruct (kind_of k e2) eqn:E2; [|discriminate]. split; [eauto|]. split; [eauto|exact I].
      * destruct (kind_of k e1) eqn:E1; [|discriminate]. unfold call3_kind in K. destruct e2 as [[| |]| | | | | | | | | |]; try discriminate. destruct e3 as [[| |]| | | | | | | | | |]; try discriminate. split; [eauto|]. split; [exact I|]. split; exact I.
Qed.

(** ** What is selected *)
Section Select.
  Variable h : heap.
  Variable r : ref.
  Variable w : env.
  Variable hv : dict hval.
  Variable c : hval -> rcache.
  Variable v : hval -> numbers.
  Hypothesis W : well_linked h.
  Hypothesis D : HeapNavSpec.document h r (doc w).
  Hypothesis P : proper w.
  Hypothesis Hc : forall x, cache_ok h (c x).
  Hypothesis Hvars : same_vars h r (vars w) hv.
  Hypothesis Hnums : good_numbers h v.
  Lemma start_kind a i : follow h r a = Some i -> of_kind w (kind_here h i) (start_item (INode a)) /\ document_node w (INode a).
  Proof.
    intros F. destruct (rel_holds h r w D a i F) as (u & q & ids & Eu & Hu). unfold kind_here. pose proof (proj1 (rel_elem h r w D a i F)) as E.
    unfold is_elem_at, node_at in E. rewrite Eu in E. split.
    - destruct a as [|k a]; cbn [start_item].
      + destruct (helem h i); [left; reflexivity|exact I].
      + rewrite <- E. destruct u as [n at_ ks|s]; [right; exists (k :: a), n, at_, ks; auto|exists (XT s); exact Eu].
    - destruct a as [|k a]; cbn [document_node]; [|unfold node_at; rewrite Eu; discriminate]. destruct P as ((n & at_ & ks & Ed) & _). eauto.
  Qed.
  Lemma nodup_objects l m : Forall2 (vstands h r) l m -> NoDup l -> forall m1 m2 i o m3 o', m <> m1 ++ Obj (HNode i) o :: m2 ++ Obj (HNode i) o' :: m3.
  Proof.
    intros F N m1 m2 i o m3 o' ->. apply Forall2_app_inv_r in F as (l1 & l2 & _ & F & ->). inversion F as [|x ? l3 ? X F']; subst. apply Forall2_app_inv_r in F' as (l4 & l5 & _ & F'' & ->).
    inversion F'' as [|y ? l6 ? Y _]; subst. inversion X as [|a i1 o1 Ha| | | | |]; subst. inversion Y as [|b i2 o2 Hb| | | | |]; subst.
    rewrite (rel_inj h r w W D a b i Ha Hb) in N. apply NoDup_remove_2 in N. apply N. apply in_or_app. right. apply in_or_app. right. left. reflexivity.
  Qed.
  Lemma select_same n a i o e k : follow h r a = Some i -> kind_of (kind_here h i) e = Some k ->
    exists ls, obj_xpath h w hv c v n (Obj (HNode i) o) (Parsed e) = (ls, Done) /\
      (forall d, nav w e (start_item (INode a)) d -> exists y, In y ls /\ vstands h r d y) /\
      (forall y, In y ls -> exists d, nav w e (start_item (INode a)) d /\ vstands h r d y) /\
      (once e = true -> forall m1 m2 j o1 m3 o2, ls <> m1 ++ Obj (HNode j) o1 :: m2 ++ Obj (HNode j) o2 :: m3).
  Proof.
    intros F K. destruct (start_kind a i F) as [Sk Dn]. destruct (nav_result w n P e _ k _ K Sk) as (ls & E & In1 & _).
    assert (X : vsame h r (xml_xpath w n (INode a) (Parsed e)) (obj_xpath h w hv c v n (Obj (HNode i) o) (Parsed e))).
    { apply (xpath_same h r w hv c v False); auto; [apply P|intros []|apply (kind_careful False e _ _ K)|constructor; exact F]. }
    rewrite (xml_xpath_parsed w n (INode a) e Dn), E in X. destruct X as [X1 X2]. destruct (obj_xpath h w hv c v n (Obj (HNode i) o) (Parsed e)) as [m f]. cbn [fst snd] in *. subst f.
    exists m. split; [reflexivity|]. split; [|split].
    - intros d Hd. apply In1 in Hd. clear - X1 Hd. induction X1 as [|x y l m H _ IH]; [destruct Hd|]. destruct Hd as [->|Hd]; [exists y; split; [left; reflexivity|exact H]|]. destruct (IH Hd) as (z & Hz & Hs). exists z. split; [right; exact Hz|exact Hs].
    - intros y Hy. destruct (F2_all _ _ _ X1 y Hy) as (d & Hd & Hs). exists d. split; [apply In1; exact Hd|exact Hs].
    - intros O. pose proof (nav_once w n P e _ k _ O K Sk) as N. rewrite E in N. cbn [fst] in N. eapply nodup_objects; eauto.
  Qed.
End Select.
(** A query at each result of a query *)
Lemma nested h w hv c v n x p q :
  (forall y, In y (fst (obj_xpath h w hv c v n x (Parsed p))) -> vtrue h y = true /\ (obj_parent h y = true \/ exists t, y = Obj (HRoot t) Made)) ->
  obj_xpath h w hv c v n x (Parsed (EBin p OpPath q)) =
  vfor (fst (obj_xpath h w hv c v n x (Parsed p))) (snd (obj_xpath h w hv c v n x (Parsed p))) (fun y => obj_xpath h w hv c v n y (Parsed q)).
Proof.
  assert (G : forall z, (forall y, In y (fst (heval h w hv c v n p z)) -> vtrue h y = true /\ (obj_parent h y = true \/ exists t, y = Obj (HRoot t) Made)) ->
    heval h w hv c v n (EBin p OpPath q) z = vfor (fst (heval h w hv c v n p z)) (snd (heval h w hv c v n p z)) (fun y => obj_xpath h w hv c v n y (Parsed q))).
  { intros z H. rewrite heval_bin. cbn [vbinary vright]. destruct (heval h w hv c v n p z) as [l f]. cbn [fst snd] in *. induction l as [|y l IH]; [reflexivity|]. cbn [vfor].
    destruct (H y (or_introl eq_refl)) as [T Hp]. rewrite IH by (intros y' Hy'; apply H; right; exact Hy'). replace (obj_xpath h w hv c v n y (Parsed q)) with (heval h w hv c v n q (vcopy h z y)); [reflexivity|].
    unfold vcopy. rewrite T. unfold obj_xpath, obj_context. destruct Hp as [->|(t & ->)]; reflexivity. }
  assert (E : forall e, obj_xpath h w hv c v n x (Parsed e) = obj_context h w hv c v n (negb (obj_parent h x)) x e) by reflexivity. rewrite (E p), (E (EBin p OpPath q)). clear E.
  unfold obj_context. destruct (negb (obj_parent h x) && vnode x); [|apply G].
  unfold vroot. destruct x as [y o| | | |]; try (intros; reflexivity). destruct (hroot h (c (Obj y o)) y) as [[|[t|i|i k s] l] f]; try (intros; reflexivity). apply G.
Qed.
