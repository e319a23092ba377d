(** More facts about MicroXPath evaluation. *)
From Verif Require Import PyStr XTree ParserInv Tree TreeFacts Heap Path Nodes Pattern PatternSpec PatternFacts TreeUtil TreeUtilSpec TreeUtilFacts XPath XPathSpec XPathFacts XPathFuel XDecimal.
From Coq Require Import Permutation.

Section More.
  Variable w : env.
  Notation D := (doc w).

  (** ** Values *)
  Lemma truthy_iff i : truthy w i = true <-> ~ falsy w i.
  Proof.
    unfold falsy. destruct i as [|a|a k v|s|z|f|b]; cbn [truthy].
    - split; [|reflexivity]. intros _ [E|[E|[(e & E)|[E|(a' & E & _)]]]]; discriminate.
    - unfold text_at, node_at. destruct (subtree D a) as [[n ats ks|[|x s]]|] eqn:Ea; (split; [|reflexivity || (intros H; exfalso; apply H; right; right; right; right; eauto)]).
      + intros _ [E|[E|[(e & E)|[E|(a' & E & E')]]]]; try discriminate. inversion E; subst. congruence.
      + discriminate.
      + intros _ [E|[E|[(e & E)|[E|(a' & E & E')]]]]; try discriminate. inversion E; subst. congruence.
      + intros _ [E|[E|[(e & E)|[E|(a' & E & E')]]]]; try discriminate. inversion E; subst. congruence.
    - split; [|reflexivity]. intros _ [E|[E|[(e & E)|[E|(a' & E & _)]]]]; discriminate.
    - destruct s as [|x s]; split; try reflexivity.
      + discriminate.
      + intros H. exfalso. apply H. auto.
      + intros _ [E|[E|[(e & E)|[E|(a' & E & _)]]]]; discriminate.
    - destruct (Z.eqb_spec z 0) as [->|Hz]; cbn; split; try reflexivity.
      + discriminate.
      + intros H. exfalso. apply H. auto.
      + intros _ [E|[E|[(e & E)|[E|(a' & E & _)]]]]; try discriminate. inversion E; congruence.
    - destruct f as [|neg|m e]; cbn [flt_true]; try (split; [|reflexivity]; intros _ [E|[E|[(e' & E)|[E|(a' & E & _)]]]]; discriminate).
      destruct (Z.eqb_spec m 0) as [->|Hm]; cbn; split; try reflexivity.
      + discriminate.
      + intros H. exfalso. apply H. right; right; left. eauto.
      + intros _ [E|[E|[(e' & E)|[E|(a' & E & _)]]]]; try discriminate. inversion E; congruence.
    - destruct b; split; try reflexivity.
      + intros _ [E|[E|[(e' & E)|[E|(a' & E & _)]]]]; discriminate.
      + discriminate.
      + intros H. exfalso. apply H. auto.
  Qed.
  Lemma truthy_false i : truthy w i = false <-> falsy w i.
  Proof.
    split.
    - intros H. destruct i as [|a|a k v|s|z|f|b]; cbn [truthy] in H; try discriminate; unfold falsy.
      + unfold text_at, node_at in H. destruct (subtree D a) as [[n ats ks|[|x s]]|] eqn:E; try discriminate. right; right; right; right. eauto.
      + destruct s; [auto|discriminate].
      + apply negb_false_iff, Z.eqb_eq in H. subst z. auto.
      + destruct f as [| |m e]; try discriminate. cbn in H. apply negb_false_iff, Z.eqb_eq in H. subst m. right; right; left. eauto.
      + destruct b; [discriminate|auto].
    - intros H. destruct (truthy w i) eqn:E; [|reflexivity]. apply truthy_iff in E. contradiction.
  Qed.
  Lemma to_boolean_truthy i : to_boolean w i = truthy w i.
  Proof.
    unfold to_boolean. destruct i as [|a|a k v|s|z|f|b]; cbn [as_str is_node truthy]; try reflexivity.
  Qed.
  Lemma copy_moved c i j : copy w c i = j <-> moved w c i j.
  Proof.
    unfold copy, moved. destruct (truthy w i) eqn:E.
    - apply truthy_iff in E. split; [intros <-; left; auto|]. intros [[_ ->]|[H _]]; [reflexivity|contradiction].
    - apply truthy_false in E. split; [intros <-; right; auto|]. intros [[H _]|[_ ->]]; [contradiction|reflexivity].
  Qed.
  Lemma strval_text t : strval t = tree_text t.
  Proof. rewrite strval_value. apply xml_value_text. Qed.
  Lemma the_str_value i s : string_value w i s -> the_str w i = s /\ as_str w (to_string w i) = Some s.
  Proof.
    intros H. assert (K : as_str w (to_string w i) = Some s).
    { destruct H as [|a u Ha|a k v|s|z s Hz|f| |]; try reflexivity; [|cbn; f_equal; apply (decimal_unique z); [apply decimal_int_str|exact Hz]]. unfold to_string. cbn [as_str]. unfold text_at, node_at. rewrite Ha. destruct u as [n ats ks|s].
      - cbn [node_strval]. unfold node_at. rewrite Ha. cbn [option_map as_str]. rewrite strval_text. reflexivity.
      - cbn [as_str]. unfold text_at, node_at. rewrite Ha. reflexivity. }
    split; [|auto]. unfold the_str. rewrite K. reflexivity.
  Qed.
  Lemma string_value_total i : of_document w i -> exists s, string_value w i s.
  Proof.
    destruct i as [|a|a k v|s|z|f|b]; cbn; intros H; try (eexists; constructor; fail).
    - destruct H as (u & H). eexists. constructor. eauto.
    - exists (int_str z). constructor. apply decimal_int_str.
    - destruct b; eexists; constructor.
  Qed.
  Lemma string_value_fun i s s' : string_value w i s -> string_value w i s' -> s = s'.
  Proof. intros H H'. apply the_str_value in H as [<- _], H' as [<- _]. reflexivity. Qed.

  (** ** The items yielded exist in the document *)
  Definition ok_res (r : list item * fin) : Prop := Forall (of_document w) (fst r).
  Lemma ok_app l m : Forall (of_document w) l -> Forall (of_document w) m -> Forall (of_document w) (l ++ m).
  Proof. intros. apply Forall_app. auto. Qed.
  Lemma ok_seq2 r1 r2 : ok_res r1 -> ok_res r2 -> ok_res (seq2 r1 r2).
  Proof. unfold ok_res. destruct r1 as [l1 [| |]], r2 as [l2 f2]; cbn; auto. apply ok_app. Qed.
  Lemma ok_seq_all l : Forall ok_res l -> ok_res (seq_all l).
  Proof. induction 1; cbn [seq_all]; [constructor|apply ok_seq2; auto]. Qed.
  Lemma ok_bindl l f k : Forall (of_document w) l -> (forall i, of_document w i -> ok_res (k i)) -> ok_res (bindl l f k).
  Proof. intros H Hk. induction H as [|i l Hi _ IH]; [constructor|]. rewrite bindl_seq2. apply ok_seq2; auto. Qed.
  Lemma ok_bind r k : ok_res r -> (forall i, of_document w i -> ok_res (k i)) -> ok_res (bind r k).
  Proof. intros H Hk. apply ok_bindl; auto. Qed.
  Lemma ok_first r n k : ok_res r -> ok_res n -> (forall i, of_document w i -> ok_res (k i)) -> ok_res (first r n k).
  Proof. intros H Hn Hk. destruct r as [[|i l] f]; cbn; [destruct f; auto; constructor|]. apply Hk. inversion H; auto. Qed.
  Lemma ok_collected r k : ok_res r -> (forall l, Forall (of_document w) l -> ok_res (k l)) -> ok_res (collected r k).
  Proof. intros H Hk. destruct r as [l [| |]]; cbn; [apply Hk; auto|constructor|constructor]. Qed.
  Lemma ok_raise e : ok_res (raise e). Proof. constructor. Qed.
  Lemma ok_nothing : ok_res nothing. Proof. constructor. Qed.
  Lemma ok_yield i : of_document w i -> ok_res (yield1 i). Proof. intros. repeat constructor; auto. Qed.
  Lemma ok_copy c i : of_document w c -> of_document w i -> of_document w (copy w c i).
  Proof. unfold copy. destruct (truthy w i); auto. Qed.
  Lemma ok_test t c : of_document w c -> ok_res (test w t c).
  Proof.
    intros H. destruct t as [|n| |]; cbn [test]; try (apply ok_yield; auto).
    - destruct c; try apply ok_nothing. destruct (node_at w a) as [[m ats ks|s]|]; try apply ok_nothing. destruct (str_eqb m n); [apply ok_yield; auto|apply ok_nothing].
    - destruct (is_node c || _); [apply ok_yield; auto|apply ok_nothing].
    - destruct (as_str w c); [apply ok_yield; auto|apply ok_nothing].
  Qed.
  Definition ok_addrs (l : list addr) : Prop := forall a, In a l -> subtree D a <> None.
  Lemma ok_addr_item a : subtree D a <> None -> of_document w (INode a).
  Proof. intros H. cbn. destruct (subtree D a); [eauto|congruence]. Qed.
  Lemma ok_addr_items l : ok_addrs l -> Forall (of_document w) (map INode l).
  Proof. intros H. rewrite Forall_forall. intros i Hi. apply in_map_iff in Hi as (a & <- & Ha). apply ok_addr_item, H, Ha. Qed.
  Lemma ok_test_all t c l : of_document w c -> ok_addrs l -> ok_res (test_all w t c l).
  Proof. intros Hc H. apply ok_bindl; [apply ok_addr_items, H|]. intros i Hi. apply ok_test, ok_copy; auto. Qed.
  Lemma ok_kids c l : of_document w c -> kids w c = Some l -> ok_addrs l.
  Proof.
    intros Hc E a Ha. destruct c; cbn in E; try discriminate; inversion E; subst; [destruct Ha as [<-|[]]; discriminate|]. apply kid_addrs_in in Ha. tauto.
  Qed.
  Lemma ok_parent c p : of_document w c -> parent c = Some (Some p) -> subtree D p <> None.
  Proof.
    intros Hc E. destruct c as [|a|a k v|s|z|f|b]; try discriminate.
    - destruct a as [|x q _] using rev_ind; [discriminate|]. rewrite parent_snoc in E. inversion E; subst. destruct Hc as (u & Hu). apply parent_elem in Hu as (n & ats & ks & H & _). congruence.
    - inversion E; subst. destruct Hc as (n & ats & ks & H & _). congruence.
  Qed.
  Lemma ok_prefix p r : subtree D (p ++ r) <> None -> subtree D p <> None.
  Proof. rewrite subtree_app. destruct (subtree D p); congruence. Qed.
  Lemma ok_process l : ok_addrs l -> ok_addrs (process w l).
  Proof.
    unfold process. generalize (tree_size D) as n. intros n. revert l. induction n as [|n IH]; intros [|a l] H b Hb; cbn in Hb; try (destruct Hb; fail).
    destruct Hb as [<-|Hb]; [apply H; left; auto|]. apply (IH (kid_addrs w a ++ l)); [|exact Hb]. intros c Hc.
    apply in_app_iff in Hc as [Hc|Hc]; [apply kid_addrs_in in Hc; tauto|apply H; right; auto].
  Qed.
  Lemma ok_ancestors a n : subtree D a <> None -> ok_addrs (ancestors_of a n).
  Proof.
    revert a. induction n as [|n IH]; intros a Ha b Hb; cbn in Hb; [destruct Hb|]. destruct a as [|i a]; [destruct Hb|].
    assert (H : subtree D (removelast (i :: a)) <> None).
    { destruct (exists_last (l := i :: a)) as (q & x & Eq); [discriminate|]. rewrite Eq in *. rewrite removelast_snoc. eapply ok_prefix; eauto. }
    destruct Hb as [<-|Hb]; [auto|]. apply (IH _ H b Hb).
  Qed.
  Lemma ok_sub l m : ok_addrs l -> (forall a, In a m -> In a l) -> ok_addrs m.
  Proof. intros H Hm a Ha. apply H, Hm, Ha. Qed.
  Lemma ok_kid_addrs p : ok_addrs (kid_addrs w p).
  Proof. intros a Ha. apply kid_addrs_in in Ha. tauto. Qed.
  Lemma ok_with_root c : ok_res (with_root w c yield1).
  Proof. unfold with_root, root_of. destruct c; try apply ok_raise; [apply ok_yield; exact I|]. destruct (is_elem_at w a); [apply ok_yield; exact I|apply ok_raise]. Qed.
  Lemma ok_step n ax t c : of_document w c -> ok_res (step w n ax t c).
  Proof.
    intros Hc. assert (HP := ok_parent c). destruct ax; cbn [step].
    - apply ok_test; auto.
    - destruct (kids w c) as [l|] eqn:E; [|apply ok_raise]. apply ok_test_all; auto. pose proof (ok_kids c l Hc E) as Hl. destruct (is_name_test t); [|auto].
      eapply ok_sub; [exact Hl|]. intros a Ha. apply filter_In in Ha. tauto.
    - destruct c as [|a|a k v|s|z|f|b]; try apply ok_nothing. destruct (node_at w a) as [[m ats ks|s]|] eqn:E; try apply ok_nothing. unfold ok_res. cbn [fst].
      rewrite Forall_forall. intros i Hi. apply in_map_iff in Hi as ([k v] & <- & Hi). apply filter_In in Hi as [Hi _]. cbn. exists m, ats, ks. auto.
    - destruct (parent c) as [p|] eqn:E; [|apply ok_raise]. apply ok_seq2; [|apply ok_with_root]. apply ok_test_all; auto. destruct p as [p|]; [|intros a []].
      specialize (HP p Hc eq_refl). intros a [<-|Ha]; [auto|]. eapply ok_ancestors; eauto.
    - apply ok_seq2; [apply ok_test; auto|]. destruct (parent c) as [[p|]|] eqn:E; try apply ok_raise. specialize (HP p Hc eq_refl).
      assert (K : ok_res (test_all w t c (repeat p n))) by (apply ok_test_all; auto; intros a Ha; apply repeat_spec in Ha; subst; auto).
      destruct (test_all w t c (repeat p n)) as [l f]. exact K.
    - destruct (kids w c) as [l|] eqn:E; [|apply ok_raise]. apply ok_test_all; auto. apply ok_process. eapply ok_kids; eauto.
    - apply ok_seq2; [apply ok_test; auto|]. destruct (kids w c) as [l|] eqn:E; [|apply ok_raise]. apply ok_test_all; auto. apply ok_process. eapply ok_kids; eauto.
    - destruct (parent c) as [[p|]|] eqn:E; try apply ok_raise; try apply ok_nothing. destruct (sibling_index w p c) as [i|]; [|apply ok_raise]. apply ok_test_all; auto.
      apply ok_process. eapply ok_sub; [apply (ok_kid_addrs p)|]. intros a Ha. rewrite <- (firstn_skipn (S i)). apply in_app_iff; auto.
    - destruct (parent c) as [[p|]|] eqn:E; try apply ok_raise; try apply ok_nothing. destruct (sibling_index w p c) as [i|]; [|apply ok_raise]. apply ok_test_all; auto.
      eapply ok_sub; [apply (ok_kid_addrs p)|]. intros a Ha. rewrite <- (firstn_skipn (S i)). apply in_app_iff; auto.
    - destruct (parent c) as [[p|]|] eqn:E; try apply ok_raise; [|apply ok_with_root]. specialize (HP p Hc eq_refl). apply ok_test_all; auto. intros a [<-|[]]; auto.
    - destruct (parent c) as [[p|]|] eqn:E; try apply ok_raise; try apply ok_nothing. destruct (sibling_index w p c) as [i|]; [apply ok_nothing|apply ok_raise].
    - destruct (parent c) as [[p|]|] eqn:E; try apply ok_raise; try apply ok_nothing. destruct (sibling_index w p c) as [i|]; [|apply ok_raise]. apply ok_test_all; auto.
      eapply ok_sub; [apply (ok_kid_addrs p)|]. intros a Ha. apply in_rev in Ha. rewrite <- (firstn_skipn i). apply in_app_iff; auto.
  Qed.
  Lemma ok_abbrev u c : of_document w c -> ok_res (abbrev w u c).
  Proof.
    intros Hc. unfold abbrev. destruct u; [|apply ok_yield; auto]. destruct (parent c) as [[p|]|] eqn:E; [|apply ok_with_root|apply ok_raise].
    apply ok_yield, ok_addr_item. eapply ok_parent; eauto.
  Qed.
  Lemma ok_bool b : of_document w (IBool b). Proof. exact I. Qed.
  Lemma keyed_map c l ks : keyed w c l = Some ks -> map snd ks = l.
  Proof.
    revert ks. induction l as [|i l IH]; intros ks E; cbn in E; [inversion E; reflexivity|]. destruct (docorder w c i); [|discriminate].
    destruct (keyed w c l); [|discriminate]. inversion E; subst. cbn. f_equal. auto.
  Qed.
  Lemma insert_perm x l : Permutation (insert_by x l) (x :: l).
  Proof.
    induction l as [|y l IH]; cbn; [reflexivity|]. destruct (fst x <=? fst y); [reflexivity|]. rewrite IH. apply perm_swap.
  Qed.
  Lemma sort_perm l : Permutation (sort_by l) l.
  Proof. induction l as [|x l IH]; cbn; [reflexivity|]. rewrite insert_perm, IH. reflexivity. Qed.
  Lemma ok_union c l r : ok_res l -> ok_res r -> ok_res (union w c l r).
  Proof.
    intros Hl Hr. unfold union. destruct (parent c); [|apply ok_raise]. apply ok_collected; [auto|]. intros l1 H1. apply ok_collected; [auto|]. intros l2 H2.
    destruct (keyed w c (l1 ++ l2)) as [ks|] eqn:E; [|apply ok_raise]. apply keyed_map in E. unfold ok_res. cbn [fst].
    rewrite (Permutation_map snd (sort_perm ks)), E. apply ok_app; auto.
  Qed.
  Lemma ok_equality l r : ok_res (equality w l r).
  Proof.
    destruct l as [[|i l] f]; cbn [equality]; [destruct f; repeat constructor|]. destruct (eq_scan w (plain w i) (fst r) (snd r)) as [[]|]; [repeat constructor| |constructor].
    destruct f; repeat constructor.
  Qed.
  Lemma ok_here c : of_document w c -> of_document w (here c).
  Proof. destruct c as [| |a k v []| | | |]; exact (fun H => H). Qed.
  Lemma ok_binary op c l r : of_document w c -> (forall i, of_document w i -> ok_res (l i)) -> (forall i, of_document w i -> ok_res (r i)) -> ok_res (binary w op c l r).
  Proof.
    intros Hc Hl Hr. assert (Hf : forall f, (forall i j, ok_res (f i j)) ->
      ok_res (first (l c) (raise RuntimeErr) (fun i => first (r c) (raise RuntimeErr) (f i)))).
    { intros f Hfk. apply ok_first; [auto|apply ok_raise|]. intros i _. apply ok_first; [auto|apply ok_raise|]. auto. }
    destruct op; cbn [binary]; try (apply Hf; intros i j; try (destruct (py_cmp w i j)); try apply ok_raise; apply ok_yield, ok_bool).
    - apply ok_bind; [auto|]. intros i Hi. apply Hr, ok_copy; auto.
    - apply ok_bind; [auto|]. intros i Hi. apply Hr, ok_copy; auto.
    - apply ok_union; auto.
    - apply ok_equality.
    - apply ok_first; [apply Hl, ok_here, Hc|apply ok_raise|]. intros i _. apply ok_first; [apply Hr, ok_here, Hc|apply ok_raise|]. intros j _. apply ok_yield, ok_bool.
    - apply ok_first; [auto|apply ok_raise|]. intros i Hi. destruct (truthy w i); [apply ok_yield; auto|]. apply ok_first; [auto|apply ok_raise|]. intros; apply ok_yield; auto.
    - apply ok_first; [auto|apply ok_raise|]. intros i Hi. destruct (truthy w i); [|apply ok_yield; auto]. apply ok_first; [auto|apply ok_raise|]. intros; apply ok_yield; auto.
    - apply ok_raise.
  Qed.
  Lemma ok_predicated c l f ps : forall pos, Forall (of_document w) l -> ok_res (predicated w pos c l f ps).
  Proof.
    induction l as [|i l IH]; intros pos H; [constructor|]. inversion H; subst. rewrite predicated_seq2. destruct (verdict_of w pos (copy w c i) ps); [|auto|constructor].
    apply ok_seq2; [apply ok_yield; auto|auto].
  Qed.
  Lemma ok_absolute d c r : of_document w c -> (forall jn ev, r = Some (jn, ev) -> forall i, of_document w i -> ok_res (ev i)) -> ok_res (absolute w d c r).
  Proof.
    intros Hc Hr. unfold absolute, with_root. destruct (root_of w c) as [rt|] eqn:E; [|apply ok_raise].
    assert (rt = IRoot) as -> by (destruct c; cbn in E; try discriminate; [inversion E; auto|]; destruct (is_elem_at w a); inversion E; auto).
    destruct r as [[jn ev]|]; [|apply ok_yield; exact I]. specialize (Hr jn ev eq_refl). apply ok_seq2; [destruct jn; [apply ok_yield; exact I|apply ok_nothing]|].
    apply ok_seq2; [apply Hr; exact I|]. destruct d; [|apply ok_nothing]. apply ok_bindl.
    - apply ok_addr_items, ok_process. intros a [<-|[]]. discriminate.
    - intros i Hi. apply Hr, ok_copy; auto.
  Qed.
  Lemma ok_to_string i : of_document w i -> of_document w (to_string w i).
  Proof.
    intros H. unfold to_string. destruct (as_str w i); [auto|]. destruct (node_strval w i); [exact I|]. destruct i; try exact I; try exact H. destruct b; exact I.
  Qed.
  Lemma ok_string_arg r k : ok_res r -> (forall i, of_document w i -> ok_res (k i)) -> ok_res (string_arg w r k).
  Proof. intros H Hk. unfold string_arg. apply ok_first; [auto|apply Hk; exact I|]. intros i Hi. apply Hk, ok_to_string, Hi. Qed.
  Lemma ok_or_raise r : (forall i, r = inl i -> of_document w i) -> ok_res (or_raise r).
  Proof. destruct r; intros H; [apply ok_yield; auto|apply ok_raise]. Qed.
  Lemma ok_float s : forall i, float_item w s = inl i -> of_document w i.
  Proof. unfold float_item. destruct (to_float w s); intros i E; inversion E; exact I. Qed.
  Ltac ok_tac := repeat first
    [ apply ok_raise | apply ok_nothing | (apply ok_yield; first [exact I|assumption|apply ok_to_string; assumption|idtac])
    | apply ok_first; [solve [auto]| |intros ? ?] | apply ok_collected; [solve [auto]|intros ? ?] | apply ok_string_arg; [solve [auto]|intros ? ?]
    | progress intros ].
  Lemma ok_call d f raw args c : of_document w c -> Forall (fun x : item -> list item * fin => forall i, of_document w i -> ok_res (x i)) args ->
    (forall ev, d = Some ev -> forall e i, of_document w i -> ok_res (ev e i)) -> ok_res (call w d f raw args c).
  Proof.
    intros Hc H Hd. unfold call. destruct (dict_get builtins f) as [fn|]; [|apply ok_raise].
    assert (Hall : ok_res (seq_all (map (fun x => x c) args))).
    { apply ok_seq_all. clear - H Hc. induction H; cbn; constructor; auto. }
    destruct H as [|x l Hx H].
    { destruct fn; try (ok_tac; fail). destruct (length [] =? min); apply ok_raise. }
    destruct H as [|y l Hy H].
    { destruct fn; try (ok_tac; fail).
      - ok_tac. destruct (as_str w i); [apply ok_yield; exact I|apply ok_raise].
      - apply ok_first; [auto|apply ok_or_raise, ok_float|]. intros i Hi. apply ok_or_raise. intros j. unfold to_number.
        destruct (as_str w i); [apply ok_float|]. destruct (node_strval w i); [apply ok_float|]. intros E; inversion E; subst; auto.
      - destruct (length [x] =? min); apply ok_raise. }
    destruct H as [|z l Hz H].
    { destruct fn; try (ok_tac; fail).
      - apply ok_string_arg; [auto|]. intros i Hi. apply ok_string_arg; [auto|]. intros j Hj. destruct (str_of w j); [apply ok_raise|]. destruct (find_sub _ _); [apply ok_yield; exact I|apply ok_yield; auto].
      - apply ok_string_arg; [auto|]. intros i Hi. apply ok_string_arg; [auto|]. intros j Hj. destruct (str_of w j); [apply ok_raise|]. destruct (find_sub _ _); apply ok_yield; exact I.
      - apply ok_string_arg; [auto|]. intros i Hi. destruct (xparse w (str_of w i)); [|apply ok_raise]. apply ok_bind; [auto|]. intros j Hj. destruct d as [ev|] eqn:Ed; [|constructor].
        apply (Hd ev eq_refl), ok_copy; auto.
      - destruct (length [x; y] =? min); apply ok_raise. }
    destruct H as [|z0 l Hz0 H].
    { destruct fn; try (ok_tac; fail).
      - apply ok_string_arg; [auto|]. intros i Hi. destruct raw as [|r0 [|r1 [|r2 [|r3 raw]]]]; try apply ok_raise. destruct (int_arg w r1); [|apply ok_raise]. destruct (int_arg w r2); [|apply ok_raise]. apply ok_yield; exact I.
      - destruct (length [x; y; z] =? min); apply ok_raise. }
    destruct fn; try (ok_tac; fail). destruct (_ =? min); apply ok_raise.
  Qed.
  Hypothesis Hvars : forall n i, dict_get (vars w) n = Some i -> of_document w i.
  Lemma eval_ok n : forall e c, of_document w c -> ok_res (eval w n e c).
  Proof.
    induction n as [|n IHn].
    1: assert (Hd : forall ev, dyn_of w 0 = Some ev -> forall e i, of_document w i -> ok_res (ev e i)) by discriminate.
    2: assert (Hd : forall ev, dyn_of w (S n) = Some ev -> forall e i, of_document w i -> ok_res (ev e i)) by (intros ev E; cbn in E; inversion E; subst; auto).
    all: intros e; induction e as [l|e IHe|l op r IHl IHr|d|d e IHe|ax t|e ps IHe IHps|t|u|v|f l IHl|l IHl] using expr_ind'; intros c Hc.
    all: rewrite ?eval_lit, ?eval_neg, ?eval_bin, ?eval_root, ?eval_abs, ?eval_step, ?eval_pred, ?eval_test, ?eval_abbrev, ?eval_var, ?eval_call, ?eval_seq.
    all: try (destruct l; apply ok_yield; exact I).
    all: try (apply ok_first; [auto|apply ok_raise|intros; apply ok_raise]).
    all: try (apply ok_binary; auto; intros i Hi; unfold right_of; (destruct op; auto); (destruct r; auto); apply ok_step; auto).
    all: try (apply ok_absolute; auto; intros jn ev E; inversion E; subst; auto).
    all: try (apply ok_step; auto).
    all: try (apply ok_predicated; apply IHe; auto).
    all: try (apply ok_test; auto).
    all: try (apply ok_abbrev; auto).
    all: try (destruct (dict_get (vars w) v) eqn:E; [apply ok_yield; eauto|apply ok_raise]).
    all: try (apply ok_call; auto; clear - IHl; induction IHl; cbn [map]; constructor; auto).
    all: apply ok_seq_all; clear - IHl Hc; induction IHl; cbn [map]; constructor; auto.
  Qed.
End More.

(** ** Evaluating again after the steps have been rewritten *)
Section Again.
  Variable w : env.
  Lemma evaluated_just e e' : evaluated e e' -> just_node e = just_node e'.
  Proof. destruct 1; reflexivity. Qed.
  Lemma evaluated_int e e' : evaluated e e' -> int_arg w e = int_arg w e'.
  Proof. destruct 1; reflexivity. Qed.
  Lemma bindl_ext l f k k' : (forall i, k i = k' i) -> bindl l f k = bindl l f k'.
  Proof. intros H. induction l as [|i l IH]; [reflexivity|]. rewrite !bindl_seq2, H, IH. reflexivity. Qed.
  Lemma first_ext r n k k' : (forall i, k i = k' i) -> first r n k = first r n k'.
  Proof. intros H. destruct r as [[|i l] f]; cbn; auto. Qed.
  Lemma binary_ext op c l l' r r' : (forall i, l i = l' i) -> (forall i, r i = r' i) -> binary w op c l r = binary w op c l' r'.
  Proof.
    intros Hl Hr. destruct op; cbn [binary]; rewrite ?Hl, ?Hr; try reflexivity.
    - unfold bind. apply bindl_ext. auto.
    - unfold bind. apply bindl_ext. auto.
  Qed.
  Lemma verdict_ext pos c ps ps' : Forall2 (fun p p' : item -> list item * fin => forall i, p i = p' i) ps ps' -> verdict_of w pos c ps = verdict_of w pos c ps'.
  Proof.
    induction 1 as [|p p' ps ps' Hp _ IH]; [reflexivity|]. cbn [verdict_of]. rewrite Hp, IH. reflexivity.
  Qed.
  Lemma predicated_ext c l f ps ps' : Forall2 (fun p p' : item -> list item * fin => forall i, p i = p' i) ps ps' ->
    forall pos, predicated w pos c l f ps = predicated w pos c l f ps'.
  Proof.
    intros H. induction l as [|i l IH]; intros pos; [reflexivity|]. rewrite !predicated_seq2, (verdict_ext pos (copy w c i) ps ps' H), IH. reflexivity.
  Qed.
  Lemma absolute_ext d c jn r r' : (forall i, r i = r' i) -> absolute w d c (Some (jn, r)) = absolute w d c (Some (jn, r')).
  Proof.
    intros H. unfold absolute, with_root. destruct (root_of w c); [|reflexivity]. rewrite H. f_equal. f_equal. destruct d; [|reflexivity]. apply bindl_ext. auto.
  Qed.
  Lemma call_ext d f raw raw' args args' c : Forall2 evaluated raw raw' ->
    Forall2 (fun p p' : item -> list item * fin => forall i, p i = p' i) args args' -> call w d f raw args c = call w d f raw' args' c.
  Proof.
    intros Hr H. unfold call. destruct (dict_get builtins f) as [fn|]; [|reflexivity].
    assert (Hall : map (fun x => x c) args = map (fun x => x c) args') by (clear - H; induction H as [|x x' l l' Hx _ IH]; cbn; [reflexivity|]; rewrite Hx, IH; reflexivity).
    assert (Hlen : length args = length args') by (clear - H; induction H; cbn; auto). rewrite Hall, Hlen.
    destruct H as [|x x' l l' Hx H]; [reflexivity|]. rewrite !Hx.
    destruct H as [|y y' l l' Hy H]; [reflexivity|]. rewrite !Hy.
    destruct H as [|z z' l l' Hz H]; [reflexivity|].
    destruct H as [|z0 z0' l l' Hz0 H]; [|reflexivity]. destruct fn; try reflexivity.
    destruct Hr as [|r1 r1' l l' E1 Hr]; [reflexivity|]. destruct Hr as [|r2 r2' l l' E2 Hr]; [reflexivity|].
    destruct Hr as [|r3 r3' l l' E3 Hr]; [reflexivity|]. destruct Hr as [|r4 r4' l l' E4 Hr]; [|reflexivity].
    rewrite (evaluated_int _ _ E2), (evaluated_int _ _ E3). reflexivity.
  Qed.
  Lemma evaluated_right n op r r' : evaluated r r' -> (forall c, eval w n r c = eval w n r' c) -> forall c, right_of w n op r c = right_of w n op r' c.
  Proof.
    intros H E c. unfold right_of. destruct op; auto. destruct H; auto.
  Qed.
  Lemma eval_again n : forall e e', evaluated e e' -> forall c, eval w n e c = eval w n e' c.
  Proof.
    intros e. induction e as [l|e IHe|l op r IHl IHr|d|d e IHe|ax t|e ps IHe IHps|t|u|v|f l IHl|l IHl] using expr_ind'; intros e2 H; inversion H; subst; intros c.
    all: rewrite ?eval_lit, ?eval_neg, ?eval_bin, ?eval_root, ?eval_abs, ?eval_step, ?eval_pred, ?eval_test, ?eval_abbrev, ?eval_var, ?eval_call, ?eval_seq; try reflexivity.
    - erewrite IHe by eassumption. reflexivity.
    - apply binary_ext; [auto|]. apply evaluated_right; auto.
    - apply binary_ext; [auto|]. intros i. reflexivity.
    - erewrite evaluated_just by eassumption. apply absolute_ext. auto.
    - erewrite IHe by eassumption. apply predicated_ext.
      match goal with F : Forall2 evaluated _ _ |- _ => clear - IHps F; induction F as [|p p' ps ps' Hp _ IH]; cbn [map]; [constructor|]; inversion IHps; subst; constructor; auto end.
    - apply call_ext; [auto|].
      match goal with F : Forall2 evaluated _ _ |- _ => clear - IHl F; induction F as [|p p' ps ps' Hp _ IH]; cbn [map]; [constructor|]; inversion IHl; subst; constructor; auto end.
    - f_equal.
      match goal with F : Forall2 evaluated _ _ |- _ => clear - IHl F; induction F as [|p p' ps ps' Hp _ IH]; cbn [map]; [reflexivity|]; inversion IHl; subst; f_equal; auto end.
  Qed.
End Again.
