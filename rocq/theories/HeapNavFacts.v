From Verif Require Import PyStr Parser ParserInv XTree Tree Path TreeUtil Heap Builder HeapSpec HeapFacts RootCache RootSpec RootFacts DocOrder DocOrderSpec DocOrderFacts.
From Verif Require Import XPath XPathSpec XPathFacts HeapNav HeapNavSpec.

Lemma follow_app h r a b : follow h r (a ++ b) = match follow h r a with Some i => follow h i b | None => None end.
Proof.
  revert r. induction a as [|k a IH]; intros r; cbn [app follow]; [reflexivity|].
  destruct (hp h r) as [o|]; [|reflexivity]. destruct (nth_error (okids o) k); auto.
Qed.
Lemma holds_all_nth h q is ts ids : holds_all h q is ts ids -> length is = length ts /\ forall k,
  match nth_error is k, nth_error ts k with
  | Some i, Some t => exists ids', holds h (Some q) i t ids'
  | None, None => True
  | _, _ => False
  end.
Proof.
  induction 1 as [|q i is t ts ids idss Hh Ha [IH1 IH2]]; cbn [length].
  - split; [reflexivity|]. intros [|k]; cbn; exact I.
  - split; [auto|]. intros [|k]; cbn [nth_error]; [eauto|apply IH2].
Qed.
(** Positions and objects correspond, with their subtrees. *)
Lemma follow_sub h a : forall p r t ids, holds h p r t ids ->
  match follow h r a, subtree t a with
  | Some i, Some u => exists q ids', holds h q i u ids'
  | None, None => True
  | _, _ => False
  end.
Proof.
  induction a as [|k a IH]; intros p r t ids H; cbn [follow subtree]; [eauto|].
  inversion H as [p' i n at_ is ks idss Ho Ha|p' i s Ho]; subst; rewrite Ho; cbn [okids].
  - pose proof (proj2 (holds_all_nth _ _ _ _ _ Ha) k) as K.
    destruct (nth_error is k) as [j|], (nth_error ks k) as [u|]; try contradiction; [|exact I]. destruct K as (ids' & K). eapply IH; exact K.
  - destruct k; cbn; exact I.
Qed.

Section Doc.
  Variable h : heap.
  Variable r : ref.
  Variable w : env.
  Hypothesis W : well_linked h.
  Hypothesis D : document h r (doc w).
  Definition rel : addr -> ref -> Prop := fun a i => follow h r a = Some i.

  Lemma rel_holds a i : rel a i -> exists u q ids, subtree (doc w) a = Some u /\ holds h q i u ids.
  Proof.
    intros H. destruct D as [_ (ids & Hd)]. pose proof (follow_sub h a _ _ _ _ Hd) as K. unfold rel in H. rewrite H in K.
    destruct (subtree (doc w) a) as [u|]; [|contradiction]. destruct K as (q & ids' & K). eauto.
  Qed.
  Lemma rel_some a : subtree (doc w) a <> None -> exists i, rel a i.
  Proof.
    intros H. destruct D as [_ (ids & Hd)]. pose proof (follow_sub h a _ _ _ _ Hd) as K. unfold rel.
    destruct (follow h r a) as [i|]; [eauto|]. destruct (subtree (doc w) a); [contradiction|congruence].
  Qed.
  Lemma rel_elem a i : rel a i -> is_elem_at w a = helem h i /\ text_at w a = htext h i.
  Proof.
    intros H. destruct (rel_holds a i H) as (u & q & ids & E & Hh). unfold is_elem_at, text_at, helem, htext, node_at. rewrite E.
    inversion Hh as [p' j n at_ is ks idss Ho Ha|p' j s Ho]; subst; rewrite Ho; auto.
  Qed.
  Lemma rel_snoc a i k j : rel a i -> (rel (a ++ [k]) j <-> exists o, hp h i = Some o /\ nth_error (okids o) k = Some j).
  Proof.
    intros H. unfold rel in *. rewrite follow_app, H. cbn [follow]. destruct (hp h i) as [o|]; split.
    - destruct (nth_error (okids o) k) as [j'|] eqn:E; [|discriminate]. intros K. injection K as ->. eauto.
    - intros (o' & Eo & En). injection Eo as <-. rewrite En. reflexivity.
    - discriminate.
    - intros (o' & Eo & En). discriminate.
  Qed.
  Lemma rel_kids a i : rel a i -> Forall2 rel (kid_addrs w a) (hkids1 h i).
  Proof.
    intros H. destruct (rel_holds a i H) as (u & q & ids & E & Hh). unfold kid_addrs, node_at, hkids1. rewrite E.
    inversion Hh as [p' j n at_ is ks idss Ho Ha|p' j s Ho]; subst; rewrite Ho; cbn [okids]; [|constructor].
    assert (K : forall pre rest, is = pre ++ rest -> Forall2 rel (map (fun n => a ++ [n]) (seq (length pre) (length rest))) rest).
    { intros pre rest. revert pre. induction rest as [|j rest IH]; intros pre Ei; cbn [length seq map]; [constructor|]. constructor.
      - apply (rel_snoc a i _ _ H). eexists. split; [exact Ho|]. cbn [okids]. rewrite Ei, nth_error_app2 by auto. rewrite Nat.sub_diag. reflexivity.
      - specialize (IH (pre ++ [j])). rewrite <- app_assoc in IH. specialize (IH Ei). rewrite app_length in IH. cbn [length] in IH. rewrite Nat.add_1_r in IH. exact IH. }
    rewrite <- (proj1 (holds_all_nth _ _ _ _ _ Ha)). exact (K [] is eq_refl).
  Qed.
  Lemma rel_parent a i k j : rel a i -> rel (a ++ [k]) j -> xml_parent h j = Some i.
  Proof.
    intros H1 H2. apply (rel_snoc a i k j H1) in H2 as (o & Ho & Hn). destruct W as (A & L & N & T).
    assert (C : child h i j) by (exists o; split; [auto|eapply nth_error_In; eauto]). apply L in C.
    apply (parent_live h j i W C).
  Qed.
  Lemma rel_pre a k j : rel (a ++ [k]) j -> exists i, rel a i.
  Proof. unfold rel. rewrite follow_app. destruct (follow h r a) as [i|]; [eauto|discriminate]. Qed.
  Lemma rel_top : xml_parent h r = None.
  Proof. destruct D as [(o & Ho & Ep) _]. unfold xml_parent. rewrite Ho, Ep. reflexivity. Qed.
  Lemma rel_nil i : rel [] i -> i = r. Proof. intros H. injection H as <-. reflexivity. Qed.
  Lemma rel_fun a i j : rel a i -> rel a j -> i = j. Proof. unfold rel. congruence. Qed.
  Lemma rel_inj a : forall b i, rel a i -> rel b i -> a = b.
  Proof.
    induction a as [|k a IH] using rev_ind; intros b i H1 H2.
    - apply rel_nil in H1 as ->. destruct b as [|k b _] using rev_ind; [reflexivity|]. destruct (rel_pre _ _ _ H2) as (p & Hp).
      pose proof (rel_parent _ _ _ _ Hp H2) as E. rewrite rel_top in E. discriminate.
    - destruct (rel_pre _ _ _ H1) as (p & Hp). pose proof (rel_parent _ _ _ _ Hp H1) as E1. destruct b as [|k' b _] using rev_ind.
      + apply rel_nil in H2 as ->. rewrite rel_top in E1. discriminate.
      + destruct (rel_pre _ _ _ H2) as (p' & Hp'). pose proof (rel_parent _ _ _ _ Hp' H2) as E2. assert (p' = p) as -> by congruence.
        pose proof (IH b p Hp Hp') as Eab. subst b. f_equal. apply (rel_snoc a p k i Hp) in H1 as (o & Ho & Hn). apply (rel_snoc a p k' i Hp) in H2 as (o' & Ho' & Hn').
        assert (o' = o) as -> by congruence. destruct W as (_ & _ & N & _). specialize (N p o Ho). rewrite NoDup_nth_error in N. f_equal. apply N.
        * apply nth_error_Some. congruence.
        * congruence.
  Qed.

  (** Lists *)
  Lemma F2_app {A B} (P : A -> B -> Prop) l1 l2 m1 m2 : Forall2 P l1 m1 -> Forall2 P l2 m2 -> Forall2 P (l1 ++ l2) (m1 ++ m2).
  Proof. intros. apply Forall2_app; auto. Qed.
  Lemma F2_skipn {A B} (P : A -> B -> Prop) n l m : Forall2 P l m -> Forall2 P (skipn n l) (skipn n m).
  Proof. intros H. revert n. induction H as [|x y l m Hx H IH]; intros [|n]; cbn [skipn]; auto. Qed.
  Lemma F2_firstn {A B} (P : A -> B -> Prop) n l m : Forall2 P l m -> Forall2 P (firstn n l) (firstn n m).
  Proof. intros H. revert n. induction H as [|x y l m Hx H IH]; intros [|n]; cbn [firstn]; auto. Qed.
  Lemma F2_rev {A B} (P : A -> B -> Prop) l m : Forall2 P l m -> Forall2 P (rev l) (rev m).
  Proof. induction 1; cbn [rev]; [constructor|]. apply Forall2_app; auto. Qed.
  Lemma F2_filter {A B} (P : A -> B -> Prop) f g l m : (forall x y, P x y -> f x = g y) -> Forall2 P l m -> Forall2 P (filter f l) (filter g m).
  Proof. intros K. induction 1 as [|x y l m Hx H IH]; cbn [filter]; [constructor|]. rewrite (K x y Hx). destruct (g y); auto. Qed.
  Lemma F2_find {A B} (P : A -> B -> Prop) f g l m : (forall x y, P x y -> f x = g y) -> Forall2 P l m -> find_index f l = find_index g m.
  Proof. intros K. induction 1 as [|x y l m Hx H IH]; cbn [find_index]; [reflexivity|]. rewrite (K x y Hx), IH. reflexivity. Qed.
  Lemma F2_repeat {A B} (P : A -> B -> Prop) x y n : P x y -> Forall2 P (repeat x n) (repeat y n).
  Proof. intros H. induction n; cbn [repeat]; auto. Qed.

  (** Tests *)
  Lemma test_rel t x y : stands h r x y -> exists l, test w t x = (l, Done) /\ Forall2 (stands h r) l (htest h t y).
  Proof.
    intros H. assert (One : Forall2 (stands h r) [x] [y]) by auto.
    assert (Nil : Forall2 (stands h r) [] []) by constructor.
    destruct H as [q Hq|a i Hi|a i k v o Hi]; destruct t as [|n| |]; cbn [test htest is_node orb as_str]; unfold yield1, nothing;
      try (eexists; split; [reflexivity|exact One]); try (eexists; split; [reflexivity|exact Nil]).
    - unfold node_at. destruct (rel_holds a i Hi) as (u & q & ids & E & Hh). rewrite E.
      inversion Hh as [p' j m at_ is ks idss Ho Ha|p' j s Ho]; subst; rewrite Ho; [|eauto]. destruct (str_eqb m n); eauto.
    - rewrite (proj2 (rel_elem a i Hi)). destruct (htext h i); eauto.
  Qed.
  Lemma copy_rel x y a i : stands h r x y -> rel a i -> stands h r (copy w x (INode a)) (hcopy h y i).
  Proof.
    intros H Ha. unfold copy, hcopy, truthy. rewrite (proj2 (rel_elem a i Ha)). destruct (htext h i) as [[|ch s]|]; auto; constructor; exact Ha.
  Qed.
  Lemma test_all_rel t x y l m : stands h r x y -> Forall2 rel l m ->
    exists l', test_all w t x l = (l', Done) /\ Forall2 (stands h r) l' (htest_all h t y m).
  Proof.
    intros H. unfold test_all, htest_all. induction 1 as [|a i l m Ha Hl IH]; cbn [map bindl flat_map]; [eauto|].
    destruct (test_rel t _ _ (copy_rel x y a i H Ha)) as (l1 & E1 & F1). destruct IH as (l2 & E2 & F2). rewrite E1, E2. eauto using F2_app.
  Qed.

  (** Loops *)
  Lemma rel_valid l m : Forall2 rel l m -> forall a, In a l -> subtree (doc w) a <> None.
  Proof.
    induction 1 as [|a i l m Ha Hl IH]; intros b Hb; [destruct Hb|]. destruct Hb as [<-|Hb]; [|auto].
    destruct (rel_holds a i Ha) as (u & q & ids & E & _). congruence.
  Qed.
  Lemma hwork_rel n : forall l m, Forall2 rel l m -> total w l <= n -> exists m', hwork h n m = (m', true) /\ Forall2 rel (worklist w n l) m'.
  Proof.
    induction n as [|n IH]; intros l m H Hn.
    - destruct H as [|a i l m Ha Hl]; [exists []; split; [reflexivity|constructor]|]. exfalso. destruct (rel_holds a i Ha) as (u & q & ids & E & _).
      cbn [total fold_right] in Hn. unfold size_at in Hn. rewrite E in Hn. destruct u; cbn in Hn; lia.
    - destruct H as [|a i l m Ha Hl]; [exists []; split; [reflexivity|constructor]|]. cbn [hwork worklist].
      destruct (IH (kid_addrs w a ++ l) (hkids1 h i ++ m)) as (m' & E & F).
      + apply F2_app; [apply rel_kids; auto|auto].
      + rewrite total_app. change (total w (a :: l)) with (size_at w a + total w l) in Hn. unfold size_at in Hn.
        destruct (rel_holds a i Ha) as (u & q & ids & Eu & _). rewrite Eu in Hn. apply total_kids in Eu. lia.
      + rewrite E. exists (i :: m'). auto.
  Qed.
  Lemma process_rel fuel l m : Forall2 rel l m -> total w l <= tree_size (doc w) -> tree_size (doc w) <= fuel ->
    exists m', hwork h fuel m = (m', true) /\ Forall2 rel (process w l) m'.
  Proof.
    intros H Ht Hf. destruct (hwork_rel fuel l m H ltac:(lia)) as (m' & E & F). exists m'. split; [exact E|].
    unfold process. rewrite (worklist_flat w) by (auto using (rel_valid _ _ H)). rewrite (worklist_flat w) in F by (try lia; exact (rel_valid _ _ H)). exact F.
  Qed.
  Lemma total_kids_le a u : subtree (doc w) a = Some u -> forall n, total w (skipn n (kid_addrs w a)) <= tree_size (doc w).
  Proof. intros E n. pose proof (total_kids w a u E). pose proof (size_sub (doc w) a u E). pose proof (total_skip w n (kid_addrs w a)). lia. Qed.
  Lemma depth_size t : forall a u, subtree t a = Some u -> length a < tree_size t.
  Proof.
    induction t as [n ats ks IH|s] using xtree_ind'; intros [|i a] u H; cbn [subtree] in H; cbn [length tree_size]; try discriminate; try lia.
    destruct (nth_error ks i) as [k|] eqn:E; [|discriminate]. rewrite Forall_forall in IH. apply nth_error_In in E.
    specialize (IH k E a u H). apply size_in in E. lia.
  Qed.
  Lemma parent_rel x y : stands h r x y -> match parent x with
    | None => False
    | Some None => hparent h y = None
    | Some (Some a) => exists i, hparent h y = Some i /\ rel a i
    end.
  Proof.
    intros [q Hq|a i Hi|a i k v o Hi]; cbn [parent hparent].
    - reflexivity.
    - destruct a as [|k a _] using rev_ind; [apply rel_nil in Hi as ->; apply rel_top|].
      assert (E : match a ++ [k] with [] => Some None | _ :: _ => Some (Some (removelast (a ++ [k]))) end = Some (Some a)).
      { rewrite removelast_last. destruct a; reflexivity. }
      rewrite E. destruct (rel_pre _ _ _ Hi) as (p & Hp). exists p. split; [eapply rel_parent; eauto|exact Hp].
    - destruct (rel_holds a i Hi) as (u & q & ids & E & Hh). destruct (holds_obj _ _ _ _ _ Hh) as (ob & Hob & _). rewrite Hob. eauto.
  Qed.
  Lemma climb_rel n : forall a i, rel a i -> length a < n -> exists m, hclimb h n (Some i) = (m, true) /\ Forall2 rel (a :: ancestors_of a (length a)) m.
  Proof.
    induction n as [|n IH]; intros a i H Hn; [lia|]. cbn [hclimb]. destruct a as [|k a _] using rev_ind.
    - apply rel_nil in H as ->. rewrite rel_top. exists [r]. split; [destruct n; reflexivity|]. cbn [length ancestors_of]. constructor; [reflexivity|constructor].
    - destruct (rel_pre _ _ _ H) as (p & Hp). rewrite (rel_parent _ _ _ _ Hp H). rewrite app_length in *. cbn [length] in *.
      destruct (IH a p Hp ltac:(lia)) as (m & E & F). rewrite E. exists (i :: m). split; [reflexivity|]. constructor; [exact H|].
      rewrite Nat.add_1_r. cbn [ancestors_of]. rewrite removelast_last. destruct (a ++ [k]) eqn:K; [destruct a; discriminate|]. exact F.
  Qed.
  Lemma same_rel a i b j : rel a i -> rel b j -> same_node w (INode a) b = node_eqb h j i.
  Proof.
    intros Ha Hb. unfold same_node, node_eqb. rewrite (proj2 (rel_elem a i Ha)), (proj2 (rel_elem b j Hb)).
    destruct (list_eq_dec Nat.eq_dec a b) as [->|Hn].
    - rewrite (rel_fun b i j Ha Hb), Nat.eqb_refl. reflexivity.
    - destruct (Nat.eqb_spec j i) as [->|]; [exfalso; apply Hn; eapply rel_inj; eauto|]. cbn [orb]. unfold htext.
      destruct (hp h i) as [[? ? ? ?|s ?]|], (hp h j) as [[? ? ? ?|s' ?]|]; try reflexivity.
      destruct (str_eqb s s') eqn:E1, (str_eqb s' s) eqn:E2; try reflexivity;
        [apply str_eqb_eq in E1 as ->|apply str_eqb_eq in E2 as ->]; rewrite str_eqb_refl in *; discriminate.
  Qed.
  Lemma index_rel x y a i : stands h r x y -> rel a i -> sibling_index w a x = hindex h i y.
  Proof.
    intros H Ha. unfold sibling_index. destruct H as [q Hq|b j Hj|b j k v o Hj]; cbn [hindex].
    - unfold same_node. generalize (kid_addrs w a). induction l; cbn; [reflexivity|rewrite IHl; reflexivity].
    - apply (F2_find rel); [|apply rel_kids; auto]. intros b' j' Hb. apply same_rel; auto.
    - unfold same_node. generalize (kid_addrs w a). induction l; cbn; [reflexivity|rewrite IHl; reflexivity].
  Qed.

  Variable c : rcache.
  Hypothesis Hc : cache_ok h c.
  Lemma rel_below a i : rel a i -> below h r i.
  Proof.
    revert i. induction a as [|k a IH] using rev_ind; intros i H; [apply rel_nil in H as ->; constructor|].
    destruct (rel_pre _ _ _ H) as (p & Hp). apply (be_kid h r p i (IH p Hp)). pose proof (proj1 (rel_snoc a p k i Hp) H) as (o & Ho & Hn).
    exists o. split; [auto|]. eapply nth_error_In; eauto.
  Qed.
  Lemma root_rel x y : stands h r x y -> same_res h r (with_root w x yield1) (hroot h c y).
  Proof.
    intros H. unfold with_root, root_of, yield1. destruct H as [q Hq|a i Hi|a i k v o Hi]; cbn [hroot].
    - split; [cbn; repeat constructor; auto|reflexivity].
    - rewrite (proj1 (rel_elem a i Hi)). unfold helem. destruct (rel_holds a i Hi) as (u & q & ids & E & Hh).
      inversion Hh as [p' j n at_ is ks idss Ho Ha|p' j s Ho]; subst; rewrite Ho.
      + destruct (get_ok h c i W Hc ltac:(repeat eexists; eauto)) as (c' & rt & -> & Ht & _). split; [|reflexivity]. constructor; [|constructor]. constructor.
        eapply top_unique; [exact W|exact Ht|]. split; [eapply rel_below; eauto|]. exact (proj1 D).
      + assert (G : get h c (RNode i) = Some RAssertion).
        { unfold get. destruct (lookup (entries c) i) as [r'|] eqn:F; [|rewrite Ho; reflexivity]. destruct (Hc i r' F) as [(n & b & ks & p & K) _]. congruence. }
        rewrite G. split; [constructor|reflexivity].
    - split; [constructor|reflexivity].
  Qed.
  Lemma kids_rel x y : stands h r x y -> match kids w x, hkids h y with
    | None, None => True
    | Some l, Some m => Forall2 rel l m /\ forall n, total w (skipn n l) <= tree_size (doc w)
    | _, _ => False
    end.
  Proof.
    intros [q Hq|a i Hi|a i k v o Hi]; cbn [kids hkids]; [| |exact I].
    - split; [constructor; [rewrite Hq; reflexivity|constructor]|]. intros n. rewrite total_skip. unfold total, size_at. cbn. lia.
    - split; [apply rel_kids; exact Hi|]. destruct (rel_holds a i Hi) as (u & q & ids & E & _). eapply total_kids_le; eauto.
  Qed.
  Lemma loop_rel t x y l m after after' : stands h r x y -> Forall2 rel l m -> same_res h r after after' ->
    same_res h r (seq2 (test_all w t x l) after) (hloop h t y (m, true) after').
  Proof.
    intros H F [K1 K2]. destruct (test_all_rel t x y l m H F) as (l' & -> & F'). unfold hloop, seq2. cbn [fst snd]. destruct after as [l2 f2].
    split; cbn [fst snd] in *; [apply F2_app; auto|auto].
  Qed.
  Lemma seq2_nil x : seq2 x nothing = x.
  Proof. destruct x as [l [| |]]; cbn; rewrite ?app_nil_r; reflexivity. Qed.
  Lemma nothing_rel : same_res h r nothing hnothing. Proof. split; [constructor|reflexivity]. Qed.
  Lemma raise_rel e : same_res h r (raise e) (hraise e). Proof. split; [constructor|reflexivity]. Qed.
  Lemma process_res t x y fuel l m : stands h r x y -> Forall2 rel l m -> total w l <= tree_size (doc w) -> tree_size (doc w) <= fuel ->
    same_res h r (test_all w t x (process w l)) (hloop h t y (hwork h fuel m) hnothing).
  Proof.
    intros H F Ht Hf. destruct (process_rel fuel l m F Ht Hf) as (m' & -> & F'). rewrite <- (seq2_nil (test_all _ _ _ _)).
    apply loop_rel; auto. apply nothing_rel.
  Qed.
  Lemma tests_res t x y l m : stands h r x y -> Forall2 rel l m -> same_res h r (test_all w t x l) (htest_all h t y m, Done).
  Proof. intros H F. destruct (test_all_rel t x y l m H F) as (l' & -> & F'). split; auto. Qed.
  Lemma siblings_rel x y (k : nat -> list addr -> list item * fin) k' : stands h r x y ->
    (forall n a i u, subtree (doc w) a = Some u -> Forall2 rel (kid_addrs w a) (hkids1 h i) -> same_res h r (k n (kid_addrs w a)) (k' n (hkids1 h i))) ->
    same_res h r (match parent x with
                  | None => raise AttributeErr
                  | Some None => nothing
                  | Some (Some p) => match sibling_index w p x with None => raise ValueErr | Some n => k n (kid_addrs w p) end
                  end) (hsiblings h y k').
  Proof.
    intros H K. pose proof (parent_rel x y H) as P. unfold hsiblings. destruct (parent x) as [[p|]|]; [| |contradiction].
    - destruct P as (i & -> & Hi). rewrite (index_rel x y p i H Hi). destruct (hindex h i y) as [n|]; [|apply raise_rel].
      destruct (rel_holds p i Hi) as (u & q & ids & E & _). eapply K; [exact E|]. apply rel_kids; auto.
    - rewrite P. apply nothing_rel.
  Qed.

  Lemma step_rel fuel ax t x y : stands h r x y -> tree_size (doc w) <= fuel -> same_res h r (step w fuel ax t x) (hstep h c fuel ax t y).
  Proof.
    intros H Hf. pose proof (kids_rel x y H) as Kd. pose proof (parent_rel x y H) as Pa. pose proof (root_rel x y H) as Ro.
    destruct (test_rel t x y H) as (lt & Et & Ft). destruct ax; cbn [step hstep].
    - rewrite Et. split; auto.
    - destruct (kids w x) as [l|], (hkids h y) as [m|]; try contradiction; [|apply raise_rel]. apply tests_res; [exact H|].
      destruct (is_name_test t); [|apply Kd]. apply (F2_filter rel); [|apply Kd]. intros a i Ha. apply rel_elem; auto.
    - destruct H as [q Hq|a i Hi|a i k v o Hi]; [apply nothing_rel| |apply nothing_rel]. unfold node_at.
      destruct (rel_holds a i Hi) as (u & q & ids & E & Hh). rewrite E. inversion Hh as [p' j n at_ is ks idss Ho Ha|p' j s Ho]; subst; rewrite Ho; [|apply nothing_rel].
      split; [|reflexivity]. cbn [fst]. induction (filter _ at_) as [|kv l IH]; cbn [map]; constructor; auto. constructor; exact Hi.
    - destruct (parent x) as [[p|]|]; [| |contradiction].
      + destruct Pa as (i & -> & Hi). destruct (rel_holds p i Hi) as (u & q & ids & E & _). pose proof (depth_size _ _ _ E).
        destruct (climb_rel fuel p i Hi ltac:(lia)) as (m & -> & F). apply loop_rel; auto.
      + rewrite Pa. assert (hclimb h fuel None = ([], true)) as -> by (destruct fuel; reflexivity). apply loop_rel; auto.
    - rewrite Et. destruct (parent x) as [[p|]|]; [| |contradiction].
      + destruct Pa as (i & -> & Hi). destruct (test_all_rel t x y (repeat p fuel) (repeat i fuel) H (F2_repeat rel p i fuel Hi)) as (l' & -> & F').
        split; [|reflexivity]. cbn [seq2 fst]. apply F2_app; auto.
      + rewrite Pa. split; [|reflexivity]. cbn. rewrite app_nil_r. exact Ft.
    - destruct (kids w x) as [l|], (hkids h y) as [m|]; try contradiction; [|apply raise_rel]. apply process_res; auto; [apply Kd|apply (proj2 Kd 0)].
    - rewrite Et. destruct (kids w x) as [l|], (hkids h y) as [m|]; try contradiction.
      + destruct (process_res t x y fuel l m H (proj1 Kd) (proj2 Kd 0) Hf) as [K1 K2]. destruct (hloop _ _ _ _ _) as [m' f'].
        destruct (test_all w t x (process w l)) as [l' f]. cbn [fst snd] in *. subst f'. split; [|reflexivity]. cbn. apply F2_app; auto.
      + split; [|reflexivity]. cbn. rewrite app_nil_r. exact Ft.
    - apply (siblings_rel x y (fun n l => test_all w t x (process w (skipn (S n) l)))); auto. intros n a i u E F.
      apply process_res; auto; [apply F2_skipn; auto|eapply total_kids_le; eauto].
    - apply (siblings_rel x y (fun n l => test_all w t x (skipn (S n) l))); auto. intros n a i u E F. apply tests_res; auto. apply F2_skipn; auto.
    - destruct (parent x) as [[p|]|]; [| |contradiction].
      + destruct Pa as (i & -> & Hi). apply tests_res; auto.
      + rewrite Pa. exact Ro.
    - apply (siblings_rel x y (fun n l => nothing)); auto. intros. apply nothing_rel.
    - apply (siblings_rel x y (fun n l => test_all w t x (rev (firstn n l)))); auto. intros n a i u E F. apply tests_res; auto. apply F2_rev, F2_firstn; auto.
  Qed.

  Lemma abbrev_rel up x y : stands h r x y -> same_res h r (abbrev w up x) (habbrev h c up y).
  Proof.
    intros H. unfold abbrev, habbrev. destruct up; [|split; [constructor; auto|reflexivity]]. pose proof (parent_rel x y H) as P.
    destruct (parent x) as [[p|]|]; [| |contradiction].
    - destruct P as (i & -> & Hi). split; [|reflexivity]. constructor; [constructor; exact Hi|constructor].
    - rewrite P. apply root_rel. exact H.
  Qed.
End Doc.

Section Paths.
  Variable h : heap.
  Variable r : ref.
  Variable w : env.
  Hypothesis W : well_linked h.
  Hypothesis D : document h r (doc w).
  Variable c : hitem -> rcache.
  Hypothesis Hc : forall x, cache_ok h (c x).
  Variable fuel : nat.
  Hypothesis Hf : tree_size (doc w) <= fuel.

  Lemma copy_item_rel x y i j : stands h r x y -> stands h r i j -> stands h r (copy w x i) (hcopy_item h y j).
  Proof.
    intros H Hi. destruct Hi as [q Hq|a i Hi|a i k v o Hi]; cbn [hcopy_item]; [constructor; auto| |constructor; auto].
    apply copy_rel; auto.
  Qed.
  Lemma hbind_rel l m f k k' : Forall2 (stands h r) l m -> (forall i j, stands h r i j -> same_res h r (k i) (k' j)) ->
    same_res h r (bindl l f k) (hbind m f k').
  Proof.
    intros F K. induction F as [|i j l m Hi F IH]; cbn [bindl hbind]; [split; [constructor|reflexivity]|].
    destruct (K i j Hi) as [K1 K2]. destruct (k i) as [l1 f1], (k' j) as [m1 g1]. cbn [fst snd] in *. subst g1.
    destruct f1; [|split; auto|split; auto]. destruct IH as [I1 I2]. destruct (bindl l f k) as [l2 f2], (hbind m f k') as [m2 g2]. cbn [fst snd] in *. subst g2.
    split; [|reflexivity]. apply Forall2_app; auto.
  Qed.
  Lemma hthen_rel a b a' b' : same_res h r a a' -> same_res h r b b' -> same_res h r (seq2 a b) (hthen a' b').
  Proof.
    intros [A1 A2] [B1 B2]. destruct a as [l f], a' as [l' f'], b as [m g], b' as [m' g']. cbn [fst snd] in *. subst f' g'. destruct f; cbn [seq2 hthen]; [|split; auto|split; auto].
    split; [|reflexivity]. cbn [fst]. apply Forall2_app; auto.
  Qed.
  Lemma hpred_rel x y ps v : stands h r x y -> (forall pos i j, stands h r i j -> match verdict_of w pos (copy w x i) ps with
      | VKeep => v pos j = inl true
      | VDrop => v pos j = inl false
      | VStop f => v pos j = inr f
      end) -> forall l m, Forall2 (stands h r) l m -> forall pos f, same_res h r (predicated w pos x l f ps) (hpred pos m f v).
  Proof.
    intros H K l m F. induction F as [|i j l m Hi F IH]; intros pos f; cbn [predicated hpred]; [split; [constructor|reflexivity]|].
    specialize (K pos i j Hi). destruct (verdict_of w pos (copy w x i) ps) as [| |f']; rewrite K; [|apply IH|split; [constructor|reflexivity]].
    destruct (IH (S pos) f) as [I1 I2]. destruct (predicated w (S pos) x l f ps) as [l2 f2], (hpred (S pos) m f v) as [m2 g2]. cbn [fst snd] in *. subst g2. split; [|reflexivity]. constructor; auto.
  Qed.
  Lemma just_rel p : just_node (path_expr p) = lpath_is_node p.
  Proof. destruct p as [ax [| | |]| | | | | | |]; reflexivity. Qed.
  Lemma path_rel p : forall x y, stands h r x y -> same_res h r (eval w fuel (path_expr p) x) (hpath h c fuel p y).
  Proof.
    induction p as [ax t|up|p1 IH1 p2 IH2|p1 IH1 ax t| |double p IH|p IH n|p IH q IHq]; intros x y H; cbn [path_expr].
    - replace (eval w fuel (EStep ax t) x) with (step w fuel ax t x) by (destruct fuel; reflexivity). cbn [hpath]. apply step_rel; auto.
    - replace (eval w fuel (EAbbrev up) x) with (abbrev w up x) by (destruct fuel; reflexivity). cbn [hpath]. apply abbrev_rel; auto.
    - replace (eval w fuel (EBin (path_expr p1) OpPath (path_expr p2)) x) with (bind (eval w fuel (path_expr p1) x) (fun i => eval w fuel (path_expr p2) (copy w x i))) by (destruct fuel; reflexivity).
      cbn [hpath]. destruct (IH1 x y H) as [F1 E1]. unfold bind. destruct (hpath h c fuel p1 y) as [m g]. rewrite E1. cbn [snd] in *. apply hbind_rel; auto.
      intros i j Hi. apply IH2. apply copy_item_rel; auto.
    - replace (eval w fuel (EBin (path_expr p1) OpDeep (EStep ax t)) x) with (bind (eval w fuel (path_expr p1) x) (fun i => step w fuel AxDescendantOrSelf t (copy w x i))) by (destruct fuel; reflexivity).
      cbn [hpath]. destruct (IH1 x y H) as [F1 E1]. unfold bind. destruct (hpath h c fuel p1 y) as [m g]. rewrite E1. cbn [snd] in *. apply hbind_rel; auto.
      intros i j Hi. apply step_rel; auto. apply copy_item_rel; auto.
    - replace (eval w fuel (EAbs false None) x) with (with_root w x yield1) by (destruct fuel; reflexivity). cbn [hpath]. apply root_rel; auto.
    - replace (eval w fuel (EAbs double (Some (path_expr p))) x) with (absolute w double x (Some (just_node (path_expr p), eval w fuel (path_expr p)))) by (destruct fuel; reflexivity).
      cbn [hpath]. unfold absolute. pose proof (root_rel h r w W D (c y) (Hc y) x y H) as [R1 R2]. unfold with_root in *. destruct (root_of w x) as [rt|] eqn:Er0.
      + destruct (hroot h (c y) y) as [m g]. cbn [yield1 fst snd] in *. subst g. inversion R1 as [|? q ? m' Hq Hm]; subst. inversion Hm; subst.
        rewrite just_rel. apply hthen_rel; [destruct (lpath_is_node p); split; cbn; auto|]. apply hthen_rel; [apply IH; auto|].
        destruct double; [|split; [constructor|reflexivity]].
        assert (Er : rt = IRoot) by (destruct x as [|a0| | | | |]; cbn [root_of] in Er0; try discriminate; [congruence|]; destruct (is_elem_at w a0); congruence).
        subst rt. assert (Hd : exists q', q = HRoot q' /\ docelem q' = r) by (inversion Hq as [q' Hd Eq| |]; eauto). destruct Hd as (q' & -> & Hd). cbn [hkids]. rewrite Hd.
        assert (F0 : Forall2 (rel h r) [[]] [r]) by (constructor; [reflexivity|constructor]).
        destruct (process_rel h r w D fuel [[]] [r] F0 ltac:(unfold total, size_at; cbn; lia) Hf) as (m' & -> & F').
        apply hbind_rel.
        * clear - F'. induction F' as [|a i l m Ha F IH]; cbn [map]; constructor; auto. constructor; exact Ha.
        * intros i j Hi. apply IH. apply copy_item_rel; auto.
      + destruct (hroot h (c y) y) as [m g]. cbn [raise fst snd] in *. subst g. inversion R1; subst. split; [constructor|reflexivity].
    - replace (eval w fuel (EPred (path_expr p) [ELit (LInt n)]) x) with (predicated w 1 x (fst (eval w fuel (path_expr p) x)) (snd (eval w fuel (path_expr p) x)) [fun _ => yield1 (IInt n)]) by (destruct fuel; reflexivity).
      cbn [hpath]. destruct (IH x y H) as [F1 E1]. rewrite E1. destruct (hpath h c fuel p y) as [m g]. cbn [fst snd] in *. eapply hpred_rel; [exact H| |exact F1].
      intros pos i j Hi. cbn [verdict_of yield1 number_of]. destruct (n =? Z.of_nat pos)%Z; reflexivity.
    - replace (eval w fuel (EPred (path_expr p) [path_expr q]) x) with (predicated w 1 x (fst (eval w fuel (path_expr p) x)) (snd (eval w fuel (path_expr p) x)) [eval w fuel (path_expr q)]) by (destruct fuel; reflexivity).
      cbn [hpath]. destruct (IH x y H) as [F1 E1]. rewrite E1. destruct (hpath h c fuel p y) as [m g]. cbn [fst snd] in *. eapply hpred_rel; [exact H| |exact F1].
      intros pos i j Hi. cbn [verdict_of]. destruct (IHq _ _ (copy_item_rel x y i j H Hi)) as [Q1 Q2].
      destruct (eval w fuel (path_expr q) (copy w x i)) as [l f], (hpath h c fuel q (hcopy_item h y j)) as [m' g']. cbn [fst snd] in *. subst g'.
      destruct Q1 as [|i' j' l' m'' Hi' Q1]; cbn [hverdict]; [destruct f; reflexivity|].
      destruct Hi' as [q' Hq|a' j' Hj|a' j' k v o Hj]; cbn [number_of]; unfold to_boolean; cbn [as_str is_node]; try reflexivity.
      rewrite (proj2 (rel_elem h r w D a' j' Hj)). destruct (htext h j') as [[|ch s]|]; reflexivity.
  Qed.
End Paths.

(** Every live node lies in a document. *)
Lemma below_follow h r i : below h r i -> exists a, follow h r a = Some i.
Proof.
  intros B. induction B as [i|r j i B (a & Ha) (o & Ho & Hi)]; [exists []; reflexivity|].
  apply In_nth_error in Hi as (k & Hk). exists (a ++ [k]). rewrite follow_app, Ha. cbn [follow]. rewrite Ho, Hk. reflexivity.
Qed.
Lemma live_document h i o : well_linked h -> hp h i = Some o -> exists r t a, document h r t /\ follow h r a = Some i.
Proof.
  intros W Ho. destruct (rise_ok h i o W Ho) as [B P]. set (r := rise (nxt h) h i) in *. destruct (below_follow h r i B) as (a & Ha).
  pose proof P as (o' & Ho' & Ep). pose proof W as (_ & _ & _ & T). destruct (T r o' Ho') as (t & ids & Hh & _). rewrite Ep in Hh.
  exists r, t, a. split; [split; eauto|exact Ha].
Qed.
(** After a document element has been moved into another document, paths from the root still
    start at its old root node. *)
Lemma stale_path h c i c' rt self index h' fuel : history h c -> is_elem h i -> parent_is h i None -> ~ below h i self ->
  get h c (RNode i) = Some (RGot c' rt) -> xml_insert h self (ARef i) index = EOk h' ->
  hpath h' (fun _ => c') fuel LRoot (HNode i) = ([HRoot rt], Done) /\ forall top, top_of h' i top -> docelem rt <> top.
Proof.
  intros H Hi Hp Hb G X. destruct (stale h c i c' rt self index h' H Hi Hp Hb G (own_entry h c i c' rt H Hi Hp G) X) as [G' T]. split; [|exact T].
  cbn [hpath hroot]. rewrite G'. reflexivity.
Qed.
Lemma history_document h (c : hitem -> rcache) r w fuel p x y : (forall x, history h (c x)) -> document h r (doc w) -> tree_size (doc w) <= fuel ->
  stands h r x y -> same_res h r (eval w fuel (path_expr p) x) (hpath h c fuel p y).
Proof.
  intros Hc D Hf H. apply path_rel; auto; [exact (proj1 (history_ok _ _ (Hc y)))|]. intros z. apply (history_ok _ _ (Hc z)).
Qed.
Lemma history_step h c r w fuel ax t x y : history h c -> document h r (doc w) -> tree_size (doc w) <= fuel ->
  stands h r x y -> same_res h r (step w fuel ax t x) (hstep h c fuel ax t y).
Proof. intros Hc D Hf H. apply history_ok in Hc as [W C]. apply step_rel; auto. Qed.
