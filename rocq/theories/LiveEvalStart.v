(** The loops of the steps, and whole expressions. *)
From Verif Require Import PyStr Parser XTree Heap Builder HeapSpec RootCache DocOrder XPath XPathFuel XQuery HeapNav HeapEval HeapEvalFuel HeapQuery LiveEval LiveEvalSpec LiveEvalFacts.

Section Steps.
  Variable w : env.
  Variable hv : dict hval.
  Notation ev m := (heval (mh m) w hv (mc m) (mv m)).
  Notation says := (says w hv).
  Notation objs o := (map (fun z => Obj z o)).

  Lemma htest_one h t x z z' l : htest h t x <> z :: z' :: l.
  Proof.
    destruct t; cbn [htest]; try discriminate; destruct x; try discriminate.
    - destruct (hp h i) as [[]|]; try discriminate. destruct (str_eqb _ _); discriminate.
    - destruct (htext h i); discriminate.
  Qed.
  Lemma seen_one h u x y z z' l : seen h u x y <> z :: z' :: l.
  Proof.
    unfold seen. destruct u as [|ax t]; [destruct y; discriminate|]. destruct y as [i|]; [|destruct ax; apply htest_one].
    destruct ax; try apply htest_one. destruct (is_name_test t && negb (helem h i)); [discriminate|apply htest_one].
  Qed.
  Lemma says_node m u x o a y a' l f : move m (match u with Try _ t => t | Take => TNode end) x o a = Node y a' ->
    says m (GStep u x o a') l f -> says m (GStep u x o a) (objs o (seen (mh m) u x y) ++ l) f.
  Proof.
    intros M S. destruct (seen (mh m) u x y) as [|z [|z' r]] eqn:E; cbn [map app].
    - eapply says_step; [|exact S]. intros r (n & P). exists (Datatypes.S n). cbn [gnext]. rewrite M, E. exact P.
    - eapply sa_more; [|exact S]. exists 1. cbn [gnext]. rewrite M, E. reflexivity.
    - destruct (seen_one _ _ _ _ _ _ _ E).
  Qed.
  Lemma says_skip m u x o a a' l f : move m (match u with Try _ t => t | Take => TNode end) x o a = Skip a' ->
    says m (GStep u x o a') l f -> says m (GStep u x o a) l f.
  Proof. intros M S. eapply says_step; [|exact S]. intros r (n & P). exists (Datatypes.S n). cbn [gnext]. rewrite M. exact P. Qed.
  Lemma says_over m u x o a : move m (match u with Try _ t => t | Take => TNode end) x o a = NoMore -> says m (GStep u x o a) [] Done.
  Proof. intros M. apply sa_end. exists 1. cbn [gnext]. rewrite M. reflexivity. Qed.
  Lemma says_bad m u x o a f : move m (match u with Try _ t => t | Take => TNode end) x o a = Bad f -> f <> Done -> says m (GStep u x o a) [] f.
  Proof. intros M H. destruct f; [congruence| |apply sa_cut]. apply sa_fail. exists 1. cbn [gnext]. rewrite M. reflexivity. Qed.

  Notation sight h u x := (flat_map (fun i => seen h u x (Some i))).
  Lemma says_plist m u x o l : says m (GStep u x o (PList l)) (objs o (sight (mh m) u x l)) Done.
  Proof. induction l as [|i l IH]; [apply says_over; reflexivity|]. cbn [flat_map]. rewrite map_app. eapply says_node; [reflexivity|exact IH]. Qed.
  Lemma says_pkids m u x o r : forall l i, skipn i (hkids1 (mh m) r) = l -> says m (GStep u x o (PKids r i)) (objs o (sight (mh m) u x l)) Done.
  Proof.
    induction l as [|j l IH]; intros i E.
    - apply says_over. cbn [move]. destruct (nth_error (hkids1 (mh m) r) i) eqn:N; [|reflexivity]. apply nth_error_split in N as (l1 & l2 & N & L). rewrite N, <- L, skipn_app, skipn_all, Nat.sub_diag in E. discriminate.
    - assert (N : hkids1 (mh m) r = firstn i (hkids1 (mh m) r) ++ j :: l) by (rewrite <- E; symmetry; apply firstn_skipn).
      assert (L : length (firstn i (hkids1 (mh m) r)) = i).
      { apply firstn_length_le. destruct (Nat.le_gt_cases i (length (hkids1 (mh m) r))); [auto|]. rewrite skipn_all2 in E by lia. discriminate. }
      cbn [flat_map]. rewrite map_app. eapply says_node; [cbn [move]; rewrite N, nth_error_app2, L, Nat.sub_diag by lia; reflexivity|]. apply IH.
      rewrite N. replace (Datatypes.S i) with (i + 1) by lia. rewrite skipn_app, L, skipn_all2 by lia. replace (i + 1 - i) with 1 by lia. reflexivity.
  Qed.
  Lemma says_pwork m u x o n : forall l, says m (GStep u x o (PWork l)) (objs o (sight (mh m) u x (fst (hwork (mh m) n l)))) (if snd (hwork (mh m) n l) then Done else Cut).
  Proof.
    induction n as [|n IH]; intros [|i l]; cbn [hwork fst snd]; try (apply says_over; reflexivity); [apply sa_cut|].
    specialize (IH (hkids1 (mh m) i ++ l)). destruct (hwork (mh m) n (hkids1 (mh m) i ++ l)) as [l' b]. cbn [fst snd flat_map] in *. rewrite map_app. eapply says_node; [reflexivity|exact IH].
  Qed.
  Lemma says_root m u x o : says m (GStep u x o PRoot) (objs o (fst (hroot (mh m) (mc m (Obj x o)) x))) (snd (hroot (mh m) (mc m (Obj x o)) x)).
  Proof.
    assert (H : (exists y, hroot (mh m) (mc m (Obj x o)) x = ([y], Done)) \/ (exists f, hroot (mh m) (mc m (Obj x o)) x = ([], f) /\ f <> Done)).
    { unfold hroot. destruct x as [q|i|i k s]; [left; eexists; reflexivity| |right; eexists; split; [reflexivity|discriminate]].
      destruct (get _ _ _) as [[? ?|]|]; [left; eexists; reflexivity|right; eexists; split; [reflexivity|discriminate]..]. }
    destruct H as [(y & E)|(f & E & N)]; rewrite E; cbn [fst snd map].
    - eapply sa_more; [exists 1; cbn [gnext move]; rewrite E; reflexivity|]. apply says_over. reflexivity.
    - apply says_bad; [|exact N]. cbn [move]. rewrite E. destruct f; [congruence|reflexivity..].
  Qed.
  Lemma says_up m u x o n : forall p, says m (GStep u x o (PUp p))
    (objs o (sight (mh m) u x (fst (hclimb (mh m) n p)) ++ (if snd (hclimb (mh m) n p) then fst (hroot (mh m) (mc m (Obj x o)) x) else [])))
    (if snd (hclimb (mh m) n p) then snd (hroot (mh m) (mc m (Obj x o)) x) else Cut).
  Proof.
    induction n as [|n IH]; intros [i|]; cbn [hclimb fst snd flat_map app map]; try (eapply says_skip; [reflexivity|apply says_root]); [apply sa_cut|].
    specialize (IH (xml_parent (mh m) i)). destruct (hclimb (mh m) n (xml_parent (mh m) i)) as [l b]. cbn [fst snd flat_map] in *. rewrite <- app_assoc, map_app.
    eapply says_node; [reflexivity|]. eapply says_step; [|exact IH]. intros r (k & P). exists k. destruct k; [exact P|]. cbn [gnext] in *. destruct u; exact P.
  Qed.
  Lemma says_same m u x o p n : says m (GStep u x o (PSame p)) (objs o (sight (mh m) u x (repeat p n))) Cut.
  Proof. induction n as [|n IH]; [apply sa_cut|]. cbn [repeat flat_map]. rewrite map_app. eapply says_node; [reflexivity|exact IH]. Qed.
  Lemma says_attrs m u x o r i : let t := match u with Try _ t => t | Take => TNode end in forall l, skipn i (attrs_of (mh m) r) = l ->
    says m (GStep u x o (PAttrs r (length (attrs_of (mh m) r)) i))
      (objs Made (map (fun kv => HAttr r (fst kv) (snd kv)) (filter (fun kv => str_eqb (test_name t) (lit "*") || str_eqb (test_name t) (fst kv)) l))) Done.
  Proof.
    intros t l. revert i. induction l as [|kv l IH]; intros i E.
    - apply says_over. cbn [move]. rewrite Nat.eqb_refl. destruct (nth_error (attrs_of (mh m) r) i) eqn:N; [|reflexivity].
      apply nth_error_split in N as (l1 & l2 & N & L). rewrite N, <- L, skipn_app, skipn_all, Nat.sub_diag in E. discriminate.
    - assert (N : attrs_of (mh m) r = firstn i (attrs_of (mh m) r) ++ kv :: l) by (rewrite <- E; symmetry; apply firstn_skipn).
      assert (L : length (firstn i (attrs_of (mh m) r)) = i).
      { apply firstn_length_le. destruct (Nat.le_gt_cases i (length (attrs_of (mh m) r))); [auto|]. rewrite skipn_all2 in E by lia. discriminate. }
      assert (Nx : nth_error (attrs_of (mh m) r) i = Some kv) by (rewrite N, nth_error_app2, L, Nat.sub_diag by lia; reflexivity).
      assert (R : skipn (Datatypes.S i) (attrs_of (mh m) r) = l).
      { rewrite N. replace (Datatypes.S i) with (i + 1) by lia. rewrite skipn_app, L, skipn_all2 by lia. replace (i + 1 - i) with 1 by lia. reflexivity. }
      specialize (IH _ R). cbn [filter]. destruct (str_eqb (test_name t) (lit "*") || str_eqb (test_name t) (fst kv)) eqn:T.
      + cbn [map]. eapply sa_more; [|exact IH]. exists 1. cbn [gnext move]. rewrite Nat.eqb_refl, Nx. fold t. rewrite T. reflexivity.
      + eapply says_skip; [|exact IH]. cbn [move]. rewrite Nat.eqb_refl, Nx. fold t. rewrite T. reflexivity.
  Qed.

  Lemma sight_try h ax t x l : ax <> AxChild -> sight h (Try ax t) x l = htest_all h t x l.
  Proof. intros H. unfold htest_all. apply flat_map_ext. intros i. cbn [seen]. destruct ax; try reflexivity. congruence. Qed.
  Lemma sight_child h t x l : sight h (Try AxChild t) x l = htest_all h t x (if is_name_test t then filter (helem h) l else l).
  Proof.
    destruct (is_name_test t) eqn:T.
    - induction l as [|i l IH]; [reflexivity|]. cbn [flat_map filter]. rewrite IH. unfold seen at 1. rewrite T. destruct (helem h i); reflexivity.
    - apply flat_map_ext. intros i. cbn [seen]. rewrite T. reflexivity.
  Qed.
  Lemma says_work m ax t x o l after : ax <> AxChild -> after = hnothing ->
    says m (GStep (Try ax t) x o (PWork l)) (objs o (fst (hloop (mh m) t x (hwork (mh m) (nxt (mh m)) l) after))) (snd (hloop (mh m) t x (hwork (mh m) (nxt (mh m)) l) after)).
  Proof.
    intros A ->. pose proof (says_pwork m (Try ax t) x o (nxt (mh m)) l) as S. rewrite sight_try in S by exact A. unfold hloop. destruct (snd (hwork (mh m) (nxt (mh m)) l)); cbn [fst snd hnothing]; [rewrite app_nil_r|]; exact S.
  Qed.
  Lemma says_beside m ax t x o k kp : (forall n l, says m (GStep (Try ax t) x o (kp n l)) (objs o (fst (k n l))) (snd (k n l))) ->
    says m (GStep (Try ax t) x o (beside (mh m) x kp)) (objs o (fst (hsiblings (mh m) x k))) (snd (hsiblings (mh m) x k)).
  Proof.
    intros H. unfold beside, hsiblings. destruct (hparent (mh m) x) as [p|]; [|apply says_over; reflexivity].
    destruct (hindex (mh m) p x) as [n|]; [apply H|]. apply says_bad; [reflexivity|discriminate].
  Qed.
  Lemma says_axis n m ax t y o : says m (GStep (Try ax t) y o (enter (mh m) ax y)) (fst (vstep (mh m) (mc m) n ax t (Obj y o))) (snd (vstep (mh m) (mc m) n ax t (Obj y o))).
  Proof.
    unfold vstep. destruct (hstep (mh m) (mc m (Obj y o)) (match ax with AxAncestorOrSelf => n | _ => nxt (mh m) end) ax t y) as [l f] eqn:E.
    destruct ax; cbn [hstep enter fst snd] in *.
    - injection E as <- <-. rewrite <- (app_nil_r (objs o _)). eapply (says_node m (Try AxSelf t) y o PSelf None); [reflexivity|]. apply says_plist.
    - unfold hkids in E. destruct y as [q|r|r k s]; cbn [fst snd] in *; injection E as <- <-.
      + pose proof (says_plist m (Try AxChild t) (HRoot q) o [docelem q]) as S. rewrite sight_child in S. exact S.
      + pose proof (says_pkids m (Try AxChild t) (HNode r) o r (hkids1 (mh m) r) 0 eq_refl) as S. rewrite sight_child in S. exact S.
      + apply says_bad; [reflexivity|discriminate].
    - assert (R : forall r a, attrs_of (mh m) r = a -> says m (GStep (Try AxAttribute t) y o (PAttrs r (length a) 0))
        (objs Made (map (fun kv => HAttr r (fst kv) (snd kv)) (filter (fun kv => str_eqb (test_name t) (lit "*") || str_eqb (test_name t) (fst kv)) a))) Done).
      { intros r a <-. apply (says_attrs m (Try AxAttribute t) y o r 0). reflexivity. }
      assert (N : says m (GStep (Try AxAttribute t) y o (PList [])) [] Done) by exact (says_plist m (Try AxAttribute t) y o []).
      destruct y as [q|r|r k s]; try (injection E as <- <-; exact N). unfold helem. specialize (R r). unfold attrs_of in R at 1. unfold attrs_of.
      destruct (hp (mh m) r) as [[nm a ks p|s p]|]; injection E as <- <-; try exact N. apply R. reflexivity.
    - pose proof (says_up m (Try AxAncestor t) y o (nxt (mh m)) (hparent (mh m) y)) as S. rewrite sight_try in S by discriminate. unfold hloop in E.
      destruct (snd (hclimb (mh m) (nxt (mh m)) (hparent (mh m) y))); injection E as <- <-; [|rewrite app_nil_r in S]; exact S.
    - destruct (hparent (mh m) y) as [p|] eqn:P; injection E as <- <-.
      + rewrite map_app. eapply (says_node m (Try AxAncestorOrSelf t) y o PSelfUp None); [reflexivity|]. destruct n as [|n]; [apply sa_cut|]. rewrite <- (sight_try _ AxAncestorOrSelf) by discriminate. cbn [repeat flat_map]. rewrite map_app.
        eapply says_node; [cbn [move]; rewrite P; reflexivity|]. apply says_same.
      + rewrite <- (app_nil_r (objs o _)). eapply (says_node m (Try AxAncestorOrSelf t) y o PSelfUp None); [reflexivity|]. apply says_bad; [cbn [move]; rewrite P; reflexivity|discriminate].
    - destruct (hkids (mh m) y) as [ks|]; [|injection E as <- <-; apply says_bad; [reflexivity|discriminate]].
      pose proof (says_work m AxDescendant t y o ks hnothing ltac:(discriminate) eq_refl) as S. rewrite E in S. exact S.
    - destruct (hkids (mh m) y) as [ks|] eqn:K.
      + pose proof (says_work m AxDescendantOrSelf t y o ks hnothing ltac:(discriminate) eq_refl) as S. destruct (hloop _ _ _ _ _) as [l' f']. cbn [fst snd] in S. injection E as <- <-.
        rewrite map_app. eapply (says_node m (Try AxDescendantOrSelf t) y o PSelfWork None); [reflexivity|]. eapply says_step; [|exact S]. intros r (k & P). exists k. destruct k; [exact P|]. cbn [gnext move] in *. rewrite K. exact P.
      + injection E as <- <-. rewrite <- (app_nil_r (objs o _)). eapply (says_node m (Try AxDescendantOrSelf t) y o PSelfWork None); [reflexivity|]. apply says_bad; [cbn [move]; rewrite K; reflexivity|discriminate].
    - pose proof (says_beside m AxFollowing t y o _ _ (fun j l0 => says_work m AxFollowing t y o (skipn (S j) l0) hnothing ltac:(discriminate) eq_refl)) as S. rewrite E in S. exact S.
    - pose proof (says_beside m AxFollowingSibling t y o (fun j l0 => (htest_all (mh m) t y (skipn (S j) l0), Done)) (fun j l0 => PList (skipn (S j) l0))) as S. rewrite E in S. apply S.
      intros j l0. cbn [fst snd]. rewrite <- (sight_try _ AxFollowingSibling) by discriminate. apply says_plist.
    - destruct (hparent (mh m) y) as [p|].
      + injection E as <- <-. pose proof (says_plist m (Try AxParent t) y o [p]) as S. rewrite sight_try in S by discriminate. exact S.
      + pose proof (says_root m (Try AxParent t) y o) as S. rewrite E in S. exact S.
    - pose proof (says_beside m AxPreceding t y o (fun _ _ => hnothing) (fun _ _ => PList [])) as S. rewrite E in S. apply S. intros j l0. apply says_plist.
    - pose proof (says_beside m AxPrecedingSibling t y o (fun j l0 => (htest_all (mh m) t y (rev (firstn j l0)), Done)) (fun j l0 => PList (rev (firstn j l0)))) as S. rewrite E in S. apply S.
      intros j l0. cbn [fst snd]. rewrite <- (sight_try _ AxPrecedingSibling) by discriminate. apply says_plist.
  Qed.

  (** What is computed at once is cut short before the first result, if at all. *)
  Definition short (r : list hval * fin) : Prop := snd r = Cut -> fst r = [].
  Lemma short_yield x : short (vyield x). Proof. discriminate. Qed.
  Lemma short_raise e : short (vraise e). Proof. discriminate. Qed.
  Lemma short_none f : short ([], f). Proof. intros _. reflexivity. Qed.
  Lemma short_next r n k : short n -> (forall x, short (k x)) -> short (vnext r n k).
  Proof. intros Hn Hk. destruct r as [[|x l] f]; cbn [vnext]; [|apply Hk]. destruct f; [exact Hn|apply short_none..]. Qed.
  Lemma short_list r k : (forall l, short (k l)) -> short (vlist r k).
  Proof. intros Hk. destruct r as [l f]. cbn [vlist]. destruct f; [apply Hk|apply short_none..]. Qed.
  Lemma short_sarg h r k : (forall x, short (k x)) -> short (vstring_arg h w r k).
  Proof. intros Hk. unfold vstring_arg. apply short_next; auto. Qed.
  Lemma short_float s : short (vfloat w s). Proof. unfold vfloat. destruct (to_float w s); discriminate. Qed.
  Ltac shorts := repeat first [apply short_yield | apply short_raise | apply short_none | apply short_float | apply short_next; [|intros ?] | apply short_list; intros ? | apply short_sarg; intros ?
    | match goal with |- short (if ?b then _ else _) => destruct b | |- short (match ?z with _ => _ end) => destruct z end].
  Lemma short_call h d f raw args x : (forall a b, args = [a; b] -> dict_get builtins f <> Some FnForEach) -> short (vcall h w d f raw args x).
  Proof.
    intros H. unfold vcall. destruct (dict_get builtins f) as [fn|]; [|apply short_raise]. destruct fn; try solve [shorts; unfold vto_number; shorts].
    destruct args as [|a [|b [|? ?]]]; try apply short_raise. exfalso. eapply H; reflexivity.
  Qed.
  Lemma says_at_once n m e x : short (ev m n e x) -> says m (at_once w hv n m e x) (fst (ev m n e x)) (snd (ev m n e x)).
  Proof. unfold short, at_once. destruct (ev m n e x) as [l f]. cbn [fst snd]. intros H. destruct f; [apply says_list..|]. rewrite (H eq_refl). apply says_list. Qed.
  Lemma short_binary h v op x a b : op <> OpPath -> op <> OpDeep -> short (vbinary h v op x a b).
  Proof.
    intros H1 H2. destruct op; cbn [vbinary]; try congruence; try solve [shorts].
    - unfold vunion. destruct (vnode x); [|apply short_raise]. apply short_list. intros l. apply short_list. intros l'. destruct (vkeys _ _); [discriminate|apply short_raise].
    - unfold vequal. destruct (a x) as [[|y l] f]; [destruct f; [discriminate|apply short_none..]|]. destruct (vscan _ _ _ _) as [[]|]; [discriminate| |apply short_none]. destruct f; [discriminate|apply short_none..].
  Qed.
  Lemma hroot_cases h c y : (exists q, hroot h c y = ([HRoot q], Done)) \/ exists f, hroot h c y = ([], f) /\ f <> Done.
  Proof.
    unfold hroot. destruct y as [q|i|i k s]; [left; eexists; reflexivity| |right; eexists; split; [reflexivity|discriminate]].
    destruct (get _ _ _) as [[? ?|]|]; [left; eexists; reflexivity|right; eexists; split; [reflexivity|discriminate]..].
  Qed.
  Lemma short_abbrev h c u x : short (vabbrev h c u x).
  Proof.
    unfold vabbrev. destruct x as [y o| | | |]; try (destruct u; discriminate). unfold habbrev. destruct u; [|discriminate]. destruct (hparent h y); [discriminate|].
    destruct (hroot_cases h (c (Obj y o)) y) as [(q & ->)|(f & -> & _)]; [discriminate|apply short_none].
  Qed.

  Lemma right_deep m n op r x : op = OpPath \/ op = OpDeep -> vright_of (mh m) w hv (mc m) (mv m) n op r x = ev m n (match op with OpDeep => deep r | _ => r end) x.
  Proof. intros [-> | ->]; [reflexivity|]. unfold vright_of, deep. destruct r; try reflexivity. destruct n; reflexivity. Qed.
  Lemma sight_take h x o l : objs o (sight h Take x l) = map (fun i => Obj (HNode i) o) l.
  Proof. induction l as [|i l IH]; [reflexivity|]. cbn [map]. rewrite <- IH. reflexivity. Qed.
  Lemma abs_says m N d e x : (forall x, says m (GStart e x) (fst (ev m N e x)) (snd (ev m N e x))) ->
    says m (GStart (EAbs d (Some e)) x) (fst (ev m N (EAbs d (Some e)) x)) (snd (ev m N (EAbs d (Some e)) x)).
  Proof.
    intros IHe. apply (says_start w hv N). rewrite hev_abs. cbn [begin]. unfold vabsolute, vroot. destruct x as [y o| | | |]; try apply says_list.
    destruct (hroot_cases (mh m) (mc m (Obj y o)) y) as [(q & E)|(f & E & _)]; rewrite E; [|apply says_list].
    set (r2 := (if d then let '(l, b) := hwork (mh m) (nxt (mh m)) [docelem q] in vfor (map (fun i => Obj (HNode i) Made) l) (if b then Done else Cut) (fun z => ev m N e (vcopy (mh m) (Obj y o) z)) else vnothing)).
    assert (G : says m (if d then GFor (Obj y o) e None (GStep Take (HRoot q) Made PSelfWork) else GStart e (Obj (HRoot q) Made))
      (fst (vthen (ev m N e (Obj (HRoot q) Made)) r2)) (snd (vthen (ev m N e (Obj (HRoot q) Made)) r2))).
    { unfold r2. clear r2. destruct d.
      - pose proof (says_pwork m Take (HRoot q) Made (nxt (mh m)) [docelem q]) as S. destruct (hwork (mh m) (nxt (mh m)) [docelem q]) as [l b]. cbn [fst snd] in S.
        assert (S1 : says m (GStep Take (HRoot q) Made PSelfWork) (Obj (HRoot q) Made :: map (fun i => Obj (HNode i) Made) l) (if b then Done else Cut)).
        { rewrite sight_take in S. eapply sa_more; [exists 1; reflexivity|]. eapply says_step; [|exact S]. intros r (k & P). exists k. destruct k; [exact P|exact P]. }
        pose proof (says_for w hv m (Obj y o) e (fun z => ev m N e (vcopy (mh m) (Obj y o) z)) (fun z => IHe _) _ _ _ S1) as S2. rewrite vfor_seq2 in S2. exact S2.
      - rewrite (surjective_pairing (ev m N e (Obj (HRoot q) Made))) at 1 2. destruct (snd (ev m N e (Obj (HRoot q) Made))) eqn:Sn; cbn [vthen fst snd vnothing]; rewrite ?app_nil_r, <- ?Sn; apply IHe. }
    destruct (just_node e); [apply (says_cat w hv m _ [Obj (HRoot q) Made] Done); [apply says_list|exact G]|].
    cbn [vthen vnothing app]. destruct (vthen (ev m N e (Obj (HRoot q) Made)) r2) as [lz fz]. exact G.
  Qed.
  Lemma start_says m n : forall e x, says m (GStart e x) (fst (ev m n e x)) (snd (ev m n e x)).
  Proof.
    assert (Deep : forall n e, (forall x, says m (GStart e x) (fst (ev m n e x)) (snd (ev m n e x))) -> forall x, says m (GStart (deep e) x) (fst (ev m n (deep e) x)) (snd (ev m n (deep e) x))).
    { clear n. intros n e He x. destruct e; try apply He. cbn [deep]. apply (says_start w hv n). cbn [begin]. rewrite hev_step. destruct x; [apply says_axis| | | |];
      rewrite <- (hev_step _ w hv _ (mv m) n); apply says_at_once; rewrite hev_step; cbn [vstep vtest]; destruct t; cbn; discriminate. }
    induction n as [|n IHn].
    1: assert (Hd : forall ev', vdyn_of (mh m) w hv (mc m) (mv m) 0 = Some ev' -> forall e x, says m (GStart e x) (fst (ev' e x)) (snd (ev' e x))) by discriminate.
    2: assert (Hd : forall ev', vdyn_of (mh m) w hv (mc m) (mv m) (S n) = Some ev' -> forall e x, says m (GStart e x) (fst (ev' e x)) (snd (ev' e x))) by (intros ev' E; injection E as <-; exact IHn); clear IHn.
    1: set (N := 0) in *. 2: set (N := S n) in *.
    all: clearbody N; intros e; induction e as [l|e IHe|l op r IHl IHr|d|d e IHe|ax t|e ps IHe IHps|t|u|k|f l IHl|l IHl] using expr_ind'; intros x.
    all: try (apply (says_start w hv N); cbn [begin]; apply says_at_once; rewrite ?hev_lit, ?hev_neg, ?hev_root, ?hev_test, ?hev_abbrev, ?hev_var).
    all: try apply short_yield; try apply short_abbrev.
    all: try (solve [shorts]).
    all: try (match goal with |- short (vabsolute _ _ _ _ None) => unfold vabsolute, vroot; destruct x as [y o| | | |]; try discriminate;
      destruct (hroot_cases (mh m) (mc m (Obj y o)) y) as [(q & ->)|(f & -> & _)]; [discriminate|apply short_none] end).
    all: try (match goal with |- short (vtest _ _ _) => destruct x; cbn [vtest]; try discriminate; destruct t; discriminate end).
    (* binary *)
    all: try (match goal with |- says _ (GStart (EBin _ _ _) _) _ _ =>
      destruct (match op with OpPath => true | OpDeep => true | _ => false end) eqn:Op;
      [assert (O : op = OpPath \/ op = OpDeep) by (destruct op; try discriminate; auto);
       apply (says_start w hv N); rewrite hev_bin;
       replace (begin w hv N m (EBin l op r) x) with (GFor x (match op with OpDeep => deep r | _ => r end) None (GStart l x)) by (destruct op; try discriminate; reflexivity);
       replace (vbinary (mh m) (mv m) op x (ev m N l) (vright_of (mh m) w hv (mc m) (mv m) N op r)) with
         (vfor (fst (ev m N l x)) (snd (ev m N l x)) (fun y => vright_of (mh m) w hv (mc m) (mv m) N op r (vcopy (mh m) x y))) by (destruct op; try discriminate; reflexivity);
       apply says_for; [intros y; rewrite right_deep by exact O; destruct O as [-> | ->]; [apply IHr|apply Deep, IHr]|apply IHl]
      |apply (says_start w hv N); replace (begin w hv N m (EBin l op r) x) with (at_once w hv N m (EBin l op r) x) by (destruct op; try discriminate; reflexivity);
       apply says_at_once; rewrite hev_bin; apply short_binary; intros ->; discriminate] end).
    (* absolute *)
    all: try (match goal with |- says _ (GStart (EAbs _ (Some _)) _) _ _ => apply abs_says; exact IHe end).
    (* steps *)
    all: try (match goal with |- says _ (GStart (EStep _ _) _) _ _ =>
      apply (says_start w hv N); cbn [begin]; destruct x as [y o| | | |]; [rewrite hev_step; apply says_axis|..]; apply says_at_once; rewrite hev_step; destruct ax, t; cbn; discriminate end).
    (* predicates *)
    all: try (match goal with |- says _ (GStart (EPred _ _) _) _ _ =>
      apply (says_start w hv N); cbn [begin]; rewrite hev_pred; apply says_pred; apply IHe end).
    (* calls *)
    all: try (match goal with |- says _ (GStart (ECall _ _) _) _ _ =>
      apply (says_start w hv N);
      destruct (match l with [_; _] => match dict_get builtins f with Some FnForEach => true | _ => false end | _ => false end) eqn:C;
      [destruct l as [|a [|b [|? ?]]]; try discriminate; destruct (dict_get builtins f) as [[]|] eqn:F; try discriminate; cbn [begin]; rewrite F, hev_call; cbn [map]; unfold vcall, vstring_arg; rewrite F;
       inversion IHl as [|? ? IHa IHl']; subst;
       assert (K : forall s, says m (match xparse w (vthe (mh m) s) with inl e1 => GFor x e1 None (GStart a x) | inr z => GList [] (Exn z) end)
         (fst (match xparse w (vthe (mh m) s) with inr e => vraise e | inl e => vfor (fst (ev m N a x)) (snd (ev m N a x)) (fun y => match vdyn_of (mh m) w hv (mc m) (mv m) N with Some ev' => ev' e (vcopy (mh m) x y) | None => ([], Cut) end) end))
         (snd (match xparse w (vthe (mh m) s) with inr e => vraise e | inl e => vfor (fst (ev m N a x)) (snd (ev m N a x)) (fun y => match vdyn_of (mh m) w hv (mc m) (mv m) N with Some ev' => ev' e (vcopy (mh m) x y) | None => ([], Cut) end) end)));
       [intros s; destruct (xparse w (vthe (mh m) s)) as [e1|z]; [|apply says_list]; apply says_for; [|apply IHa]; intros y; destruct (vdyn_of (mh m) w hv (mc m) (mv m) N) as [ev'|] eqn:Dy; [apply (Hd ev' eq_refl)|apply sa_cut]
       |destruct (ev m N b x) as [[|y lb] fb]; cbn [vnext]; [destruct fb; [apply K|apply says_list..]|apply K]]
      |replace (begin w hv N m (ECall f l) x) with (at_once w hv N m (ECall f l) x);
       [apply says_at_once; rewrite hev_call; apply short_call; intros a b El Ef; destruct l as [|a1 [|b1 [|? ?]]]; try discriminate; rewrite Ef in C; discriminate
       |cbn [begin]; destruct l as [|a1 [|b1 [|? ?]]]; try reflexivity; destruct (dict_get builtins f) as [[]|]; try reflexivity; discriminate]] end).
    (* sequences *)
    all: apply (says_start w hv N); rewrite hev_seq; induction IHl as [|e1 es He Hes IHes]; cbn [begin map vchain]; [apply says_list|];
      rewrite (surjective_pairing (ev m N e1 x)); apply says_cat; [apply He|]; apply (says_start w hv N); exact IHes.
  Qed.
  Lemma ask_says n m x p : let r := obj_xpath (mh m) w hv (mc m) (mv m) n x p in says m (GAsk x p) (fst r) (snd r).
  Proof.
    assert (C : forall e, let r := obj_context (mh m) w hv (mc m) (mv m) n (negb (obj_parent (mh m) x)) x e in says m (in_context m x e) (fst r) (snd r)).
    { intros e. unfold obj_context, in_context, vroot. destruct x as [y o| | | |]; cbn [vnode]; rewrite ?Bool.andb_false_r, ?Bool.andb_true_r; try apply start_says.
      destruct (obj_parent (mh m) (Obj y o)); cbn [negb]; [apply start_says|].
      destruct (hroot_cases (mh m) (mc m (Obj y o)) y) as [(q & E)|(f & E & _)]; rewrite E; [apply start_says|apply says_list]. }
    intros r. eapply says_step; [intros z (k & P); exists (S k); exact P|]. unfold r, obj_xpath, ask.
    destruct p as [s|e|]; [|apply C|apply says_list]. destruct (xparse w s); [apply C|apply says_list].
  Qed.
End Steps.
