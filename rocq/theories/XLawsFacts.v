(** Laws of expressions. *)
From Coq Require Import Permutation Sorted Lia.
From Verif Require Import PyStr XTree Path XPath XPathSpec XPathFuel XClosedSpec XClosedFacts XLawsSpec.

Section Laws.
  Variable w : env.
  (** ** Generators *)
  Lemma bindl_seq l f l' k : bindl (l ++ l') f k = seq2 (bindl l Done k) (bindl l' f k).
  Proof.
    induction l as [|i l IH]; cbn [app bindl]; [cbn [seq2]; now destruct (bindl l' f k)|]. destruct (k i) as [l1 g]. destruct g; try reflexivity.
    rewrite IH. destruct (bindl l Done k) as [l2 g2]. destruct g2; cbn [seq2]; try reflexivity. destruct (bindl l' f k) as [l3 g3]. now rewrite app_assoc.
  Qed.
  Lemma bindl_stopped l f k : f <> Done -> snd (bindl l f k) <> Done.
  Proof.
    intros F. induction l as [|i l IH]; cbn [bindl]; [exact F|]. destruct (k i) as [l1 g]. destruct g; try discriminate. now destruct (bindl l f k).
  Qed.
  Lemma bind_seq r r' k : bind (seq2 r r') k = seq2 (bind r k) (bind r' k).
  Proof.
    destruct r as [l f], r' as [l' f']. assert (F : f = Done \/ f <> Done) by (destruct f; (left; reflexivity) || (right; discriminate)). destruct F as [->|F]; [apply bindl_seq|].
    replace (seq2 (l, f) (l', f')) with (l, f) by (destruct f; reflexivity || congruence). unfold bind. cbn [fst snd]. pose proof (bindl_stopped l f k F) as S. destruct (bindl l f k) as [l1 g1]. destruct g1; try reflexivity. exfalso. now apply S.
  Qed.
  Lemma bind_assoc r k k' : bind (bind r k) k' = bind r (fun i => bind (k i) k').
  Proof.
    destruct r as [l f]. unfold bind at 2 3. cbn [fst snd]. induction l as [|i l IH]; cbn [bindl]; [reflexivity|].
    destruct (k i) as [l1 g] eqn:E. replace (match g with Done => _ | Exn e => _ | Cut => _ end) with (seq2 (l1, g) (bindl l f k)) by (destruct g; reflexivity).
    rewrite bind_seq, IH. destruct (bind (l1, g) k') as [l2 g2]. now destruct g2.
  Qed.
  Lemma bind_yield r : bind r yield1 = r.
  Proof. destruct r as [l f]. unfold bind. cbn [fst snd]. induction l as [|i l IH]; cbn [bindl yield1]; [reflexivity|]. rewrite IH. reflexivity. Qed.
  Lemma bind_ext r k k' : (forall i, In i (fst r) -> k i = k' i) -> bind r k = bind r k'.
  Proof.
    destruct r as [l f]. unfold bind. cbn [fst snd]. induction l as [|i l IH]; cbn [bindl]; intros H; [reflexivity|]. rewrite (H i (or_introl eq_refl)). rewrite IH; [reflexivity|]. intros j J. apply H. now right.
  Qed.
  Lemma seq2_assoc a b c : seq2 (seq2 a b) c = seq2 a (seq2 b c).
  Proof. destruct a as [l f], b as [l' f'], c as [l2 f2]. destruct f; cbn [seq2]; try reflexivity. destruct f'; cbn [seq2]; try reflexivity. now rewrite app_assoc. Qed.
  Lemma seq2_nothing a : seq2 a nothing = a.
  Proof. destruct a as [l f]. destruct f; cbn [seq2 nothing]; try reflexivity. now rewrite app_nil_r. Qed.
  Lemma seq_all_app l l' : seq_all (l ++ l') = seq2 (seq_all l) (seq_all l').
  Proof. induction l as [|r l IH]; cbn [app seq_all]; [cbn [nothing seq2]; now destruct (seq_all l')|]. now rewrite IH, seq2_assoc. Qed.

  (** ** Paths *)
  Lemma right_path n r : right_of w n OpPath r = eval w n r.
  Proof. reflexivity. Qed.
  Lemma eval_path n a b c : eval w n (path a b) c = bind (eval w n a c) (fun i => eval w n b (copy w c i)).
  Proof. unfold path. now rewrite eval_bin. Qed.
  Lemma eval_deep n a b c : eval w n (deep a b) c = bind (eval w n a c) (fun i => right_of w n OpDeep b (copy w c i)).
  Proof. unfold deep. now rewrite eval_bin. Qed.
  Theorem seq_path l r : alike w (path (ESeq l) r) (ESeq (map (fun a => path a r) l)).
  Proof.
    intros n c. rewrite eval_path, !eval_seq, map_map. induction l as [|a l IH]; cbn [map seq_all]; [reflexivity|]. now rewrite bind_seq, IH, eval_path.
  Qed.
  Theorem seq_deep l r : alike w (deep (ESeq l) r) (ESeq (map (fun a => deep a r) l)).
  Proof.
    intros n c. rewrite eval_deep, !eval_seq, map_map. induction l as [|a l IH]; cbn [map seq_all]; [reflexivity|]. now rewrite bind_seq, IH, eval_deep.
  Qed.
  Theorem seq_flat l l1 l2 : alike w (ESeq (l1 ++ ESeq l :: l2)) (ESeq (l1 ++ l ++ l2)).
  Proof. intros n c. rewrite !eval_seq, !map_app. cbn [map]. rewrite eval_seq, !seq_all_app. cbn [seq_all]. reflexivity. Qed.
  Hypothesis full : no_empty_text w.
  Lemma in_nodes n e c i : nodes_only e = true -> is_node c = true -> In i (fst (eval w n e c)) -> is_node i = true.
  Proof. intros N C H. pose proof (nodes_eval w n e N c C) as A. unfold nodes in A. rewrite Forall_forall in A. exact (A i H). Qed.
  Lemma assoc k a b r : nodes_only a = true -> nodes_only b = true -> (k = path \/ k = deep) -> alike_at_nodes w (k (path a b) r) (path a (k b r)).
  Proof.
    intros A B K n c C.
    assert (E : exists o, forall x y c, eval w n (k x y) c = bind (eval w n x c) (fun i => right_of w n o y (copy w c i))).
    { destruct K as [-> | ->]; [exists OpPath; intros; apply eval_path|exists OpDeep; intros; apply eval_deep]. }
    destruct E as (o & E). rewrite E, !eval_path, bind_assoc. apply bind_ext. intros i I. pose proof (in_nodes n a c i A C I) as Ni. rewrite (node_copy w full) by exact Ni. rewrite E. apply bind_ext. intros j J.
    pose proof (in_nodes n b i j B Ni J) as Nj. now rewrite !(node_copy w full) by exact Nj.
  Qed.
  Theorem path_self a : nodes_only a = true -> alike_at_nodes w (path a (EAbbrev false)) a.
  Proof.
    intros A n c C. rewrite eval_path. rewrite <- (bind_yield (eval w n a c)) at 2. apply bind_ext. intros i I. rewrite (node_copy w full) by exact (in_nodes n a c i A C I). now rewrite eval_abbrev.
  Qed.
  Theorem self_path r : alike_at_nodes w (path (EAbbrev false) r) r.
  Proof. intros n c C. rewrite eval_path, eval_abbrev. unfold bind. cbn [abbrev fst snd yield1 bindl]. rewrite (node_copy w full) by exact C. destruct (eval w n r c) as [l f]. destruct f; try reflexivity. now rewrite app_nil_r. Qed.
End Laws.

Section Truth.
  Variable w : env.
  Definition decided (r : list item * fin) : Prop := (exists b, r = ([IBool b], Done)) \/ (exists f, f <> Done /\ r = ([], f)).
  Lemma eval_not n a c : eval w n (negation a) c = first (eval w n a c) (yield1 (IBool true)) (fun i => yield1 (IBool (negb (to_boolean w i)))).
  Proof. unfold negation. rewrite eval_call. reflexivity. Qed.
  Lemma eval_boolean n a c : eval w n (bool_of a) c = first (eval w n a c) (yield1 (IBool false)) (fun i => yield1 (IBool (to_boolean w i))).
  Proof. unfold bool_of. rewrite eval_call. reflexivity. Qed.
  Ltac cases n a c := let l := fresh "l" in let f := fresh "f" in destruct (eval w n a c) as [l f]; destruct l; [destruct f|]; cbn.
  Theorem not_not a : alike w (negation (negation a)) (bool_of a).
  Proof. intros n c. rewrite eval_boolean, !eval_not. cases n a c; try reflexivity. now rewrite negb_involutive. Qed.
  Theorem boolean_boolean a : alike w (bool_of (bool_of a)) (bool_of a).
  Proof. intros n c. rewrite !eval_boolean. cases n a c; reflexivity. Qed.
  Theorem not_boolean a : alike w (negation (bool_of a)) (negation a) /\ alike w (bool_of (negation a)) (negation a).
  Proof. split; intros n c; rewrite ?eval_boolean, ?eval_not, ?eval_boolean; cases n a c; reflexivity. Qed.
  Lemma eval_or n a b c : eval w n (either a b) c = first (eval w n a c) (raise RuntimeErr) (fun i => if truthy w i then yield1 i else first (eval w n b c) (raise RuntimeErr) yield1).
  Proof. unfold either. now rewrite eval_bin. Qed.
  Lemma eval_and n a b c : eval w n (both a b) c = first (eval w n a c) (raise RuntimeErr) (fun i => if truthy w i then first (eval w n b c) (raise RuntimeErr) yield1 else yield1 i).
  Proof. unfold both. now rewrite eval_bin. Qed.
  Theorem not_or a b : alike w (negation (either (bool_of a) (bool_of b))) (both (negation a) (negation b)).
  Proof.
    intros n c. rewrite eval_and, eval_not, eval_or, !eval_boolean, !eval_not. cases n a c; try reflexivity; [cases n b c; reflexivity|]. destruct (to_boolean w i); cbn; [reflexivity|]. cases n b c; reflexivity.
  Qed.
  Theorem not_and a b : alike w (negation (both (bool_of a) (bool_of b))) (either (negation a) (negation b)).
  Proof.
    intros n c. rewrite eval_or, eval_not, eval_and, !eval_boolean, !eval_not. cases n a c; try reflexivity. destruct (to_boolean w i); cbn; [|reflexivity]. cases n b c; reflexivity.
  Qed.
  (** ** Predicates *)
  Lemma verdict_two n pos c a b : verdict_of w pos c [eval w n (bool_of a); eval w n (bool_of b)] = verdict_of w pos c [eval w n (both (bool_of a) (bool_of b))].
  Proof.
    cbn [verdict_of]. rewrite eval_and, !eval_boolean. cases n a c; try reflexivity. destruct (to_boolean w i); cbn; [|reflexivity]. cases n b c; reflexivity.
  Qed.
  Theorem two_predicates e a b : alike w (EPred e [bool_of a; bool_of b]) (EPred e [both (bool_of a) (bool_of b)]).
  Proof.
    intros n c. rewrite !eval_pred. cbn [map]. generalize 1 as pos, (fst (eval w n e c)) as l. intros pos l. revert pos. induction l as [|i l IH]; intros pos; cbn [predicated]; [reflexivity|].
    rewrite verdict_two, IH. reflexivity.
  Qed.
End Truth.

Section Union.
  Variable w : env.
  Lemma found_at {A} (p : A -> bool) l : forall k, find_index p l = Some k -> exists x, nth_error l k = Some x /\ p x = true.
  Proof.
    induction l as [|x l IH]; intros k H; cbn [find_index] in H; [discriminate|]. destruct (p x) eqn:E; [injection H as <-; exists x; auto|].
    destruct (find_index p l) as [m|] eqn:F; [|discriminate]. injection H as <-. exact (IH m eq_refl).
  Qed.
  Lemma docorder_inj c i j n : docorder w c i = Some n -> docorder w c j = Some n -> i = j.
  Proof.
    unfold docorder. intros H H'. destruct i as [|a|? ? ? ?|?|?|?|?]; try discriminate; destruct j as [|b|? ? ? ?|?|?|?|?]; try discriminate; try reflexivity.
    - destruct c; try discriminate. injection H as <-. destruct (find_index _ _); discriminate.
    - destruct c; try discriminate. injection H' as <-. destruct (find_index _ _); discriminate.
    - destruct (find_index _ _) as [m|] eqn:E in H; [|discriminate]. destruct (find_index _ _) as [m'|] eqn:E' in H'; [|discriminate].
      injection H as <-. injection H' as ->. apply found_at in E as (x & X & P), E' as (y & Y & Q). rewrite X in Y. injection Y as <-.
      destruct (list_eq_dec Nat.eq_dec a x), (list_eq_dec Nat.eq_dec b x); congruence.
  Qed.
  Lemma keyed_keys c l : forall ks, keyed w c l = Some ks -> Forall (fun x => docorder w c (snd x) = Some (fst x)) ks.
  Proof.
    induction l as [|i l IH]; intros ks H; cbn [keyed] in H; [injection H as <-; constructor|].
    destruct (docorder w c i) as [n|] eqn:E; [|discriminate]. destruct (keyed w c l) as [l'|]; [|discriminate]. injection H as <-. constructor; [exact E|]. apply IH. reflexivity.
  Qed.
  Lemma keyed_perm c l l' : Permutation l l' -> match keyed w c l, keyed w c l' with Some ks, Some ks' => Permutation ks ks' | None, None => True | _, _ => False end.
  Proof.
    induction 1 as [|i l l' H IH|i j l|l1 l2 l3 H1 IH1 H2 IH2]; cbn [keyed].
    - constructor.
    - destruct (docorder w c i); [|exact I]. destruct (keyed w c l), (keyed w c l'); try contradiction; auto.
    - destruct (docorder w c i), (docorder w c j), (keyed w c l); try exact I. constructor.
    - destruct (keyed w c l1), (keyed w c l2), (keyed w c l3); try contradiction; try exact I. now transitivity l0.
  Qed.
  Definition key_le (x y : nat * item) : Prop := fst x <= fst y.
  Lemma insert_perm x l : Permutation (insert_by x l) (x :: l).
  Proof. induction l as [|y l IH]; cbn [insert_by]; [reflexivity|]. destruct (Nat.leb (fst x) (fst y)); [reflexivity|]. rewrite IH. constructor. Qed.
  Lemma sort_perm l : Permutation (sort_by l) l.
  Proof. induction l as [|x l IH]; cbn [sort_by fold_right]; [reflexivity|]. change (fold_right insert_by [] l) with (sort_by l). rewrite insert_perm. now constructor. Qed.
  Lemma insert_sorted x l : StronglySorted key_le l -> StronglySorted key_le (insert_by x l).
  Proof.
    induction 1 as [|y l S IH F]; cbn [insert_by]; [repeat constructor|]. destruct (Nat.leb (fst x) (fst y)) eqn:E.
    - apply PeanoNat.Nat.leb_le in E. constructor; [constructor; assumption|]. constructor; [exact E|]. eapply Forall_impl; [|exact F]. unfold key_le. intros; lia.
    - apply PeanoNat.Nat.leb_gt in E. constructor; [exact IH|]. rewrite Forall_forall in *. intros z Z. apply (Permutation_in z (insert_perm x l)) in Z as [<-|Z]; [unfold key_le; lia|auto].
  Qed.
  Lemma sort_sorted l : StronglySorted key_le (sort_by l).
  Proof. induction l as [|x l IH]; cbn [sort_by fold_right]; [constructor|]. now apply insert_sorted. Qed.
  Lemma sorted_unique (P : nat * item -> Prop) : (forall x y, P x -> P y -> fst x = fst y -> x = y) ->
    forall l l', StronglySorted key_le l -> StronglySorted key_le l' -> Forall P l -> Permutation l l' -> l = l'.
  Proof.
    intros I l. induction l as [|x l IH]; intros l' S S' F H; [now apply Permutation_nil in H|].
    destruct l' as [|y l']; [symmetry in H; now apply Permutation_nil in H|]. inversion S as [|? ? S1 S2]; subst. inversion S' as [|? ? S1' S2']; subst. inversion F as [|? ? F1 F2]; subst.
    assert (E : x = y).
    { assert (Y : In y (x :: l)) by (eapply Permutation_in; [symmetry; exact H|now left]). assert (X : In x (y :: l')) by (eapply Permutation_in; [exact H|now left]).
      assert (Py : P y) by (rewrite Forall_forall in F; now apply F). apply I; [exact F1|exact Py|].
      destruct Y as [->|Y]; [reflexivity|]. destruct X as [->|X]; [reflexivity|]. rewrite Forall_forall in S2, S2'. specialize (S2 y Y). specialize (S2' x X). unfold key_le in *. lia. }
    subst y. f_equal. apply IH; auto. now apply Permutation_cons_inv in H.
  Qed.
  (** What a union gives depends only on how often each node is among the results. *)
  Definition merged (c : item) (l : list item) : list item * fin := match keyed w c l with Some ks => (map snd (sort_by ks), Done) | None => raise AttributeErr end.
  Lemma merged_perm c l l' : Permutation l l' -> merged c l = merged c l'.
  Proof.
    intros H. unfold merged. pose proof (keyed_perm c l l' H) as K. destruct (keyed w c l) as [ks|] eqn:E, (keyed w c l') as [ks'|] eqn:E'; try contradiction; [|reflexivity].
    f_equal. f_equal. apply (sorted_unique (fun x => docorder w c (snd x) = Some (fst x))).
    - intros [n i] [m j] X Y Z. cbn [fst snd] in *. subst m. f_equal. now apply (docorder_inj c i j n).
    - apply sort_sorted.
    - apply sort_sorted.
    - apply keyed_keys in E. rewrite Forall_forall in *. intros x Hx. apply E. now apply (Permutation_in x (sort_perm ks)).
    - now rewrite !sort_perm.
  Qed.
  Lemma eval_union n a b c l l' : eval w n a c = (l, Done) -> eval w n b c = (l', Done) ->
    eval w n (union_of a b) c = match parent c with Some _ => merged c (l ++ l') | None => raise AttributeErr end.
  Proof. intros A B. unfold union_of. rewrite eval_bin. cbn [binary right_of]. rewrite A. replace (right_of w n OpUnion b c) with (eval w n b c) by reflexivity. rewrite B. reflexivity. Qed.
  Theorem union_swap n a b c : snd (eval w n a c) = Done -> snd (eval w n b c) = Done -> eval w n (union_of a b) c = eval w n (union_of b a) c.
  Proof.
    intros A B. destruct (eval w n a c) as [l f] eqn:E, (eval w n b c) as [l' f'] eqn:E'. cbn [snd] in *. subst f f'. rewrite (eval_union _ _ _ _ _ _ E E'), (eval_union _ _ _ _ _ _ E' E).
    destruct (parent c); [|reflexivity]. apply merged_perm, Permutation_app_comm.
  Qed.
  Lemma merged_items c l ks : keyed w c l = Some ks -> merged c l = (map snd (sort_by ks), Done) /\ Permutation (map snd (sort_by ks)) l.
  Proof. intros H. split; [unfold merged; now rewrite H|]. rewrite (Permutation_map snd (sort_perm ks)). now rewrite (keyed_items w c l ks H). Qed.
  Lemma keyed_app c l l' : keyed w c (l ++ l') = match keyed w c l, keyed w c l' with Some ks, Some ks' => Some (ks ++ ks') | _, _ => None end.
  Proof.
    induction l as [|i l IH]; cbn [app keyed]; [now destruct (keyed w c l')|]. rewrite IH. destruct (docorder w c i), (keyed w c l), (keyed w c l'); reflexivity.
  Qed.
  Theorem union_assoc n a b d c : snd (eval w n a c) = Done -> snd (eval w n b c) = Done -> snd (eval w n d c) = Done ->
    eval w n (union_of (union_of a b) d) c = eval w n (union_of a (union_of b d)) c.
  Proof.
    intros A B D. destruct (eval w n a c) as [l f] eqn:E, (eval w n b c) as [l' f'] eqn:E', (eval w n d c) as [l2 f2] eqn:E2. cbn [snd] in *. subst f f' f2.
    pose proof (eval_union _ _ _ _ _ _ E E') as U. pose proof (eval_union _ _ _ _ _ _ E' E2) as U'. destruct (parent c) as [p|] eqn:P.
    2: { unfold union_of at 1 3. rewrite !eval_bin. cbn [binary]. unfold union. now rewrite P. }
    assert (R : forall x y, eval w n (EBin x OpUnion y) c = collected (eval w n x c) (fun l => collected (eval w n y c) (fun l' => merged c (l ++ l')))).
    { intros x y. rewrite eval_bin. cbn [binary]. unfold union. rewrite P. reflexivity. }
    unfold union_of at 1 3. rewrite !R, U, U', E, E2. cbn [collected].
    destruct (keyed w c l) as [k|] eqn:K; [|unfold merged; rewrite !keyed_app, K; cbn; destruct (keyed w c l'); [destruct (keyed w c l2)|]; cbn; rewrite ?keyed_app, ?K; reflexivity].
    destruct (keyed w c l') as [k'|] eqn:K'; [|unfold merged; rewrite !keyed_app, K, K'; reflexivity].
    destruct (keyed w c l2) as [k2|] eqn:K2.
    - destruct (merged_items c (l ++ l') (k ++ k')) as (M1 & M2); [now rewrite keyed_app, K, K'|]. destruct (merged_items c (l' ++ l2) (k' ++ k2)) as (M3 & M4); [now rewrite keyed_app, K', K2|].
      rewrite M1, M3. cbn [collected]. apply merged_perm. rewrite M2, M4. now rewrite app_assoc.
    - destruct (merged_items c (l ++ l') (k ++ k')) as (M1 & M2); [now rewrite keyed_app, K, K'|]. assert (X : merged c (l' ++ l2) = raise AttributeErr) by (unfold merged; rewrite keyed_app, K', K2; reflexivity).
      rewrite M1, X. cbn [collected raise]. unfold merged. rewrite keyed_app, K2. destruct (keyed w c (map snd (sort_by (k ++ k')))); reflexivity.
  Qed.
End Union.
