(** Facts about MicroXPath evaluation. *)
From Verif Require Import PyStr XTree ParserInv Tree TreeFacts Heap Path Nodes Pattern PatternSpec PatternFacts TreeUtil TreeUtilSpec TreeUtilFacts XPath XPathSpec.
From Coq Require Import Permutation.

(** ** Positions *)
Lemma subtree_app t a b : subtree t (a ++ b) = match subtree t a with Some u => subtree u b | None => None end.
Proof.
  revert t. induction a as [|i a IH]; intros t; cbn [app subtree]; [reflexivity|]. destruct t as [n ats ks|s]; [|reflexivity].
  destruct (nth_error ks i); [apply IH|reflexivity].
Qed.
Lemma doc_before_app c a b : doc_before (c ++ a) (c ++ b) <-> doc_before a b.
Proof.
  induction c as [|i c IH]; cbn [app]; [reflexivity|]. split.
  - intros H. inversion H; subst; [lia|]. apply IH; auto.
  - intros H. apply db_same, IH, H.
Qed.
Lemma doc_before_below a i b : doc_before a (a ++ i :: b).
Proof. induction a as [|j a IH]; cbn; [apply db_below|apply db_same, IH]. Qed.

(** All nodes of a tree. *)
Fixpoint all_nodes (t : xtree) : list (list nat * xtree) :=
  match t with
  | XE _ _ ks => ([], t) :: over all_nodes 0 ks
  | XT _ => [([], t)]
  end.
Lemma all_nodes_sorted t : StronglySorted doc_before (map fst (all_nodes t)).
Proof.
  induction t as [n a ks IH|s] using xtree_ind'; cbn [all_nodes map fst].
  - constructor; [apply over_sorted; rewrite Forall_forall in IH; auto|]. rewrite Forall_forall. intros x Hx.
    apply in_map_iff in Hx as ([b u] & <- & Hi). apply over_in in Hi as (j & k & c & _ & -> & _). constructor.
  - repeat constructor.
Qed.
Lemma all_nodes_in t : forall b u, In (b, u) (all_nodes t) <-> subtree t b = Some u.
Proof.
  induction t as [n a ks IH|s] using xtree_ind'; intros b u; cbn [all_nodes In].
  - rewrite over_in. rewrite Forall_forall in IH. split.
    + intros [E|(j & k & c & Hj & -> & Hi)]; [inversion E; subst; reflexivity|]. cbn [Nat.add subtree]. rewrite Hj.
      apply (IH k); auto. eapply nth_error_In; eauto.
    + intros H. destruct b as [|j b]; [left; cbn in H; congruence|]. right. cbn [subtree] in H.
      destruct (nth_error ks j) as [k|] eqn:Ej; [|discriminate]. exists j, k, b. split; [auto|]. split; [reflexivity|].
      apply (IH k); auto. eapply nth_error_In; eauto.
  - split.
    + intros [E|[]]. inversion E; subst. reflexivity.
    + intros H. destruct b; cbn in H; [|discriminate]. left; congruence.
Qed.
Lemma all_nodes_listing t : listing t (fun _ _ => True) (all_nodes t).
Proof. split; [apply all_nodes_sorted|]. intros a u. rewrite all_nodes_in. tauto. Qed.

Lemma filter_sorted {A} (R : A -> A -> Prop) {B} (f : B -> A) p l : StronglySorted R (map f l) -> StronglySorted R (map f (filter p l)).
Proof.
  induction l as [|x l IH]; intros H; cbn [filter map]; [constructor|]. cbn [map] in H. apply StronglySorted_inv in H as [H1 H2].
  destruct (p x); cbn [map]; [|auto]. constructor; [auto|]. rewrite Forall_forall in *. intros y Hy.
  apply in_map_iff in Hy as (z & <- & Hz). apply H2, in_map. apply filter_In in Hz. tauto.
Qed.
Lemma listing_filter t P l p (Q : addr -> xtree -> Prop) : listing t P l ->
  (forall a u, In (a, u) l -> (p (a, u) = true <-> Q a u)) -> listing t (fun a u => P a u /\ Q a u) (filter p l).
Proof.
  intros [S I] H. split; [apply filter_sorted, S|]. intros a u. rewrite filter_In. split.
  - intros [H1 H2]. pose proof (proj1 (I a u) H1) as [? ?]. split; [auto|]. split; [auto|]. apply (H a u); auto.
  - intros (H1 & H2 & H3). assert (Hi : In (a, u) l) by (apply I; auto). split; [auto|]. apply (H a u); auto.
Qed.

(** A list of positions with the nodes there. *)
Definition at_addrs (t : xtree) (l : list addr) : list (addr * xtree) :=
  flat_map (fun a => match subtree t a with Some u => [(a, u)] | None => [] end) l.
Lemma at_addrs_fst t l : (forall a, In a l -> subtree t a <> None) -> map fst (at_addrs t l) = l.
Proof.
  induction l as [|a l IH]; intros H; cbn; [reflexivity|]. destruct (subtree t a) as [u|] eqn:E; [|exfalso; apply (H a); [left; auto|auto]].
  cbn. f_equal. apply IH. intros; apply H; right; auto.
Qed.
Lemma at_addrs_in t l a u : In (a, u) (at_addrs t l) <-> In a l /\ subtree t a = Some u.
Proof.
  unfold at_addrs. rewrite in_flat_map. split.
  - intros (b & Hb & Hi). destruct (subtree t b) as [v|] eqn:E; [|destruct Hi]. destruct Hi as [Hi|[]]. inversion Hi; subst. auto.
  - intros [H1 H2]. exists a. rewrite H2. split; [auto|left; auto].
Qed.
Lemma at_addrs_listing t l (P : addr -> Prop) : StronglySorted doc_before l -> (forall a, In a l <-> P a /\ subtree t a <> None) ->
  listing t (fun a _ => P a) (at_addrs t l).
Proof.
  intros S H. split; [rewrite at_addrs_fst; [auto|]; intros a Ha; apply H; auto|]. intros a u. rewrite at_addrs_in, H.
  split; [tauto|]. intros [H1 H2]. split; [split; [auto|congruence]|auto].
Qed.

Section Facts.
  Variable w : env.
  Notation D := (doc w).

  Lemma kid_addrs_in a b : In b (kid_addrs w a) <-> (exists i, b = a ++ [i]) /\ subtree D b <> None.
  Proof.
    unfold kid_addrs, node_at. split.
    - destruct (subtree D a) as [[n ats ks|s]|] eqn:E; cbn; try tauto. intros H. apply in_map_iff in H as (i & <- & Hi).
      apply in_seq in Hi. split; [eauto|]. rewrite subtree_app, E. cbn. destruct (nth_error ks i) eqn:En; [discriminate|].
      apply nth_error_None in En. lia.
    - intros ((i & ->) & H). rewrite subtree_app in H. destruct (subtree D a) as [[n ats ks|s]|]; cbn in H; try congruence.
      apply in_map_iff. exists i. split; [auto|]. apply in_seq. destruct (nth_error ks i) eqn:En; [|congruence].
      assert (nth_error ks i <> None) by congruence. apply nth_error_Some in H0. lia.
  Qed.
  Lemma map_app_sorted c l : StronglySorted doc_before l -> StronglySorted doc_before (map (app c) l).
  Proof.
    induction l as [|x l IH]; intros H; cbn [map]; [constructor|]. apply StronglySorted_inv in H as [H1 H2]. constructor; [auto|].
    rewrite Forall_forall in *. intros y Hy. apply in_map_iff in Hy as (z & <- & Hz). apply doc_before_app; auto.
  Qed.
  Lemma seq_sorted n i : StronglySorted doc_before (map (fun j => [j]) (seq i n)).
  Proof.
    revert i. induction n as [|n IH]; intros i; cbn [seq map]; [constructor|]. constructor; [apply IH|]. rewrite Forall_forall.
    intros y Hy. apply in_map_iff in Hy as (j & <- & Hj). apply in_seq in Hj. apply db_later. lia.
  Qed.
  Lemma kid_addrs_sorted a : StronglySorted doc_before (kid_addrs w a).
  Proof.
    unfold kid_addrs. destruct (node_at w a) as [[n ats ks|s]|]; try constructor.
    pose proof (map_app_sorted a _ (seq_sorted (length ks) 0)) as H. rewrite map_map in H. exact H.
  Qed.

  (** The worklist visits the subtrees one after the other. *)
  Definition below_addrs (a : addr) : list addr :=
    match subtree D a with Some u => map (fun x => a ++ fst x) (all_nodes u) | None => [] end.
  Definition size_at (a : addr) : nat := match subtree D a with Some u => tree_size u | None => 0 end.
  Definition total (l : list addr) : nat := fold_right (fun a n => size_at a + n) 0 l.
  Lemma total_app l m : total (l ++ m) = total l + total m.
  Proof. unfold total. induction l as [|a l IH]; cbn [app fold_right]; [reflexivity|]. rewrite IH. lia. Qed.
  Lemma total_kids_seq n ats ks a : subtree D a = Some (XE n ats ks) -> forall pre rest, ks = pre ++ rest ->
    total (map (fun i => a ++ [i]) (seq (length pre) (length rest))) = fold_right (fun k n => tree_size k + n) 0 rest.
  Proof.
    intros H pre rest. revert pre. induction rest as [|k rest IH]; intros pre E; cbn [length seq map total fold_right]; [reflexivity|].
    unfold size_at at 1. rewrite subtree_app, H. cbn [subtree]. rewrite E, nth_error_app2 by auto. rewrite Nat.sub_diag. cbn [nth_error].
    f_equal. specialize (IH (pre ++ [k])). rewrite <- app_assoc in IH. cbn [app] in IH. specialize (IH E).
    rewrite app_length in IH. cbn [length] in IH. rewrite Nat.add_1_r in IH. exact IH.
  Qed.
  Lemma total_kids a u : subtree D a = Some u -> S (total (kid_addrs w a)) = tree_size u.
  Proof.
    intros H. unfold kid_addrs, node_at. rewrite H. destruct u as [n ats ks|s]; [|reflexivity]. cbn [tree_size]. f_equal.
    exact (total_kids_seq n ats ks a H [] ks eq_refl).
  Qed.
  Lemma over_kids {B} (g : addr -> list B) (h : list nat * xtree -> B) (f : xtree -> list (list nat * xtree)) n ats ks a : subtree D a = Some (XE n ats ks) ->
    (forall i k, nth_error ks i = Some k -> g (a ++ [i]) = map (fun x => h (a ++ i :: fst x, snd x)) (f k)) ->
    flat_map g (kid_addrs w a) = map (fun x => h (a ++ fst x, snd x)) (over f 0 ks).
  Proof.
    intros H Hg. unfold kid_addrs, node_at. rewrite H.
    assert (K : forall pre rest, ks = pre ++ rest ->
      flat_map g (map (fun i => a ++ [i]) (seq (length pre) (length rest))) = map (fun x => h (a ++ fst x, snd x)) (over f (length pre) rest)).
    { intros pre rest. revert pre. induction rest as [|k rest IH]; intros pre E; cbn [length seq map flat_map over]; [reflexivity|].
      rewrite map_app. f_equal.
      - rewrite (Hg (length pre) k) by (rewrite E, nth_error_app2, Nat.sub_diag by auto; reflexivity).
        unfold under. rewrite map_map. apply map_ext. intros x. reflexivity.
      - specialize (IH (pre ++ [k])). rewrite <- app_assoc in IH. cbn [app] in IH. specialize (IH E).
        rewrite app_length in IH. cbn [length] in IH. rewrite Nat.add_1_r in IH. exact IH. }
    exact (K [] ks eq_refl).
  Qed.
  Lemma below_step a : subtree D a <> None -> below_addrs a = a :: flat_map below_addrs (kid_addrs w a).
  Proof.
    intros H. unfold below_addrs at 1. destruct (subtree D a) as [u|] eqn:E; [|congruence]. destruct u as [n ats ks|s].
    - cbn [all_nodes map fst]. rewrite app_nil_r. f_equal.
      rewrite (over_kids below_addrs fst all_nodes n ats ks a E); [reflexivity|].
      intros i k Hk. unfold below_addrs. rewrite subtree_app, E. cbn [subtree]. rewrite Hk. apply map_ext. intros x. cbn.
      rewrite <- app_assoc. reflexivity.
    - cbn [all_nodes map fst]. rewrite app_nil_r. unfold kid_addrs, node_at. rewrite E. reflexivity.
  Qed.
  Lemma worklist_flat n : forall l, (forall a, In a l -> subtree D a <> None) -> total l <= n -> worklist w n l = flat_map below_addrs l.
  Proof.
    induction n as [|n IH]; intros [|a l] Hv Hn; cbn [worklist flat_map]; try reflexivity.
    - exfalso. assert (Ha := Hv a (or_introl eq_refl)). cbn [total fold_right] in Hn. unfold size_at in Hn.
      destruct (subtree D a) as [u|]; [|congruence]. destruct u; cbn in Hn; lia.
    - assert (Ha := Hv a (or_introl eq_refl)). rewrite IH.
      + rewrite flat_map_app, (below_step a) by auto. reflexivity.
      + intros b Hb. apply in_app_iff in Hb as [Hb|Hb]; [apply kid_addrs_in in Hb; tauto|apply Hv; right; auto].
      + rewrite total_app. change (total (a :: l)) with (size_at a + total l) in Hn. unfold size_at in Hn.
        destruct (subtree D a) as [u|] eqn:E; [|congruence]. apply total_kids in E. lia.
  Qed.
  Lemma size_sub t : forall a u, subtree t a = Some u -> tree_size u <= tree_size t.
  Proof.
    induction t as [n ats ks IH|s] using xtree_ind'; intros [|i a] u H; cbn [subtree] in H; try (inversion H; subst; auto; fail).
    destruct (nth_error ks i) as [k|] eqn:E; [|discriminate]. rewrite Forall_forall in IH. apply nth_error_In in E.
    specialize (IH k E a u H). cbn [tree_size]. clear H. induction ks as [|k' ks IHk]; [destruct E|]. cbn [fold_right].
    destruct E as [->|E]; [lia|]. specialize (IHk E). lia.
  Qed.
  Lemma total_filter_le l m : total l <= total (l ++ m). Proof. rewrite total_app. lia. Qed.
  Lemma total_skip i l : total (skipn i l) <= total l.
  Proof. rewrite <- (firstn_skipn i l) at 2. rewrite total_app. lia. Qed.
  Lemma process_kids a i : subtree D a <> None -> process w (skipn i (kid_addrs w a)) = flat_map below_addrs (skipn i (kid_addrs w a)).
  Proof.
    intros H. destruct (subtree D a) as [u|] eqn:E; [|congruence]. unfold process. apply worklist_flat.
    - intros b Hb. assert (Hi : In b (kid_addrs w a)) by (rewrite <- (firstn_skipn i); apply in_app_iff; auto). apply kid_addrs_in in Hi. tauto.
    - pose proof (total_kids a u E). pose proof (size_sub D a u E). pose proof (total_skip i (kid_addrs w a)). lia.
  Qed.
  Lemma process_root : process w [[]] = map fst (all_nodes D).
  Proof.
    unfold process. rewrite worklist_flat.
    - cbn [flat_map]. rewrite app_nil_r. unfold below_addrs. cbn [subtree]. apply map_ext. reflexivity.
    - intros a [<-|[]]. discriminate.
    - unfold total, size_at. cbn. lia.
  Qed.
  Lemma below_in a b : In b (below_addrs a) <-> (exists r, b = a ++ r) /\ subtree D b <> None.
  Proof.
    unfold below_addrs. split.
    - destruct (subtree D a) as [u|] eqn:E; [|intros []]. intros H. apply in_map_iff in H as ([c v] & <- & Hi). cbn [fst].
      apply all_nodes_in in Hi. split; [eauto|]. rewrite subtree_app, E, Hi. discriminate.
    - intros ((r & ->) & H). rewrite subtree_app in H. destruct (subtree D a) as [u|] eqn:E; [|congruence].
      destruct (subtree u r) as [v|] eqn:E2; [|congruence]. apply in_map_iff. exists (r, v). split; [reflexivity|]. apply all_nodes_in; auto.
  Qed.
  Lemma below_sorted a : StronglySorted doc_before (below_addrs a).
  Proof.
    unfold below_addrs. destruct (subtree D a) as [u|]; [|constructor]. rewrite <- map_map with (f := fst) (g := app a).
    apply map_app_sorted, all_nodes_sorted.
  Qed.
  Lemma flat_below_sorted p l : StronglySorted doc_before (map (fun j => p ++ [j]) l) ->
    StronglySorted doc_before (flat_map below_addrs (map (fun j => p ++ [j]) l)).
  Proof.
    induction l as [|i l IH]; intros H; cbn [map flat_map]; [constructor|]. cbn [map] in H. apply StronglySorted_inv in H as [H1 H2].
    apply sorted_app; [apply below_sorted|auto|]. intros x y Hx Hy. apply below_in in Hx as ((r & ->) & _).
    apply in_flat_map in Hy as (b & Hb & Hy). rewrite Forall_forall in H2. specialize (H2 b Hb). apply below_in in Hy as ((r' & ->) & _).
    apply in_map_iff in Hb as (j & <- & _). rewrite doc_before_app in H2. inversion H2 as [| i' j' a' b' Hij E1 E2 |i' a' b' Hs E1 E2]; subst.
    - rewrite <- !app_assoc. apply doc_before_app. cbn. apply db_later; auto.
    - exfalso. inversion Hs.
  Qed.
  Lemma skipn_kids a i n ats ks : subtree D a = Some (XE n ats ks) ->
    skipn i (kid_addrs w a) = map (fun j => a ++ [j]) (skipn i (seq 0 (length ks))).
  Proof. intros H. unfold kid_addrs, node_at. rewrite H. rewrite skipn_map. reflexivity. Qed.
  Lemma skipn_sorted {A} (R : A -> A -> Prop) i l : StronglySorted R l -> StronglySorted R (skipn i l).
  Proof.
    revert l. induction i as [|i IH]; intros l H; [exact H|]. destruct l as [|x l]; cbn; [constructor|]. apply IH. apply StronglySorted_inv in H. tauto.
  Qed.
  Lemma process_sorted a i : subtree D a <> None -> StronglySorted doc_before (process w (skipn i (kid_addrs w a))).
  Proof.
    intros H. rewrite process_kids by auto. destruct (subtree D a) as [u|] eqn:E; [|congruence]. destruct u as [n ats ks|s].
    - pose proof (skipn_sorted doc_before i _ (kid_addrs_sorted a)) as S. rewrite (skipn_kids a i n ats ks E) in *. apply flat_below_sorted, S.
    - unfold kid_addrs, node_at. rewrite E. rewrite skipn_nil. constructor.
  Qed.
  Lemma skipn_seq i m n : skipn i (seq m n) = seq (m + i) (n - i).
  Proof.
    revert i m. induction n as [|n IH]; intros i m; cbn [seq]; [apply skipn_nil|]. destruct i as [|i]; cbn [skipn].
    - rewrite Nat.add_0_r, Nat.sub_0_r. reflexivity.
    - rewrite IH. f_equal; lia.
  Qed.
  Lemma skip_in a i b : In b (skipn i (kid_addrs w a)) <-> (exists j, b = a ++ [j] /\ i <= j) /\ subtree D b <> None.
  Proof.
    split.
    - intros H. assert (Hi : In b (kid_addrs w a)) by (rewrite <- (firstn_skipn i); apply in_app_iff; auto). apply kid_addrs_in in Hi as [_ Hb].
      split; [|auto]. destruct (subtree D a) as [[n ats ks|s]|] eqn:E.
      + rewrite (skipn_kids a i n ats ks E), skipn_seq in H. apply in_map_iff in H as (j & <- & Hj). apply in_seq in Hj. exists j. split; [auto|lia].
      + unfold kid_addrs, node_at in H. rewrite E, skipn_nil in H. destruct H.
      + unfold kid_addrs, node_at in H. rewrite E, skipn_nil in H. destruct H.
    - intros ((j & -> & Hj) & H). rewrite subtree_app in H. destruct (subtree D a) as [[n ats ks|s]|] eqn:E; cbn in H; try congruence.
      rewrite (skipn_kids a i n ats ks E), skipn_seq. apply in_map_iff. exists j. split; [auto|]. apply in_seq.
      assert (nth_error ks j <> None) as Hn by (destruct (nth_error ks j); congruence). apply nth_error_Some in Hn. lia.
  Qed.
  Lemma process_in a i b : subtree D a <> None -> In b (process w (skipn i (kid_addrs w a))) <->
    (exists j r, b = a ++ j :: r /\ i <= j) /\ subtree D b <> None.
  Proof.
    intros Ha. rewrite process_kids by auto. rewrite in_flat_map. split.
    - intros (c & Hc & Hb). apply skip_in in Hc as ((j & -> & Hj) & _). apply below_in in Hb as ((r & ->) & Hb). split; [|auto].
      exists j, r. rewrite <- app_assoc. auto.
    - intros ((j & r & -> & Hj) & H). exists (a ++ [j]). split.
      + apply skip_in. split; [eauto|]. intros N. apply H. change (j :: r) with ([j] ++ r). rewrite app_assoc, subtree_app, N. reflexivity.
      + apply below_in. split; [exists r; rewrite <- app_assoc; reflexivity|auto].
  Qed.

  (** ** Node tests *)
  Definition passb (t : ntest) (u : xtree) : bool :=
    match t with
    | TStar | TNode => true
    | TName n => match u with XE m _ _ => str_eqb m n | XT _ => false end
    | TText => match u with XT _ => true | _ => false end
    end.
  Lemma passb_iff t u : passb t u = true <-> passes t u.
  Proof.
    destruct t as [|n| |]; cbn; try (split; [auto|reflexivity]).
    - destruct u as [m a ks|s]; [rewrite str_eqb_eq|]; split.
      + intros ->. eauto.
      + intros (a' & ks' & E). congruence.
      + discriminate.
      + intros (a' & ks' & E). discriminate.
    - destruct u as [m a ks|s]; split; try discriminate; try reflexivity; [intros (s & E); discriminate|]. intros _. exists s. reflexivity.
  Qed.
  Definition passb_at (t : ntest) (a : addr) : bool := match subtree D a with Some u => passb t u | None => false end.
  Lemma copy_node c a : subtree D a <> Some (XT []) -> copy w c (INode a) = INode a.
  Proof.
    intros H. unfold copy, truthy, text_at, node_at. destruct (subtree D a) as [[n ats ks|[|x s]]|]; try reflexivity. congruence.
  Qed.
  Lemma copy_root c : copy w c IRoot = IRoot. Proof. reflexivity. Qed.
  Lemma test_node t a : subtree D a <> None -> test w t (INode a) = (if passb_at t a then [INode a] else [], Done).
  Proof.
    intros H. unfold passb_at, test, as_str, text_at, node_at. destruct (subtree D a) as [u|] eqn:E; [|congruence].
    destruct t as [|n| |]; cbn; try reflexivity; destruct u as [m ats ks|s]; try reflexivity. destruct (str_eqb m n); reflexivity.
  Qed.
  Lemma bindl_pure l (p : addr -> bool) k : (forall a, In a l -> k (INode a) = (if p a then [INode a] else [], Done)) ->
    bindl (map INode l) Done k = (map INode (filter p l), Done).
  Proof.
    induction l as [|a l IH]; intros H; cbn [map bindl filter]; [reflexivity|]. rewrite H by (left; auto).
    rewrite IH by (intros; apply H; right; auto). destruct (p a); reflexivity.
  Qed.
  Lemma test_all_filter t c l : (forall a, In a l -> subtree D a <> None /\ subtree D a <> Some (XT [])) ->
    test_all w t c l = (map INode (filter (passb_at t) l), Done).
  Proof.
    intros H. apply bindl_pure. intros a Ha. destruct (H a Ha). rewrite copy_node by auto. apply test_node; auto.
  Qed.
  Lemma nodes_filter t l : (forall a, In a l -> subtree D a <> None) ->
    nodes (filter (fun x => passb t (snd x)) (at_addrs D l)) = map INode (filter (passb_at t) l).
  Proof.
    induction l as [|a l IH]; intros H; cbn [at_addrs flat_map filter map]; [reflexivity|]. unfold passb_at at 1.
    destruct (subtree D a) as [u|] eqn:E; [|exfalso; apply (H a); [left; auto|auto]]. cbn [app filter snd].
    specialize (IH (fun a Ha => H a (or_intror Ha))). fold (at_addrs D l). unfold nodes in *. destruct (passb t u); cbn [map fst]; rewrite IH; reflexivity.
  Qed.
  Lemma rev_filter {A} (p : A -> bool) l : filter p (rev l) = rev (filter p l).
  Proof. induction l as [|x l IH]; cbn [rev filter]; [reflexivity|]. rewrite filter_app, IH. cbn. destruct (p x); cbn; [reflexivity|apply app_nil_r]. Qed.
  Lemma filter_listing t l (P : addr -> Prop) : StronglySorted doc_before l -> (forall a, In a l <-> P a /\ subtree D a <> None) ->
    exists L, listing D (fun a u => P a /\ passes t u) L /\ map INode (filter (passb_at t) l) = nodes L.
  Proof.
    intros S H. exists (filter (fun x => passb t (snd x)) (at_addrs D l)). split.
    - apply listing_filter with (P := fun a _ => P a) (Q := fun _ u => passes t u); [apply at_addrs_listing; auto|]. intros a u _. apply passb_iff.
    - symmetry. apply nodes_filter. intros a Ha. apply H; auto.
  Qed.
  Definition no_empty_in (l : list addr) : Prop := forall a, In a l -> subtree D a <> Some (XT []).
  Lemma no_empty_all l : no_empty_text w -> no_empty_in l.
  Proof. intros H a _ E. apply (H a [] E). reflexivity. Qed.
  Lemma test_all_selects t c l (P : addr -> Prop) : no_empty_in l -> StronglySorted doc_before l -> (forall a, In a l <-> P a /\ subtree D a <> None) ->
    selects w (fun a u => P a /\ passes t u) (test_all w t c l).
  Proof.
    intros He S H. destruct (filter_listing t l P S H) as (L & HL & E). exists L. split; [auto|]. rewrite <- E. apply test_all_filter.
    intros a Ha. split; [apply H; auto|apply He; auto].
  Qed.
  Lemma test_all_back t c l (P : addr -> Prop) : no_empty_in l -> StronglySorted doc_before l -> (forall a, In a l <-> P a /\ subtree D a <> None) ->
    selects_back w (fun a u => P a /\ passes t u) (test_all w t c (rev l)).
  Proof.
    intros He S H. destruct (filter_listing t l P S H) as (L & HL & E). exists L. split; [auto|]. rewrite <- E, <- map_rev, <- rev_filter. apply test_all_filter.
    intros a Ha. apply in_rev in Ha. split; [apply H; auto|apply He; auto].
  Qed.
  Lemma selects_ext P Q r : (forall a u, subtree D a = Some u -> (P a u <-> Q a u)) -> selects w P r -> selects w Q r.
  Proof. intros H (l & Hl & E). exists l. split; [|auto]. eapply listing_ext; eauto. Qed.
  Lemma selects_back_ext P Q r : (forall a u, subtree D a = Some u -> (P a u <-> Q a u)) -> selects_back w P r -> selects_back w Q r.
  Proof. intros H (l & Hl & E). exists l. split; [|auto]. eapply listing_ext; eauto. Qed.

  (** ** Axes *)
  Lemma kids_in c l : tree_item w c -> kids w c = Some l -> forall b, In b l <-> child_of c b /\ subtree D b <> None.
  Proof.
    intros Hc E b. destruct c as [|a|a k v|s|z|f|bb]; cbn in *; try discriminate; inversion E; subst.
    - cbn. split; [intros [<-|[]]; split; [auto|discriminate]|]. intros [-> _]. left; auto.
    - apply kid_addrs_in.
  Qed.
  Lemma kids_sorted c l : kids w c = Some l -> StronglySorted doc_before l.
  Proof. intros E. destruct c; cbn in *; try discriminate; inversion E; subst; [repeat constructor|apply kid_addrs_sorted]. Qed.
  Lemma kids_some c : tree_item w c -> exists l, kids w c = Some l.
  Proof. destruct c; cbn; try contradiction; eauto. Qed.
  Lemma sorted_filter p l : StronglySorted doc_before l -> StronglySorted doc_before (filter p l).
  Proof. intros H. rewrite <- (map_id (filter p l)). apply filter_sorted. rewrite map_id. exact H. Qed.
  Lemma is_elem_iff a : is_elem_at w a = true <-> exists u, subtree D a = Some u /\ is_element u.
  Proof.
    unfold is_elem_at, node_at. destruct (subtree D a) as [[n ats ks|s]|]; split; try discriminate; try reflexivity.
    - intros _. eexists. split; [reflexivity|]. repeat eexists.
    - intros (u & E & (n & ats & ks & ->)). discriminate.
    - intros (u & E & _). discriminate.
  Qed.
  Lemma child_axis fuel t c : tree_item w c -> is_name_test t = true \/ no_empty_text w ->
    selects w (fun b u => child_of c b /\ child_passes t u) (step w fuel AxChild t c).
  Proof.
    intros Hc He. destruct (kids_some c Hc) as (l & E). cbn [step]. rewrite E. destruct (is_name_test t) eqn:Et.
    - apply selects_ext with (P := fun b u => (child_of c b /\ is_elem_at w b = true) /\ passes t u).
      + intros b u Hb. split.
        * intros ((H1 & H2) & H3). split; [auto|]. destruct t; cbn; auto. apply is_elem_iff in H2 as (u' & E1 & E2). congruence.
        * intros (H1 & H2). assert (is_element u /\ passes t u) as [K1 K2].
          { destruct t as [|n| |]; try discriminate; cbn in *; [auto|]. split; [|auto]. destruct H2 as (a & ks & ->). repeat eexists. }
          split; [|auto]. split; [auto|]. apply is_elem_iff. eauto.
      + apply test_all_selects.
        * intros a Ha N. apply filter_In in Ha as [_ Ha]. apply is_elem_iff in Ha as (u & E1 & (n & ats & ks & ->)). congruence.
        * apply sorted_filter. eapply kids_sorted; eauto.
        * intros a. rewrite filter_In, (kids_in c l Hc E). tauto.
    - assert (no_empty_text w) by (destruct He; [discriminate|auto]). apply selects_ext with (P := fun b u => child_of c b /\ passes t u).
      + intros b u Hb. destruct t; try discriminate; cbn; tauto.
      + apply test_all_selects; [apply no_empty_all; auto|eapply kids_sorted; eauto|apply kids_in; auto].
  Qed.
  Lemma descend_in c l : tree_item w c -> kids w c = Some l ->
    (forall b, In b (process w l) <-> below_item c b /\ subtree D b <> None) /\ StronglySorted doc_before (process w l).
  Proof.
    intros Hc E. destruct c as [|a|a k v|s|z|f|bb]; cbn in *; try discriminate; inversion E; subst.
    - rewrite process_root. split; [|apply all_nodes_sorted]. intros b. rewrite in_map_iff. split.
      + intros ([b' u] & <- & Hi). apply all_nodes_in in Hi. cbn. split; [auto|congruence].
      + intros [_ H]. destruct (subtree D b) as [u|] eqn:Eb; [|congruence]. exists (b, u). split; [auto|]. apply all_nodes_in; auto.
    - assert (Ha : subtree D a <> None) by (destruct Hc; congruence). split.
      + intros b. rewrite (process_in a 0 b Ha). cbn [skipn]. unfold above. split.
        * intros ((j & r & -> & _) & H). split; [eauto|auto].
        * intros ((j & r & ->) & H). split; [|auto]. exists j, r. split; [auto|lia].
      + apply (process_sorted a 0 Ha).
  Qed.
  Lemma descendant_axis fuel t c : tree_item w c -> no_empty_text w ->
    selects w (fun b u => below_item c b /\ passes t u) (step w fuel AxDescendant t c).
  Proof.
    intros Hc He. destruct (kids_some c Hc) as (l & E). cbn [step]. rewrite E. destruct (descend_in c l Hc E) as [H1 H2].
    apply test_all_selects; [apply no_empty_all; auto|auto|auto].
  Qed.
  Lemma descendant_or_self_axis fuel t a u : no_empty_text w -> subtree D a = Some u ->
    selects w (fun b v => (b = a \/ above a b) /\ passes t v) (step w fuel AxDescendantOrSelf t (INode a)).
  Proof.
    intros He Ha. assert (Hc : tree_item w (INode a)) by (exists u; auto). cbn [step kids].
    assert (En : test_all w t (INode a) (a :: process w (kid_addrs w a)) = seq2 (test w t (INode a)) (test_all w t (INode a) (process w (kid_addrs w a)))).
    { unfold test_all. cbn [map bindl]. rewrite copy_node by (intros N; apply (He a [] N); reflexivity). rewrite test_node by congruence. reflexivity. }
    rewrite <- En. destruct (descend_in (INode a) (kid_addrs w a) Hc eq_refl) as [H1 H2]. apply test_all_selects; [apply no_empty_all; auto| |].
    - constructor; [auto|]. rewrite Forall_forall. intros b Hb. apply H1 in Hb as ((i & r & ->) & _). apply doc_before_below.
    - intros b. cbn [In]. rewrite H1. cbn [below_item]. split.
      + intros [<-|[K1 K2]]; [split; [auto|congruence]|auto].
      + intros [[->|K1] K2]; auto.
  Qed.
  Lemma descendant_or_self_root fuel t : no_empty_text w ->
    exists l, listing D (fun _ v => passes t v) l /\
      ((root_passes t /\ step w fuel AxDescendantOrSelf t IRoot = (IRoot :: nodes l, Done)) \/
       (~ root_passes t /\ step w fuel AxDescendantOrSelf t IRoot = (nodes l, Done))).
  Proof.
    intros He. destruct (descendant_axis fuel t IRoot I He) as (l & HL & E). exists l. split.
    - eapply listing_ext; [|exact HL]. cbn. tauto.
    - cbn [step kids] in E |- *. rewrite E. destruct t as [|n| |]; cbn.
      + left. split; [left; auto|auto].
      + right. split; [intros [N|N]; discriminate|auto].
      + left. split; [right; auto|auto].
      + right. split; [intros [N|N]; discriminate|auto].
  Qed.

  (** Siblings *)
  Lemma removelast_snoc {A} (p : list A) i : removelast (p ++ [i]) = p.
  Proof. apply removelast_last. Qed.
  Lemma parent_snoc p i : parent (INode (p ++ [i])) = Some (Some p).
  Proof. destruct p as [|j p]; [reflexivity|]. cbn [app parent]. change (j :: p ++ [i]) with ((j :: p) ++ [i]). rewrite removelast_snoc. reflexivity. Qed.
  Lemma find_index_spec {A} (p : A -> bool) l i : find_index p l = Some i ->
    exists x, nth_error l i = Some x /\ p x = true /\ forall j y, j < i -> nth_error l j = Some y -> p y = false.
  Proof.
    revert i. induction l as [|x l IH]; intros i H; cbn in H; [discriminate|]. destruct (p x) eqn:E.
    - inversion H; subst. exists x. split; [reflexivity|]. split; [auto|]. intros; lia.
    - destruct (find_index p l) as [k|] eqn:Ek; [|discriminate]. inversion H; subst. destruct (IH k eq_refl) as (y & H1 & H2 & H3).
      exists y. split; [auto|]. split; [auto|]. intros [|j] z Hj Hz; cbn in Hz; [congruence|]. apply (H3 j); auto. lia.
  Qed.
  Lemma find_index_first {A} (p : A -> bool) l i x : nth_error l i = Some x -> p x = true -> (forall j y, j < i -> nth_error l j = Some y -> p y = false) ->
    find_index p l = Some i.
  Proof.
    revert i. induction l as [|y l IH]; intros [|i] H1 H2 H3; cbn in *; try discriminate.
    - inversion H1; subst. rewrite H2. reflexivity.
    - rewrite (H3 0 y) by (lia || reflexivity). rewrite (IH i); auto. intros j z Hj Hz. apply (H3 (S j) z); [lia|auto].
  Qed.
  Lemma nth_kid p n ats ks j : subtree D p = Some (XE n ats ks) -> nth_error (kid_addrs w p) j = if j <? length ks then Some (p ++ [j]) else None.
  Proof.
    intros H. unfold kid_addrs, node_at. rewrite H, nth_error_map. destruct (Nat.ltb_spec j (length ks)) as [Hj|Hj].
    - rewrite (nth_error_nth' _ 0) by (rewrite seq_length; auto). rewrite seq_nth by auto. reflexivity.
    - rewrite (proj2 (nth_error_None _ _)); [reflexivity|rewrite seq_length; auto].
  Qed.
  Lemma parent_elem p i u : subtree D (p ++ [i]) = Some u -> exists n ats ks, subtree D p = Some (XE n ats ks) /\ nth_error ks i = Some u.
  Proof.
    rewrite subtree_app. destruct (subtree D p) as [[n ats ks|s]|]; cbn; try discriminate. intros H. exists n, ats, ks. split; [auto|].
    destruct (nth_error ks i); [auto|discriminate].
  Qed.
  Lemma snoc_inj {A} (p : list A) i j : p ++ [i] = p ++ [j] -> i = j.
  Proof. intros H. apply app_inv_head in H. congruence. Qed.
  Lemma sibling_index_elem p i u : subtree D (p ++ [i]) = Some u -> is_element u -> sibling_index w p (INode (p ++ [i])) = Some i.
  Proof.
    intros H (m & at' & ks' & ->). destruct (parent_elem p i _ H) as (n & ats & ks & Hp & Hi).
    assert (Hlt : i < length ks) by (apply nth_error_Some; congruence).
    apply find_index_first with (x := p ++ [i]).
    - rewrite (nth_kid p n ats ks i Hp). apply Nat.ltb_lt in Hlt. rewrite Hlt. reflexivity.
    - cbn [same_node]. destruct (list_eq_dec Nat.eq_dec (p ++ [i]) (p ++ [i])); [reflexivity|congruence].
    - intros j y Hj Hy. rewrite (nth_kid p n ats ks j Hp) in Hy. destruct (j <? length ks); [|discriminate]. inversion Hy; subst.
      cbn [same_node]. destruct (list_eq_dec Nat.eq_dec (p ++ [i]) (p ++ [j])) as [E|_]; [apply snoc_inj in E; lia|].
      unfold text_at at 1, node_at. rewrite H. reflexivity.
  Qed.
  Lemma firstn_in p i b : In b (firstn i (kid_addrs w p)) <-> earlier_sibling p i b /\ subtree D b <> None.
  Proof.
    split.
    - intros H. assert (Hi : In b (kid_addrs w p)) by (rewrite <- (firstn_skipn i); apply in_app_iff; auto). apply kid_addrs_in in Hi as [(j & ->) Hb].
      split; [|auto]. exists j. split; [auto|]. destruct (Nat.lt_ge_cases j i) as [|Hge]; [auto|]. exfalso.
      assert (K : In (p ++ [j]) (skipn i (kid_addrs w p))) by (apply skip_in; eauto).
      assert (N : NoDup (kid_addrs w p)).
      { clear. pose proof (kid_addrs_sorted p) as S. induction S as [|x l _ IH F]; constructor; auto. rewrite Forall_forall in F.
        intros Hx. apply (doc_before_irrefl x), F, Hx. }
      rewrite <- (firstn_skipn i) in N. clear - N H K. induction (firstn i (kid_addrs w p)) as [|x l IH]; [destruct H|]. cbn [app] in N. inversion N; subst.
      destruct H as [->|H]; [|auto]. apply H2, in_app_iff; auto.
    - intros ((j & -> & Hj) & H). assert (K : In (p ++ [j]) (kid_addrs w p)) by (apply kid_addrs_in; eauto).
      rewrite <- (firstn_skipn i) in K. apply in_app_iff in K as [K|K]; [auto|]. apply skip_in in K as ((j' & E & Hj') & _). apply snoc_inj in E. lia.
  Qed.
  Lemma firstn_sorted {A} (R : A -> A -> Prop) i l : StronglySorted R l -> StronglySorted R (firstn i l).
  Proof.
    revert l. induction i as [|i IH]; intros l H; cbn; [constructor|]. destruct l as [|x l]; [constructor|]. apply StronglySorted_inv in H as [H1 H2].
    constructor; [auto|]. rewrite Forall_forall in *. intros y Hy. apply H2. rewrite <- (firstn_skipn i). apply in_app_iff; auto.
  Qed.
  Lemma following_sibling_axis fuel t p i u : no_empty_text w -> subtree D (p ++ [i]) = Some u -> is_element u ->
    selects w (fun b v => later_sibling p i b /\ passes t v) (step w fuel AxFollowingSibling t (INode (p ++ [i]))).
  Proof.
    intros He H Hu. cbn [step]. rewrite parent_snoc, (sibling_index_elem p i u H Hu). apply test_all_selects; [apply no_empty_all; auto|apply skipn_sorted, kid_addrs_sorted|].
    intros b. rewrite skip_in. unfold later_sibling. split; intros [(j & -> & Hj) Hb]; split; auto; exists j; split; auto.
  Qed.
  Lemma preceding_sibling_axis fuel t p i u : no_empty_text w -> subtree D (p ++ [i]) = Some u -> is_element u ->
    selects_back w (fun b v => earlier_sibling p i b /\ passes t v) (step w fuel AxPrecedingSibling t (INode (p ++ [i]))).
  Proof.
    intros He H Hu. cbn [step]. rewrite parent_snoc, (sibling_index_elem p i u H Hu). apply test_all_back; [apply no_empty_all; auto|apply firstn_sorted, kid_addrs_sorted|].
    intros b. apply firstn_in.
  Qed.
  Lemma following_axis fuel t p i u : no_empty_text w -> subtree D (p ++ [i]) = Some u -> is_element u ->
    selects w (fun b v => in_later_sibling p i b /\ passes t v) (step w fuel AxFollowing t (INode (p ++ [i]))).
  Proof.
    intros He H Hu. cbn [step]. rewrite parent_snoc, (sibling_index_elem p i u H Hu).
    destruct (parent_elem p i _ H) as (n & ats & ks & Hp & _). assert (Hp' : subtree D p <> None) by congruence.
    apply test_all_selects; [apply no_empty_all; auto|apply process_sorted; auto|].
    intros b. rewrite process_in by auto. unfold in_later_sibling. split; intros [(j & r & -> & Hj) Hb]; split; auto; exists j, r; split; auto.
  Qed.

  (** Ancestors *)
  Lemma above_snoc b p i : above b (p ++ [i]) <-> b = p \/ above b p.
  Proof.
    unfold above. split.
    - intros (j & r & E). destruct r as [|x r] using rev_ind.
      + left. apply app_inj_tail in E as [-> _]. reflexivity.
      + right. clear IHr. exists j, r. change (b ++ j :: r ++ [x]) with (b ++ (j :: r) ++ [x]) in E. rewrite app_assoc in E.
        apply app_inj_tail in E as [-> _]. reflexivity.
    - intros [->|(j & r & ->)]; [exists i, []; reflexivity|]. exists j, (r ++ [i]). rewrite <- app_assoc. reflexivity.
  Qed.
  Lemma ancestors_spec a : forall n, length a <= n -> (forall b, In b (ancestors_of a n) <-> above b a) /\ StronglySorted doc_before (rev (ancestors_of a n)).
  Proof.
    induction a as [|i a IH] using rev_ind; intros n Hn.
    - destruct n; cbn; (split; [|constructor]); intros b; split; [intros []|intros (j & r & E); destruct b; discriminate|intros []|intros (j & r & E); destruct b; discriminate].
    - rewrite app_length in Hn. cbn in Hn. destruct n as [|n]; [lia|].
      assert (E : ancestors_of (a ++ [i]) (S n) = a :: ancestors_of a n).
      { cbn [ancestors_of]. rewrite removelast_snoc. destruct a; reflexivity. }
      rewrite E. destruct (IH n) as [H1 H2]; [lia|]. split.
      + intros b. cbn [In]. rewrite H1, above_snoc. split; intros [H|H]; auto.
      + cbn [rev]. apply sorted_app; [auto|repeat constructor|]. intros x y Hx [<-|[]]. apply in_rev in Hx. apply H1 in Hx as (j & r & ->). apply doc_before_below.
  Qed.
  Lemma above_subtree t : forall b a, above b a -> subtree t a <> None -> exists n ats ks, subtree t b = Some (XE n ats ks).
  Proof.
    intros b a (i & r & ->) H. rewrite subtree_app in H. destruct (subtree t b) as [[n ats ks|s]|]; cbn in H; try congruence. eauto.
  Qed.
  Lemma ancestors_tested t c a : subtree D a <> None ->
    exists l, listing D (fun b v => above b a /\ passes t v) l /\
      test_all w t c (match parent (INode a) with Some (Some p) => p :: ancestors_of p (length p) | _ => [] end) = (rev (nodes l), Done).
  Proof.
    intros H. set (L := match parent (INode a) with Some (Some p) => p :: ancestors_of p (length p) | _ => [] end).
    assert (HL : (forall b, In b L <-> above b a) /\ StronglySorted doc_before (rev L)).
    { destruct a as [|i p] using rev_ind; [|clear IHp].
      - cbn in L. subst L. split; [|constructor]. intros b. split; [intros []|intros (j & r & E); destruct b; discriminate].
      - unfold L. rewrite parent_snoc. destruct (ancestors_spec p (length p) (le_n _)) as [H1 H2]. split.
        + intros b. cbn [In]. rewrite H1, above_snoc. split; intros [K|K]; auto.
        + cbn [rev]. apply sorted_app; [auto|repeat constructor|]. intros x y Hx [<-|[]]. apply in_rev in Hx. apply H1 in Hx as (j & r & ->). apply doc_before_below. }
    destruct HL as [H1 H2].
    assert (Hk : forall b, In b (rev L) <-> above b a /\ subtree D b <> None).
    { intros b. rewrite <- in_rev, H1. split; [|tauto]. intros K. split; [auto|]. destruct (above_subtree D b a K H) as (n & ats & ks & E). congruence. }
    destruct (test_all_back t c (rev L) (fun b => above b a)) as (l & HL & E); [|auto|auto|].
    - intros b Hb. apply Hk in Hb as [Hb _]. destruct (above_subtree D b a Hb H) as (n & ats & ks & E). congruence.
    - rewrite rev_involutive in E. eauto.
  Qed.
  Lemma ancestor_axis fuel t a u : subtree D a = Some u -> is_element u ->
    exists l, listing D (fun b v => above b a /\ passes t v) l /\ step w fuel AxAncestor t (INode a) = (rev (nodes l) ++ [IRoot], Done).
  Proof.
    intros Ha Hu. destruct (ancestors_tested t (INode a) a) as (l & HL & E); [congruence|]. exists l. split; [auto|]. cbn [step].
    assert (Hr : with_root w (INode a) yield1 = yield1 IRoot).
    { unfold with_root, root_of. rewrite (proj2 (is_elem_iff a)); [reflexivity|eauto]. }
    rewrite Hr. destruct (parent (INode a)) as [[p|]|] eqn:Ep; [rewrite E; reflexivity|rewrite E; reflexivity|]. destruct a; discriminate.
  Qed.
  Lemma parent_axis fuel t p i u : subtree D (p ++ [i]) = Some u ->
    selects w (fun b v => b = p /\ passes t v) (step w fuel AxParent t (INode (p ++ [i]))).
  Proof.
    intros H. cbn [step]. rewrite parent_snoc. destruct (parent_elem p i u H) as (n & ats & ks & Hp & _). apply test_all_selects.
    - intros a [<-|[]]. congruence.
    - repeat constructor.
    - intros a. cbn. split; [intros [<-|[]]; split; [auto|congruence]|]. intros [-> _]. auto.
  Qed.

End Facts.
