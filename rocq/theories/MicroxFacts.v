(** Proofs about exec/microx. *)
From Verif Require Import PyStr XTree Tree Path Nodes Pattern PatternSpec PatternFacts TreeUtil TreeUtilSpec TreeUtilFacts XPath XPathSpec XPathFacts XPathFun Microx MicroxSpec.
From Coq Require Import Lia.

Lemma each_in_turn {A} (k : A -> list str * fin) l : in_turn k l (each k l Done).
Proof.
  induction l as [|x l IH]; cbn [each]; [constructor|]. destruct (k x) as [ls f] eqn:E. destruct f.
  - destruct (each k l Done) as [ls' f']. apply it_ok; assumption.
  - apply it_stop; [exact E|discriminate].
  - apply it_stop; [exact E|discriminate].
Qed.
Lemma in_turn_map {A B} (g : B -> A) (k : A -> list str * fin) l o : in_turn k (map g l) o <-> in_turn (fun x => k (g x)) l o.
Proof.
  split; revert o.
  - induction l as [|x l IH]; intros o H; cbn [map] in H; inversion H; subst; [constructor|apply it_ok; auto|apply it_stop; auto].
  - induction l as [|x l IH]; intros o H; cbn [map]; inversion H; subst; [constructor|apply it_ok; auto|apply it_stop; auto].
Qed.
Lemma in_turn_fun {A} (k : A -> list str * fin) l : forall o o', in_turn k l o -> in_turn k l o' -> o = o'.
Proof.
  induction l as [|x l IH]; intros o o' H H'; inversion H; inversion H'; subst; try congruence.
  assert (E : (ls', f) = (ls'0, f0)) by (apply IH; assumption). congruence.
Qed.
Lemma each_ok {A} (g : A -> list str) l : each (fun x => (g x, Done)) l Done = (flat_map g l, Done).
Proof. induction l as [|x l IH]; cbn [each flat_map]; [reflexivity|]. rewrite IH. reflexivity. Qed.

(** All the elements of the document *)
Lemma elements_listing n a ks : listing (XE n a ks) (fun _ u => is_element u) (([], XE n a ks) :: descendants (XE n a ks)).
Proof.
  destruct (descendants_listing (XE n a ks)) as (Hs & Hin). split.
  - cbn [map fst]. constructor; [exact Hs|]. apply Forall_forall. intros b Hb. apply in_map_iff in Hb as ((c & u) & E & Hu). cbn in E. subst c.
    apply Hin in Hu as (_ & Hb & _). destruct b as [|i b]; [congruence|constructor].
  - intros b u. split.
    + intros [H|H]; [inversion H; subst; split; [reflexivity|exists n, a, ks; reflexivity]|]. apply Hin in H as (H1 & _ & H2). auto.
    + intros (H1 & H2). destruct b as [|i b]; [left; cbn in H1; congruence|]. right. apply Hin. split; [exact H1|]. split; [discriminate|exact H2].
Qed.
Lemma all_elements_eq w : all_elements w = map fst (([], doc w) :: descendants (doc w)).
Proof. reflexivity. Qed.

Lemma match_elements w fuel e fe : is_element (doc w) -> exists l, listing (doc w) (fun _ u => is_element u) l /\
  in_turn (fun x => print_results w fuel e fe (INode (fst x))) l (cmd_match w fuel e fe).
Proof.
  intros (n & a & ks & E). exists (([], doc w) :: descendants (doc w)). split; [rewrite E; apply elements_listing|].
  unfold cmd_match. rewrite all_elements_eq. apply (in_turn_map fst (fun a => print_results w fuel e fe (INode a))). apply each_in_turn.
Qed.
Lemma match_all_ok w fuel e fe l g : is_element (doc w) -> listing (doc w) (fun _ u => is_element u) l ->
  (forall a u, In (a, u) l -> print_results w fuel e fe (INode a) = (g a, Done)) ->
  cmd_match w fuel e fe = (flat_map (fun x => g (fst x)) l, Done).
Proof.
  intros He Hl Hg. destruct (match_elements w fuel e fe He) as (l' & Hl' & Ht).
  assert (E : l = l') by (apply (listing_unique (doc w) (fun _ u => is_element u)); assumption). subst l'.
  apply (in_turn_fun _ _ _ _ Ht). clear - Hg. induction l as [|(a & u) l IH]; cbn [flat_map]; [constructor|].
  apply it_ok; [apply Hg with u; left; reflexivity|]. apply IH. intros b v Hb. apply (Hg b v). right; exact Hb.
Qed.

(** Paths *)
Lemma join_slashed l : slashed l (join_slash l).
Proof. induction l as [|x [|y l] IH]; cbn [join_slash]; [constructor|constructor|]. apply sl_more. exact IH. Qed.
Lemma slashed_fun l : forall s t, slashed l s -> slashed l t -> s = t.
Proof. induction l as [|x l IH]; intros s t H H'; inversion H; inversion H'; subst; try congruence; try discriminate. f_equal. f_equal. apply IH; congruence. Qed.
Lemma one_step_line w show a : is_elem_at w a = true -> one_step w show a = step_line show (subtree (doc w) a).
Proof.
  unfold is_elem_at, one_step, node_at. destruct (subtree (doc w) a) as [[n ats ks|s]|] eqn:E; try discriminate. intros _. cbn [step_line elem_name].
  f_equal. rewrite flat_map_concat_map. f_equal.
Qed.
Lemma parent_steps_eq w show a : rev (parent_steps w show a (length a)) = map (fun k => one_step w show (firstn k a)) (seq 0 (length a)).
Proof.
  induction a as [|i a IH] using rev_ind; [reflexivity|]. rewrite app_length. cbn [length]. rewrite Nat.add_1_r. cbn [parent_steps].
  destruct (a ++ [i]) as [|x r] eqn:E; [destruct a; discriminate|]. rewrite <- E. rewrite removelast_last. cbn [rev]. rewrite IH.
  rewrite seq_S, map_app. cbn [map Nat.add]. rewrite firstn_app, Nat.sub_diag, firstn_all. cbn [firstn]. rewrite app_nil_r. f_equal.
  apply map_ext_in. intros k Hk. apply in_seq in Hk. f_equal. rewrite firstn_app. replace (k - length a) with 0 by lia. cbn [firstn]. rewrite app_nil_r. reflexivity.
Qed.
Lemma subtree_prefix t a k u : subtree t a = Some u -> k < length a -> exists n ats ks, subtree t (firstn k a) = Some (XE n ats ks).
Proof.
  revert t k. induction a as [|i a IH]; intros t k H Hk; [inversion Hk|]. cbn [subtree] in H. destruct t as [n ats ks|s]; [|discriminate].
  destruct k as [|k]; [do 3 eexists; reflexivity|]. cbn [firstn subtree]. destruct (nth_error ks i) as [v|]; [|discriminate]. apply IH; [exact H|]. cbn [length] in Hk. lia.
Qed.
Lemma xpath_to_steps w show a u : subtree (doc w) a = Some u ->
  slashed (map (fun k => step_line show (subtree (doc w) (firstn k a))) (seq 0 (length a))) (xpath_to w show a).
Proof.
  intros H. unfold xpath_to. rewrite parent_steps_eq. erewrite map_ext_in; [apply join_slashed|]. intros k Hk. apply in_seq in Hk.
  symmetry. apply one_step_line. destruct (subtree_prefix _ _ k _ H) as (n & ats & ks & E); [lia|]. unfold is_elem_at, node_at. rewrite E. reflexivity.
Qed.
Lemma prefix_names t a u : subtree t a = Some u -> map (fun k => step_line [] (subtree t (firstn k a))) (seq 0 (length a)) =
  match a with [] => [] | _ => path_names t (removelast a) end.
Proof.
  revert t. induction a as [|i a IH]; intros t H; [reflexivity|]. cbn [subtree] in H. destruct t as [n ats ks|s]; [|discriminate].
  destruct (nth_error ks i) as [v|] eqn:E; [|discriminate]. cbn [length seq map firstn subtree step_line flat_map]. rewrite app_nil_r.
  rewrite <- seq_shift, map_map. assert (Hm : map (fun x => step_line [] (subtree (XE n ats ks) (firstn (S x) (i :: a)))) (seq 0 (length a)) =
    map (fun k => step_line [] (subtree v (firstn k a))) (seq 0 (length a))).
  { apply map_ext. intros k. cbn [firstn subtree]. rewrite E. reflexivity. }
  rewrite Hm, (IH v H). destruct a as [|j a]; [reflexivity|]. change (removelast (i :: j :: a)) with (i :: removelast (j :: a)). cbn [path_names]. rewrite E. reflexivity.
Qed.
Lemma xpath_to_names w a u : subtree (doc w) a = Some u ->
  slashed (match a with [] => [] | _ => path_names (doc w) (removelast a) end) (xpath_to w [] a).
Proof. intros H. rewrite <- (prefix_names _ _ _ H). eapply xpath_to_steps. exact H. Qed.

(** find-text *)
Lemma has_text_spec search t : has_text search t = true <-> exists s, t = Some (XT s) /\ contains s search.
Proof.
  unfold has_text. destruct t as [[n ats ks|s]|]; try (split; [discriminate|intros (s & H & _); discriminate]).
  destruct (find_sub search s) as [k|] eqn:E.
  - split; [intros _|reflexivity]. destruct (find_sub_some _ _ _ E) as [H _]. exists s. split; [reflexivity|]. eexists. eexists. exact H.
  - split; [discriminate|]. intros (s' & H & p & q & Hc). inversion H; subst. exfalso. eapply find_sub_none; eauto.
Qed.
Lemma find_text_lines w search show : is_element (doc w) -> exists l, listing (doc w) (fun _ u => is_element u) l /\
  forall b : str -> bool, (forall s, b s = true <-> contains s search) ->
  cmd_find_text w search show =
    (flat_map (fun x => repeat (xpath_to w show (fst x)) (length (filter (fun k => match k with XT s => b s | XE _ _ _ => false end) (kids_of (snd x))))) l, Done).
Proof.
  intros (n & a & ks & E). exists (([], doc w) :: descendants (doc w)). split; [rewrite E; apply elements_listing|]. intros b Hb.
  unfold cmd_find_text. rewrite each_ok. f_equal. rewrite all_elements_eq.
  assert (Hin : forall c u, In (c, u) (([], doc w) :: descendants (doc w)) -> subtree (doc w) c = Some u).
  { intros c u H. pose proof (elements_listing n a ks) as (_ & Hl). rewrite E in H. rewrite E. apply Hl in H as (H & _). exact H. }
  revert Hin. generalize (([], doc w) :: descendants (doc w)). intros l. induction l as [|(c & u) l IH]; intros Hin; [reflexivity|].
  cbn [map flat_map fst snd]. rewrite IH by (intros d v Hd; apply Hin; right; exact Hd). f_equal.
  specialize (Hin c u (or_introl eq_refl)). unfold kid_addrs, node_at. rewrite Hin. destruct u as [m ats cs|s]; [|reflexivity]. cbn [kids_of].
  assert (Hlen : forall i ds, (forall j d, nth_error ds j = Some d -> nth_error cs (i + j) = Some d) ->
    map (fun _ : list nat => xpath_to w show c) (filter (fun b0 => has_text search (subtree (doc w) b0)) (map (fun j => c ++ [j]) (seq i (length ds)))) =
    repeat (xpath_to w show c) (length (filter (fun k => match k with XT s => b s | XE _ _ _ => false end) ds))).
  { intros i ds. revert i. induction ds as [|d ds IHd]; intros i Hd; [reflexivity|]. cbn [length seq map filter].
    assert (Hsub : subtree (doc w) (c ++ [i]) = Some d).
    { pose proof (Hd 0 d eq_refl) as Hn. rewrite Nat.add_0_r in Hn. clear - Hin Hn. revert Hin. generalize (doc w). induction c as [|x c IHc]; intros t Hin.
      - cbn [subtree] in Hin. inversion Hin; subst. cbn [app subtree]. rewrite Hn. reflexivity.
      - cbn [app subtree] in *. destruct t as [n1 a1 k1|]; [|discriminate]. destruct (nth_error k1 x); [|discriminate]. apply IHc. exact Hin. }
    rewrite Hsub. assert (Ht : has_text search (Some d) = match d with XT s => b s | XE _ _ _ => false end).
    { destruct d as [n1 a1 k1|s]; [reflexivity|]. apply Bool.eq_true_iff_eq. rewrite has_text_spec, Hb. split; [intros (s' & H & Hc); inversion H; subst; exact Hc|].
      intros Hc. exists s. auto. }
    rewrite Ht. assert (Hd' : forall j d', nth_error ds j = Some d' -> nth_error cs (S i + j) = Some d').
    { intros j d' Hj. rewrite Nat.add_succ_comm. apply Hd. exact Hj. }
    specialize (IHd (S i) Hd'). destruct (match d with XT s => b s | XE _ _ _ => false end); cbn [map length repeat]; rewrite IHd; reflexivity. }
  apply (Hlen 0 cs). auto.
Qed.

(** Results *)
Lemma print_foreach_eq w fuel foreach i : print_foreach w fuel foreach i =
  match foreach with None => print_item w i | Some e2 => print_results w fuel e2 None i end.
Proof. destruct foreach; reflexivity. Qed.
Lemma in_turn_ext {A} (k k' : A -> list str * fin) l o : (forall x, k x = k' x) -> in_turn k l o -> in_turn k' l o.
Proof. intros E H. induction H; [constructor|apply it_ok; [rewrite <- E; assumption|assumption]|apply it_stop; [rewrite <- E; assumption|assumption]]. Qed.
Lemma results_in_turn w fuel e foreach c ls : eval w fuel e c = (ls, Done) ->
  in_turn (fun i => match foreach with None => print_item w i | Some e2 => print_results w fuel e2 None i end) ls (print_results w fuel e foreach c).
Proof. intros H. unfold print_results at 2. rewrite H. cbn [fst snd]. eapply in_turn_ext; [apply print_foreach_eq|]. apply each_in_turn. Qed.
Lemma each_last {A} (k : A -> list str * fin) l f : forall o, in_turn k l (o, Done) -> each k l f = (o, f).
Proof.
  induction l as [|x l IH]; intros o H; inversion H as [|y m ls ls' g Hk Hr|y m ls g Hk Hn]; subst; cbn [each]; [reflexivity| |].
  - rewrite Hk. rewrite (IH _ Hr). reflexivity.
  - congruence.
Qed.
Lemma results_fail w fuel e foreach c ls f o : eval w fuel e c = (ls, f) ->
  in_turn (fun i => match foreach with None => print_item w i | Some e2 => print_results w fuel e2 None i end) ls (o, Done) ->
  print_results w fuel e foreach c = (o, f).
Proof. intros H Ht. unfold print_results. rewrite H. cbn [fst snd]. apply each_last. eapply in_turn_ext; [|exact Ht]. intros x. symmetry. apply print_foreach_eq. Qed.
