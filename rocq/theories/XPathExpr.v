(** Facts about whole MicroXPath expressions. *)
From Verif Require Import PyStr XTree ParserInv Tree TreeFacts Heap Path Nodes Pattern PatternSpec PatternFacts TreeUtil TreeUtilSpec TreeUtilFacts XPath XPathSpec XPathFacts XPathFuel XPathMore.
From Coq Require Import Permutation.

Lemma bindl_done l k outs : Forall2 (fun i o => k i = (o, Done)) l outs -> bindl l Done k = (concat outs, Done).
Proof. induction 1 as [|i o l outs H _ IH]; [reflexivity|]. rewrite bindl_seq2, H, IH. reflexivity. Qed.
Lemma seq_all_done l outs : Forall2 (fun r o => r = (o, Done)) l outs -> seq_all l = (concat outs, Done).
Proof. induction 1 as [|r o l outs -> _ IH]; [reflexivity|]. cbn [seq_all seq2]. rewrite IH. reflexivity. Qed.
Lemma Forall2_map_l {A B C} (R : B -> C -> Prop) (f : A -> B) l m : Forall2 R (map f l) m <-> Forall2 (fun x y => R (f x) y) l m.
Proof.
  split.
  - revert m. induction l as [|x l IH]; intros m H; cbn in H; inversion H; subst; constructor; auto.
  - induction 1; cbn; constructor; auto.
Qed.
Lemma NoDup_flat_map {A B} (f : A -> list B) l : NoDup l -> (forall x, In x l -> NoDup (f x)) ->
  (forall x y b, In x l -> In y l -> In b (f x) -> In b (f y) -> x = y) -> NoDup (flat_map f l).
Proof.
  induction l as [|x l IH]; intros Hl Hf Hd; cbn; [constructor|]. inversion Hl; subst.
  assert (N1 : NoDup (f x)) by (apply Hf; left; auto). assert (N2 : NoDup (flat_map f l)) by (apply IH; auto; [intros; apply Hf; right; auto|intros; eapply Hd; try right; eauto]).
  assert (Dj : forall b, In b (f x) -> ~ In b (flat_map f l)).
  { intros b Hb Hc. apply in_flat_map in Hc as (y & Hy & Hb'). assert (x = y) by (eapply Hd; eauto; [left; auto|right; auto]). subst. auto. }
  clear - N1 N2 Dj. induction N1 as [|b m Hb _ IHm]; cbn; [auto|]. constructor.
  - rewrite in_app_iff. intros [H|H]; [auto|]. apply (Dj b); [left; auto|auto].
  - apply IHm. intros c Hc. apply Dj. right; auto.
Qed.
Lemma sorted_NoDup l : StronglySorted doc_before l -> NoDup l.
Proof. induction 1 as [|x l _ IH F]; constructor; auto. rewrite Forall_forall in F. intros Hx. apply (doc_before_irrefl x), F, Hx. Qed.

Section Expr.
  Variable w : env.
  Notation D := (doc w).

  (** ** Leading // *)
  Lemma root_of_some c r : root_of w c = Some r <-> r = IRoot /\ (c = IRoot \/ element_item w c).
  Proof.
    destruct c as [|a|a k v|s|z|f|b]; cbn; try (split; [discriminate|]; intros (_ & [E|(a' & n & ats & ks & E & _)]); discriminate).
    - split; [intros E; inversion E; auto|]. intros [-> _]. reflexivity.
    - destruct (is_elem_at w a) eqn:E.
      + apply is_elem_iff in E as (u & Hu & (n & ats & ks & ->)). split.
        * intros H. inversion H; subst. split; [auto|]. right. exists a, n, ats, ks. auto.
        * intros [-> _]. reflexivity.
      + split; [discriminate|]. intros (_ & [H|(a' & n & ats & ks & H & Ha)]); [discriminate|]. inversion H; subst. exfalso.
        assert (is_elem_at w a' = true) by (apply is_elem_iff; eexists; split; [eauto|repeat eexists]). congruence.
  Qed.
  Lemma all_items L : listing D (fun _ _ => True) L -> map INode (process w [[]]) = nodes L.
  Proof.
    intros H. rewrite process_root. rewrite (listing_unique D _ _ _ H (all_nodes_listing D)). unfold nodes. rewrite map_map. reflexivity.
  Qed.
  Lemma deep_any n e c L outs : no_empty_text w -> c = IRoot \/ element_item w c -> just_node e = false -> listing D (fun _ _ => True) L ->
    Forall2 (fun p o => eval w n e p = (o, Done)) (IRoot :: nodes L) outs -> eval w n (EAbs true (Some e)) c = (concat outs, Done).
  Proof.
    intros He Hc Hj HL HF. rewrite eval_abs. unfold absolute, with_root. rewrite (proj2 (root_of_some c IRoot)) by auto. rewrite Hj.
    inversion HF as [|i o l outs' H1 H2]; subst. cbn [concat seq2 nothing]. rewrite (all_items L HL). rewrite H1. cbn [seq2].
    rewrite (bindl_done (nodes L) _ outs'); [reflexivity|]. clear - H2 He HL. destruct HL as [_ HL].
    assert (K : forall i, In i (nodes L) -> copy w c i = i).
    { intros i Hi. unfold nodes in Hi. apply in_map_iff in Hi as ([a u] & <- & Hi). apply HL in Hi as [Hi _]. cbn [fst]. apply copy_node.
      intros E. apply (He a [] E). reflexivity. }
    induction H2 as [|i o l outs H _ IH]; constructor; [rewrite K; [auto|left; auto]|]. apply IH. intros; apply K; right; auto.
  Qed.
  Definition kid_items (n : nat) (t : ntest) (p : item) : list item := fst (step w n AxChild t p).
  Lemma child_done n t p : no_empty_text w -> tree_item w p -> step w n AxChild t p = (kid_items n t p, Done).
  Proof. intros He Hp. destruct (child_axis w n t p Hp) as (l & _ & E); [auto|]. unfold kid_items. rewrite E. reflexivity. Qed.
  Lemma deep_child n t c : no_empty_text w -> c = IRoot \/ element_item w c ->
    eval w n (EAbs true (Some (EStep AxChild t))) c =
    ((match t with TNode => [IRoot] | _ => [] end) ++ flat_map (kid_items n t) (IRoot :: nodes (all_nodes D)), Done).
  Proof.
    intros He Hc. rewrite eval_abs. unfold absolute, with_root. rewrite (proj2 (root_of_some c IRoot)) by auto.
    rewrite (all_items (all_nodes D) (all_nodes_listing D)). rewrite eval_step, child_done by (auto; exact I). cbn [seq2 flat_map].
    rewrite (bindl_done _ _ (map (kid_items n t) (nodes (all_nodes D)))).
    - rewrite flat_map_concat_map. destruct t; reflexivity.
    - assert (K : forall i, In i (nodes (all_nodes D)) -> copy w c i = i /\ tree_item w i).
      { intros i Hi. unfold nodes in Hi. apply in_map_iff in Hi as ([a u] & <- & Hi). apply all_nodes_in in Hi. cbn [fst]. split; [|exists u; auto].
        apply copy_node. intros E. apply (He a [] E). reflexivity. }
      induction (nodes (all_nodes D)) as [|i l IH]; cbn [map]; constructor; [|apply IH; intros; apply K; right; auto].
      destruct (K i (or_introl eq_refl)) as [-> Ht]. rewrite eval_step. apply child_done; auto.
  Qed.
  Lemma kid_items_spec n t p : no_empty_text w -> tree_item w p -> exists l, listing D (fun b u => child_of p b /\ child_passes t u) l /\ kid_items n t p = nodes l.
  Proof. intros He Hp. destruct (child_axis w n t p Hp) as (l & Hl & E); [auto|]. exists l. split; [auto|]. unfold kid_items. rewrite E. reflexivity. Qed.
  Lemma child_of_fun p q b : child_of p b -> child_of q b -> p = q.
  Proof.
    destruct p as [|a| | | | |]; cbn; try contradiction; destruct q as [|a'| | | | |]; cbn; try contradiction; try reflexivity.
    - intros -> (i & E). destruct a'; discriminate.
    - intros (i & ->) E. destruct a; discriminate.
    - intros (i & ->) (j & E). apply app_inj_tail in E as [-> _]. reflexivity.
  Qed.
  Lemma in_all i : In i (IRoot :: nodes (all_nodes D)) <-> tree_item w i.
  Proof.
    cbn [In]. unfold nodes. rewrite in_map_iff. split.
    - intros [<-|([a u] & <- & H)]; [exact I|]. apply all_nodes_in in H. exists u. auto.
    - destruct i as [|a| | | | |]; cbn; try contradiction; [auto|]. intros (u & H). right. exists (a, u). split; [auto|]. apply all_nodes_in; auto.
  Qed.
  Lemma nodes_NoDup l t P : listing t P l -> NoDup (nodes l).
  Proof.
    intros [S _]. apply sorted_NoDup in S. unfold nodes. rewrite <- map_map with (f := fst) (g := INode). apply FinFun.Injective_map_NoDup; [|auto].
    intros a b E. congruence.
  Qed.
  Lemma deep_once n t : no_empty_text w -> exists l, listing D (fun _ u => child_passes t u) l /\
    Permutation (flat_map (kid_items n t) (IRoot :: nodes (all_nodes D))) (nodes l).
  Proof.
    intros He.
    assert (Hdec : forall u, child_passes t u \/ ~ child_passes t u).
    { intros u. destruct t as [|m| |]; cbn; try (left; exact I).
      - destruct u; [left; repeat eexists|right; intros (? & ? & ? & ?); discriminate].
      - destruct u as [m' ats ks|s]; [|right; intros (? & ? & ?); discriminate]. destruct (str_eqb m' m) eqn:E.
        + apply str_eqb_eq in E as ->. left. eauto.
        + right. intros (a & k & E'). inversion E'; subst. rewrite (proj2 (str_eqb_eq m m)) in E by reflexivity. discriminate.
      - destruct u; [right; intros (? & ?); discriminate|left; eexists; eauto]. }
    set (cp := fun u => match t with TStar => match u with XE _ _ _ => true | _ => false end | _ => passb t u end).
    assert (Hcp : forall u, cp u = true <-> child_passes t u).
    { intros u. unfold cp. destruct t; try apply passb_iff. cbn. destruct u; split; try discriminate; try reflexivity; [intros _; repeat eexists|intros (? & ? & ? & ?); discriminate]. }
    exists (filter (fun x => cp (snd x)) (all_nodes D)). split.
    - eapply listing_ext; [|apply (listing_filter D _ _ _ (fun _ u => child_passes t u) (all_nodes_listing D))]; [cbn; tauto|]. intros a u _. apply Hcp.
    - apply NoDup_Permutation.
      + apply NoDup_flat_map.
        * constructor; [|eapply nodes_NoDup, all_nodes_listing]. unfold nodes. rewrite in_map_iff. intros (x & E & _). discriminate.
        * intros p Hp. apply in_all in Hp. destruct (kid_items_spec n t p He Hp) as (l & Hl & ->). eapply nodes_NoDup; eauto.
        * intros p q b Hp Hq Hbp Hbq. apply in_all in Hp, Hq. destruct (kid_items_spec n t p He Hp) as (l & [_ Hl] & E), (kid_items_spec n t q He Hq) as (l' & [_ Hl'] & E').
          rewrite E in Hbp. rewrite E' in Hbq. unfold nodes in Hbp, Hbq. apply in_map_iff in Hbp as ([a u] & <- & Ha), Hbq as ([a' u'] & Ea & Ha'). cbn in Ea. inversion Ea; subst.
          apply Hl in Ha as (_ & Ha & _). apply Hl' in Ha' as (_ & Ha' & _). eapply child_of_fun; eauto.
      + apply nodes_NoDup with (t := D) (P := fun a u => True /\ child_passes t u).
        apply (listing_filter D _ _ _ (fun _ u => child_passes t u) (all_nodes_listing D)). intros a u _. apply Hcp.
      + intros b. rewrite in_flat_map. split.
        * intros (p & Hp & Hb). apply in_all in Hp. destruct (kid_items_spec n t p He Hp) as (l & [_ Hl] & E). rewrite E in Hb. unfold nodes in Hb |- *.
          apply in_map_iff in Hb as ([a u] & <- & Ha). apply Hl in Ha as (H1 & _ & H2). apply in_map_iff. exists (a, u). split; [reflexivity|].
          apply filter_In. split; [apply all_nodes_in; auto|]. apply Hcp; auto.
        * unfold nodes at 1. rewrite in_map_iff. intros ([a u] & <- & Ha). apply filter_In in Ha as [H1 H2]. cbn [snd] in H2. apply Hcp in H2. apply all_nodes_in in H1.
          assert (exists p, tree_item w p /\ child_of p a) as (p & Hp & Hc).
          { destruct a as [|i q _] using rev_ind; [exists IRoot; split; [exact I|reflexivity]|]. exists (INode q). destruct (parent_elem w q i u H1) as (m & ats & ks & Hq & _).
            split; [exists (XE m ats ks); auto|]. exists i. reflexivity. }
          exists p. split; [apply in_all; auto|]. destruct (kid_items_spec n t p He Hp) as (l & [_ Hl] & ->). unfold nodes. apply in_map_iff. exists (a, u).
          split; [reflexivity|]. apply Hl. auto.
  Qed.

  (** ** Predicates *)
  Lemma number_position v z : number_of v = Some (inl z) -> forall z', position_of v z' <-> z' = z.
  Proof.
    intros H z'. destruct v as [|a|a k s|s|y|f|b]; cbn in H; try discriminate.
    - inversion H; subst. split; [intros K; inversion K; reflexivity|]. intros ->. constructor.
    - destruct f as [|neg|m e]; try discriminate. inversion H; subst. destruct (Z.leb_spec 0 e) as [He|He]; split.
      + intros K. inversion K; subst; [reflexivity|lia].
      + intros ->. apply po_whole; auto.
      + intros K. inversion K; subst; [lia|reflexivity].
      + intros ->. apply po_fraction; auto.
  Qed.
  Lemma holds_iff v pos : usable v ->
    (exists z, number_of v = Some (inl z) /\ ((z =? Z.of_nat pos)%Z = true <-> holds_as w v pos)) \/
    (number_of v = None /\ (to_boolean w v = true <-> holds_as w v pos)).
  Proof.
    intros [H1 H2]. unfold holds_as. destruct (number_of v) as [[z|e]|] eqn:E.
    - left. exists z. split; [auto|]. assert (Hn : is_number v) by (destruct v; cbn in E; try discriminate; exact I). rewrite Z.eqb_eq.
      pose proof (number_position v z E (Z.of_nat pos)) as K. split; [intros Hz; left; split; [auto|apply K; auto]|]. intros [[_ G]|[G _]]; [|contradiction]. symmetry. apply K, G.
    - exfalso. destruct v as [|a|a k s|s|y|f|b]; cbn in E; try discriminate. destruct f; try discriminate; [congruence|]. eapply H2; eauto.
    - right. split; [auto|]. rewrite to_boolean_truthy, truthy_iff. assert (Hn : ~ is_number v).
      { destruct v as [|a|a k s|s|y|f|b]; cbn in *; try tauto; try discriminate. destruct f; discriminate. }
      split; [intros; right; auto|]. intros [[G _]|[_ G]]; [contradiction|auto].
  Qed.
  Lemma first_value_fun r v v' : first_value r v -> first_value r v' -> v = v'.
  Proof. intros [(l & f & E)|[E ->]] [(l' & f' & E')|[E' ->]]; congruence. Qed.
  Lemma first_value_match r v : first_value r v -> (match r with (i :: _, _) => inl i | ([], Done) => inl (IBool false) | ([], f) => inr f end : item + fin) = inl v.
  Proof. intros [(l & f & ->)|[-> ->]]; reflexivity. Qed.
  Lemma verdict_spec pos c ps : (forall p, In p ps -> exists v, first_value (p c) v /\ usable v) ->
    (verdict_of w pos c ps = VKeep /\ forall p v, In p ps -> first_value (p c) v -> holds_as w v pos) \/
    (verdict_of w pos c ps = VDrop /\ exists p v, In p ps /\ first_value (p c) v /\ ~ holds_as w v pos).
  Proof.
    induction ps as [|p ps IH]; intros H.
    - left. split; [reflexivity|]. intros p v [].
    - cbn [verdict_of]. destruct (H p (or_introl eq_refl)) as (v & Hv & Hu). rewrite (first_value_match _ _ Hv).
      assert (K : (holds_as w v pos /\ (match number_of v with
          | Some (inr e) => VStop (Exn e)
          | Some (inl z) => if (z =? Z.of_nat pos)%Z then verdict_of w pos c ps else VDrop
          | None => if to_boolean w v then verdict_of w pos c ps else VDrop end) = verdict_of w pos c ps) \/
        (~ holds_as w v pos /\ (match number_of v with
          | Some (inr e) => VStop (Exn e)
          | Some (inl z) => if (z =? Z.of_nat pos)%Z then verdict_of w pos c ps else VDrop
          | None => if to_boolean w v then verdict_of w pos c ps else VDrop end) = VDrop)).
      { destruct (holds_iff v pos Hu) as [(z & -> & Hz)|[-> Hb]].
        - destruct (z =? Z.of_nat pos)%Z; [left; split; [apply Hz; auto|auto]|right; split; [intros G; apply Hz in G; discriminate|auto]].
        - destruct (to_boolean w v); [left; split; [apply Hb; auto|auto]|right; split; [intros G; apply Hb in G; discriminate|auto]]. }
      destruct K as [[Hh ->]|[Hh ->]].
      + destruct IH as [[-> G]|[-> (p' & v' & G1 & G2 & G3)]]; [intros; apply H; right; auto| |].
        * left. split; [reflexivity|]. intros p' v' [->|Hp] Hv'; [|eauto]. rewrite (first_value_fun _ _ _ Hv' Hv). auto.
        * right. split; [reflexivity|]. exists p', v'. split; [right; auto|auto].
      + right. split; [reflexivity|]. exists p, v. split; [left; auto|auto].
  Qed.
  Lemma predicated_kept c ps items : (forall i p, In i items -> In p ps -> exists v, first_value (p (copy w c i)) v /\ usable v) ->
    forall pos, exists out, kept (fun pos i => forall p v, In p ps -> first_value (p (copy w c i)) v -> holds_as w v pos) pos items out /\
      predicated w pos c items Done ps = (out, Done).
  Proof.
    induction items as [|i l IH]; intros H pos.
    - exists []. split; [constructor|reflexivity].
    - destruct (IH (fun i' p Hi Hp => H i' p (or_intror Hi) Hp) (S pos)) as (out & HK & E). rewrite predicated_seq2, E.
      destruct (verdict_spec pos (copy w c i) ps (fun p Hp => H i p (or_introl eq_refl) Hp)) as [[-> G]|[-> (p & v & G1 & G2 & G3)]].
      + exists (i :: out). split; [apply k_keep; auto|reflexivity].
      + exists out. split; [apply k_drop; auto|reflexivity]. intros G. apply G3. eapply G; eauto.
  Qed.

  (** ** Union *)
  Lemma elements_sorted : StronglySorted doc_before (elements D).
  Proof.
    unfold elements. constructor; [apply descendants_sorted|]. rewrite Forall_forall. intros x Hx. apply in_map_iff in Hx as ([b u] & <- & Hi).
    apply descendants_in in Hi as (_ & Hb & _). destruct b; [congruence|]. apply db_below.
  Qed.
  Lemma nth_sorted {A} (R : A -> A -> Prop) l i j x y : StronglySorted R l -> nth_error l i = Some x -> nth_error l j = Some y -> i < j -> R x y.
  Proof.
    intros S. revert i j. induction S as [|z l S IH F]; intros i j Hi Hj Hij; [destruct i; discriminate|]. destruct j as [|j]; [lia|]. cbn in Hj. destruct i as [|i].
    - cbn in Hi. inversion Hi; subst. rewrite Forall_forall in F. apply F. eapply nth_error_In; eauto.
    - cbn in Hi. eapply IH; eauto. lia.
  Qed.
  Lemma docorder_node c a x : docorder w c (INode a) = Some x -> exists k, x = S k /\ nth_error (elements D) k = Some a.
  Proof.
    cbn [docorder]. match goal with |- context [find_index ?f ?l] => destruct (find_index f l) as [k|] eqn:E end; cbn [option_map]; [|discriminate]. intros H. inversion H; subst. exists k. split; [auto|].
    apply find_index_spec in E as (b & Hb & Hp & _). destruct (list_eq_dec Nat.eq_dec a b); [congruence|discriminate].
  Qed.
  Lemma docorder_le c i j x y : docorder w c i = Some x -> docorder w c j = Some y -> x <= y -> item_before i j.
  Proof.
    destruct i as [|a|a k v|s|z|f|b]; try discriminate; [intros; apply ib_root|]. intros Hx Hy Hle. apply docorder_node in Hx as (k & -> & Hk).
    destruct j as [|a'|a' k' v|s|z|f|b]; try discriminate.
    - cbn in Hy. destruct c; try discriminate. inversion Hy; subst. lia.
    - apply docorder_node in Hy as (k' & -> & Hk'). destruct (Nat.eq_dec k k') as [->|Hne]; [rewrite Hk in Hk'; inversion Hk'; apply ib_same|].
      apply ib_node. eapply nth_sorted; [apply elements_sorted|exact Hk|exact Hk'|lia].
  Qed.
  Lemma docorder_some c i : document w -> element_item w i \/ (i = IRoot /\ c = IRoot) -> exists x, docorder w c i = Some x.
  Proof.
    intros Hd [(a & n & ats & ks & -> & Ha)|[-> ->]]; [|exists 0; reflexivity]. cbn [docorder].
    assert (Hi : In a (elements D)).
    { unfold elements. destruct a as [|j a]; [left; auto|right]. apply in_map_iff. exists (j :: a, XE n ats ks). split; [reflexivity|].
      apply descendants_in. split; [auto|]. split; [discriminate|repeat eexists]. }
    clear - Hi. induction (elements D) as [|b l IH]; [destruct Hi|]. cbn. destruct (list_eq_dec Nat.eq_dec a b) as [|Hne]; [eexists; reflexivity|].
    destruct Hi as [->|Hi]; [congruence|]. destruct (IH Hi) as (x & E). match goal with |- context [find_index ?f ?l] => destruct (find_index f l) end; [|discriminate]. eexists; reflexivity.
  Qed.
  Lemma keyed_some c l : document w -> (forall i, In i l -> element_item w i \/ (i = IRoot /\ c = IRoot)) -> exists ks, keyed w c l = Some ks /\
    Forall (fun x => docorder w c (snd x) = Some (fst x)) ks.
  Proof.
    intros Hd H. induction l as [|i l IH]; [exists []; split; [reflexivity|constructor]|]. destruct IH as (ks & E & F); [intros; apply H; right; auto|].
    destruct (docorder_some c i Hd (H i (or_introl eq_refl))) as (x & Hx). exists ((x, i) :: ks). cbn. rewrite Hx, E. split; [reflexivity|]. constructor; auto.
  Qed.
  Lemma keyed_none c l i : In i l -> docorder w c i = None -> keyed w c l = None.
  Proof.
    induction l as [|j l IH]; intros Hi E; [destruct Hi|]. cbn. destruct Hi as [->|Hi]; [rewrite E; reflexivity|]. rewrite IH by auto. destruct (docorder w c j); reflexivity.
  Qed.
  Lemma insert_sorted x l : StronglySorted (fun a b => fst a <= fst b) l -> StronglySorted (fun a b : nat * item => fst a <= fst b) (insert_by x l).
  Proof.
    intros S. induction S as [|y l S IH F]; cbn; [repeat constructor|]. destruct (Nat.leb_spec (fst x) (fst y)) as [Hle|Hlt].
    - constructor; [constructor; auto|]. constructor; [auto|]. rewrite Forall_forall in *. intros z Hz. specialize (F z Hz). lia.
    - constructor; [auto|]. rewrite Forall_forall in *. intros z Hz. apply (Permutation_in _ (insert_perm x l)) in Hz as [<-|Hz]; [lia|auto].
  Qed.
  Lemma sort_sorted l : StronglySorted (fun a b : nat * item => fst a <= fst b) (sort_by l).
  Proof. induction l as [|x l IH]; cbn; [constructor|]. apply insert_sorted, IH. Qed.
  Lemma union_sorted n l r c ls rs : document w -> parent c <> None -> eval w n l c = (ls, Done) -> eval w n r c = (rs, Done) ->
    (forall i, In i (ls ++ rs) -> element_item w i \/ (i = IRoot /\ c = IRoot)) ->
    exists out, eval w n (EBin l OpUnion r) c = (out, Done) /\ Permutation out (ls ++ rs) /\ StronglySorted item_before out.
  Proof.
    intros Hd Hp El Er H. destruct (keyed_some c (ls ++ rs) Hd H) as (ks & E & F). exists (map snd (sort_by ks)). rewrite eval_bin. cbn [binary]. unfold right_of. cbn [right_of].
    rewrite El, Er. unfold union. destruct (parent c); [|congruence]. cbn [collected]. rewrite E. split; [reflexivity|]. split.
    - rewrite (Permutation_map snd (sort_perm ks)), (keyed_map w c _ _ E). reflexivity.
    - assert (G : Forall (fun x => docorder w c (snd x) = Some (fst x)) (sort_by ks)) by (rewrite (sort_perm ks); exact F).
      pose proof (sort_sorted ks) as S. induction S as [|x l0 S IH Fx]; cbn [map]; [constructor|]. inversion G; subst. constructor; [auto|].
      rewrite Forall_forall in *. intros j Hj. apply in_map_iff in Hj as (y & <- & Hy). eapply docorder_le; eauto.
  Qed.
  Lemma union_fails n l r c ls rs i : eval w n l c = (ls, Done) -> eval w n r c = (rs, Done) ->
    In i (ls ++ rs) -> docorder w c i = None -> eval w n (EBin l OpUnion r) c = ([], Exn AttributeErr).
  Proof.
    intros El Er Hi Hn. rewrite eval_bin. cbn [binary]. unfold right_of. cbn [right_of]. rewrite El, Er. unfold union. destruct (parent c); [|reflexivity].
    cbn [collected]. rewrite (keyed_none c _ i Hi Hn). reflexivity.
  Qed.

  (** ** Equality *)
  Lemma flt_cmp_eq x y : flt_cmp x y = Some Eq <-> same_number x y.
  Proof.
    destruct x as [|b|m e], y as [|b'|m' e']; cbn; try (split; [discriminate|intros H; inversion H]).
    - destruct b; (split; [discriminate|intros H; inversion H]).
    - destruct b, b'; (split; [try discriminate; intros; constructor|intros H; inversion H; auto]).
    - destruct b; (split; [discriminate|intros H; inversion H]).
    - destruct b'; (split; [discriminate|intros H; inversion H]).
    - set (k := Z.min e e'). split.
      + intros H. injection H as H. apply Z.compare_eq in H. apply sn_fin with (k := (- k)%Z); unfold k in *; try lia.
        replace (e + - Z.min e e')%Z with (e - Z.min e e')%Z by lia. replace (e' + - Z.min e e')%Z with (e' - Z.min e e')%Z by lia. exact H.
      + intros H. inversion H as [|m1 e1 m2 e2 j H1 H2 H3 E1 E2]; subst. f_equal. apply Z.compare_eq_iff.
        replace (e + j)%Z with ((e - k) + (k + j))%Z in H3 by lia. replace (e' + j)%Z with ((e' - k) + (k + j))%Z in H3 by lia.
        rewrite (Z.pow_add_r 2 (e - k)), (Z.pow_add_r 2 (e' - k)) in H3 by (unfold k; lia). rewrite !Z.mul_assoc in H3. apply Z.mul_reg_r in H3; [auto|]. apply Z.pow_nonzero; unfold k; lia.
  Qed.
  Lemma py_eq_same x j : ~ is_node_item x -> ~ is_node_item j -> py_eq w x j = true <-> same_value x j.
  Proof.
    intros Hx Hj. assert (Num : forall i, number_value i = as_num i) by (intros i; destruct i as [| | | | | |[]]; reflexivity). split.
    - intros H. unfold py_eq in H. destruct (as_str w x) as [s|] eqn:Ex, (as_str w j) as [s'|] eqn:Ej; try discriminate.
      + destruct x, j; cbn in Hx, Hj, Ex, Ej; try tauto; try discriminate. apply str_eqb_eq in H. subst. inversion Ex; inversion Ej; subst. constructor.
      + destruct (as_num x) as [fx|] eqn:Nx, (as_num j) as [fj|] eqn:Nj; try discriminate.
        * eapply same_num; [rewrite Num; exact Nx|rewrite Num; exact Nj|]. apply flt_cmp_eq. destruct (flt_cmp fx fj) as [[]|]; try discriminate; reflexivity.
        * destruct x as [| | | | | |[]]; cbn in Hx, Ex, Nx; try tauto; discriminate.
    - intros H. destruct H as [s|i j x y H1 H2 H3]; [cbn; apply str_eqb_eq; reflexivity|]. apply flt_cmp_eq in H3. rewrite Num in H1, H2. unfold py_eq.
      assert (as_str w i = None) as -> by (destruct i; cbn in *; try discriminate; reflexivity). assert (as_str w j = None) as -> by (destruct j; cbn in *; try discriminate; reflexivity).
      rewrite H1, H2, H3. reflexivity.
  Qed.
  Lemma plain_compared i x : compared w i x -> plain w i = x.
  Proof.
    unfold plain. destruct i as [|a|a k v|s|z|f|b]; cbn [compared node_value]; try (intros ->; reflexivity).
    - intros (s & H & ->). inversion H; subst. reflexivity.
    - intros (s & H & ->). inversion H as [|a' u Ha E1 E2| | | | | |]; subst. unfold node_at. rewrite Ha. cbn. rewrite xml_value_text. reflexivity.
    - intros (s & H & ->). inversion H; subst. reflexivity.
  Qed.
  Lemma compared_plain i x : compared w i x -> ~ is_node_item x.
  Proof. destruct i; cbn; try (intros ->; tauto); intros (s & _ & ->); tauto. Qed.
  Lemma is_node_iff i : is_node i = true <-> is_node_item i.
  Proof. destruct i; cbn; split; auto; discriminate || contradiction. Qed.
  Lemma eq_scan_spec x l : ~ is_node_item x -> (forall j, In j l -> ~ is_node_item j) ->
    exists b, eq_scan w x l Done = inl b /\ (b = true <-> exists j, In j l /\ same_value x j).
  Proof.
    intros Hx. induction l as [|j l IH]; intros H.
    - exists false. split; [reflexivity|]. split; [discriminate|]. intros (j & [] & _).
    - destruct IH as (b & E & Hb); [intros; apply H; right; auto|]. cbn [eq_scan]. assert (Hj := H j (or_introl eq_refl)).
      destruct (is_node j) eqn:Ej; [apply is_node_iff in Ej; contradiction|]. destruct (py_eq w x j) eqn:Ep.
      + apply (py_eq_same x j Hx Hj) in Ep. exists true. split; [reflexivity|]. split; [intros _; exists j; split; [left; auto|auto]|reflexivity].
      + exists b. split; [auto|]. rewrite Hb. split; [intros (j' & H1 & H2); exists j'; split; [right; auto|auto]|].
        intros (j' & [<-|H1] & H2); [|eauto]. apply (py_eq_same x j Hx Hj) in H2. congruence.
  Qed.
  Lemma eq_scan_node x l : ~ is_node_item x -> forall pre j post, l = pre ++ j :: post -> is_node_item j -> (forall k, In k pre -> ~ is_node_item k /\ ~ same_value x k) ->
    forall f, eq_scan w x l f = inr (Exn AttributeErr).
  Proof.
    intros Hx pre. revert l. induction pre as [|k pre IH]; intros l j post -> Hj H f; cbn [app eq_scan].
    - apply is_node_iff in Hj. rewrite Hj. reflexivity.
    - destruct (H k (or_introl eq_refl)) as [K1 K2]. destruct (is_node k) eqn:E; [apply is_node_iff in E; contradiction|].
      destruct (py_eq w x k) eqn:Ep; [apply (py_eq_same x k Hx K1) in Ep; contradiction|]. eapply IH; eauto. intros; apply H; right; auto.
  Qed.
End Expr.
