(** Paths downwards select in document order, each node once. *)
From Verif Require Import PyStr XTree Path PatternFacts XPath XPathSpec XPathFacts XPathFuel XPathExpr XPathFun XPathLast XNavSpec XNav.
From Coq Require Import Sorted.

Lemma doc_before_irrefl a : ~ doc_before a a.
Proof. induction a as [|i a IH]; intros H; inversion H; subst; [lia|auto]. Qed.
Lemma kept_forall (P : nat -> item -> Prop) (Q : item -> Prop) pos l l' : kept P pos l l' -> Forall Q l -> Forall Q l'.
Proof. intros K. induction K as [pos|pos i l l' Hp K IH|pos i l l' Hp K IH]; intros H; [constructor| |]; inversion H; subst; auto. Qed.
Lemma kept_sorted (P : nat -> item -> Prop) (R : item -> item -> Prop) pos l l' : kept P pos l l' -> StronglySorted R l -> StronglySorted R l'.
Proof.
  intros K. induction K as [pos|pos i l l' Hp K IH|pos i l l' Hp K IH]; intros H; [constructor| |]; apply StronglySorted_inv in H as (H1 & H2); [|auto].
  constructor; [auto|]. exact (kept_forall P _ _ _ _ K H2).
Qed.
Lemma sorted_app {A} (R : A -> A -> Prop) l l' : StronglySorted R l -> StronglySorted R l' -> (forall x y, In x l -> In y l' -> R x y) -> StronglySorted R (l ++ l').
Proof.
  induction l as [|a l IH]; intros S S' H; [exact S'|]. cbn [app]. apply StronglySorted_inv in S as (S1 & S2). constructor.
  - apply IH; [exact S1|exact S'|]. intros x y Hx Hy. apply H; [right; exact Hx|exact Hy].
  - apply Forall_app. split; [exact S2|]. apply Forall_forall. intros y Hy. apply H; [left; reflexivity|exact Hy].
Qed.
Lemma sorted_map {A B} (R : A -> A -> Prop) (S : B -> B -> Prop) (f : A -> B) l : (forall x y, In x l -> In y l -> R x y -> S (f x) (f y)) -> StronglySorted R l -> StronglySorted S (map f l).
Proof.
  induction l as [|a l IH]; intros H L; cbn [map]; [constructor|]. apply StronglySorted_inv in L as (L1 & L2). constructor.
  - apply IH; [|exact L1]. intros x y Hx Hy. apply H; right; assumption.
  - rewrite Forall_forall in L2 |- *. intros y Hy. apply in_map_iff in Hy as (x & <- & Hx). apply H; [left; reflexivity|right; exact Hx|auto].
Qed.
Lemma sorted_nodup {A} (R : A -> A -> Prop) l : (forall x, In x l -> ~ R x x) -> StronglySorted R l -> NoDup l.
Proof.
  induction l as [|a l IH]; intros H L; constructor; apply StronglySorted_inv in L as (L1 & L2).
  - intros X. rewrite Forall_forall in L2. exact (H a (or_introl eq_refl) (L2 a X)).
  - apply IH; [|exact L1]. intros x Hx. apply H. right. exact Hx.
Qed.
(** Places under [a] and under [b] *)
Definition at_or_below (a b : addr) : Prop := b = a \/ above a b.
Lemma below_cons i a b : at_or_below (i :: a) b -> exists b', b = i :: b' /\ at_or_below a b'.
Proof. intros [->|(j & r & ->)]; [exists a; split; [reflexivity|left; reflexivity]|]. exists (a ++ j :: r). split; [reflexivity|]. right. exists j, r. reflexivity. Qed.
Lemma at_or_below_iff a b : at_or_below a b <-> exists r, b = a ++ r.
Proof.
  split; [intros [->|(j & r & ->)]; [exists []; rewrite app_nil_r; reflexivity|eauto]|]. intros ([|j r] & ->); [left; apply app_nil_r|right; exists j, r; reflexivity].
Qed.
Lemma apart_below a b : doc_before a b -> ~ above a b -> forall a' b', at_or_below a a' -> at_or_below b b' -> doc_before a' b' /\ ~ above a' b'.
Proof.
  induction 1 as [i b|i j a b L|i a b H IH]; intros N a' b' Ha Hb.
  - destruct N. exists i, b. reflexivity.
  - apply below_cons in Ha as (a1 & -> & _). apply below_cons in Hb as (b1 & -> & _). split; [constructor; exact L|]. intros (k & r & E). injection E as E _. lia.
  - apply below_cons in Ha as (a1 & -> & Ha). apply below_cons in Hb as (b1 & -> & Hb). destruct (IH) with (a' := a1) (b' := b1) as (X & Y); auto.
    + intros (k & r & ->). apply N. exists k, r. reflexivity.
    + split; [constructor; exact X|]. intros (k & r & E). injection E as E. apply Y. exists k, r. exact E.
Qed.
Lemma siblings_apart p i j : doc_before (p ++ [i]) (p ++ [j]) -> ~ above (p ++ [i]) (p ++ [j]).
Proof.
  intros _ (k & r & E). rewrite <- app_assoc in E. apply app_inv_head in E. discriminate.
Qed.

Section Order.
  Variables (w : env) (n : nat).
  Hypothesis W : proper w.
  (** What smaller expressions select *)
  Variable bound : nat.
  Hypothesis NR : forall e k k' c, size e < bound -> kind_of k e = Some k' -> of_kind w k c -> result w k' (nav w e c) (eval w n e c).
  Notation D := (doc w).
  Let We : no_empty_text w := proj1 (proj2 W).
  Let Wa : forall a m ats ks, subtree D a = Some (XE m ats ks) -> NoDup (map fst ats) := proj2 (proj2 W).

  Definition within (c d : item) : Prop :=
    d = c \/ c = IRoot \/ match c, d with INode a, INode b => above a b | INode a, IAttr b _ _ _ => at_or_below a b | _, _ => False end.
  Lemma within_trans c i d : within c i -> within i d -> within c d.
  Proof.
    intros [->|[->|H]]; [auto|intros _; right; left; reflexivity|]. intros [->|[->|H']].
    - right. right. exact H.
    - destruct c; contradiction.
    - right. right. destruct c as [|aa| | | | |]; try contradiction. destruct i as [|bb|bb kk vv| | | |]; try contradiction. destruct d as [|xx|xx k2 v2| | | |]; try contradiction.
      + destruct H as (j & r & ->), H' as (k & s & ->). exists j, (r ++ k :: s). rewrite <- app_assoc. reflexivity.
      + apply at_or_below_iff in H' as (s & ->). destruct H as (j & r & ->). apply at_or_below_iff. exists ((j :: r) ++ s). apply app_assoc_reverse.
  Qed.
  Definition apart (i j : item) : Prop := precedes w i j /\ i <> IRoot /\ forall a b, i = INode a -> j = INode b -> ~ above a b.
  Lemma apart_precedes i j : apart i j -> precedes w i j. Proof. intros (H & _). exact H. Qed.
  Definition node_kind (k : kind) : Prop := is_value k = false.
  Lemma apart_within k i j x y : node_kind k -> of_kind w k x -> of_kind w k y -> apart i j -> within i x -> within j y -> apart x y.
  Proof.
    intros N Kx Ky (P & R & A) Hx Hy. assert (T : (exists a, x = INode a) \/ (exists a q v o, x = IAttr a q v o) \/ x = IRoot).
    { destruct k; try discriminate N; [destruct Kx as [->|(a & ? & ? & ? & -> & _)]; eauto|destruct x as [|a0| | | | |]; try (destruct Kx; fail); eauto|destruct Kx as (a & ? & ? & ? & q & v & o & -> & _); eauto 9]. }
    assert (T' : (exists b, y = INode b) \/ (exists b q v o, y = IAttr b q v o) \/ y = IRoot).
    { destruct k; try discriminate N; [destruct Ky as [->|(a & ? & ? & ? & -> & _)]; eauto|destruct y as [|a0| | | | |]; try (destruct Ky; fail); eauto|destruct Ky as (a & ? & ? & ? & q & v & o & -> & _); eauto 9]. }
    assert (S : forall a, x = INode a -> exists b, y = INode b \/ y = IRoot).
    { intros a ->. destruct k; try discriminate N.
      - destruct Ky as [->|(b & ? & ? & ? & -> & _)]; [exists []; auto|exists b; auto].
      - destruct y as [|a0| | | | |]; try (destruct Ky; fail); [exists []|exists a0]; auto.
      - destruct Kx as (? & ? & ? & ? & ? & ? & ? & X & _). discriminate. }
    assert (S' : forall a q v o, x = IAttr a q v o -> exists b q' v' o', y = IAttr b q' v' o').
    { intros a q v o ->. destruct k; try discriminate N.
      - destruct Kx as [X|(b & ? & ? & ? & X & _)]; discriminate.
      - destruct Kx.
      - destruct Ky as (b & ? & ? & ? & q' & v' & o' & -> & _). eauto. }
    inversion P as [b|a b H|a b q v q' v' o o' H|a m ats ks pre q v mid q' v' post o o' E Eq]; subst; [congruence| | |].
    - assert (Xr : x <> IRoot) by (destruct Hx as [->|[X|X]]; [discriminate|discriminate|intros ->; exact X]). assert (Yr : y <> IRoot) by (destruct Hy as [->|[X|X]]; [discriminate|discriminate|intros ->; exact X]).
      assert (A' := A a b eq_refl eq_refl).
      destruct T as [(a' & ->)|[(a' & q & v & o & ->)| ->]]; [| |congruence].
      + destruct (S a' eq_refl) as (b' & [-> | ->]); [|congruence]. destruct (apart_below a b H A' a' b') as (X & Y).
        { destruct Hx as [X|[X|X]]; [injection X as ->; left; reflexivity|discriminate|right; exact X]. }
        { destruct Hy as [X|[X|X]]; [injection X as ->; left; reflexivity|discriminate|right; exact X]. }
        split; [constructor; exact X|]. split; [discriminate|]. intros ? ? E1 E2. injection E1 as <-. injection E2 as <-. exact Y.
      + destruct (S' a' q v o eq_refl) as (b' & q' & v' & o' & ->). destruct (apart_below a b H A' a' b') as (X & Y).
        { destruct Hx as [X|[X|X]]; [discriminate|discriminate|exact X]. }
        { destruct Hy as [X|[X|X]]; [discriminate|discriminate|exact X]. }
        split; [apply pr_attr; exact X|]. split; [discriminate|]. intros ? ? E1 E2. discriminate.
    - destruct Hx as [->|[X|[]]]; [|discriminate]. destruct Hy as [->|[X|[]]]; [|discriminate]. split; [exact P|]. split; [discriminate|]. intros ? ? E1. discriminate.
    - destruct Hx as [->|[X|[]]]; [|discriminate]. destruct Hy as [->|[X|[]]]; [|discriminate]. split; [exact P|]. split; [discriminate|]. intros ? ? E1. discriminate.
  Qed.

  (** Sorted results *)
  Definition in_order (R : item -> item -> Prop) (r : list item * fin) : Prop := StronglySorted R (fst r).
  Definition under (c : item) (r : list item * fin) : Prop := forall d, In d (fst r) -> within c d.
  Lemma compose l r c k1 k2 (R : item -> item -> Prop) : (R = apart \/ R = precedes w) -> node_kind k1 -> node_kind k2 ->
    result w k1 (nav w l c) (eval w n l c) -> in_order apart (eval w n l c) ->
    (forall i, of_kind w k1 i -> exists Q, result w k2 Q (eval w n r i)) ->
    (forall i, of_kind w k1 i -> in_order R (eval w n r i) /\ under i (eval w n r i)) ->
    in_order R (eval w n (EBin l OpPath r) c) /\ (under c (eval w n l c) -> under c (eval w n (EBin l OpPath r) c)).
  Proof.
    intros HR N1 N2 (ls & E & I & K & _) S Hr Hs.
    assert (X : exists outs, Forall2 (fun i o => eval w n r i = (o, Done) /\ StronglySorted R o /\ Forall (within i) o /\ Forall (of_kind w k2) o) ls outs).
    { clear E S I. induction ls as [|i ls IH]; [exists []; constructor|]. destruct IH as (outs & F); [intros d Hd; apply K; right; exact Hd|].
      assert (Ki : of_kind w k1 i) by (apply K; left; reflexivity). destruct (Hr i Ki) as (Q & o & Eo & _ & Ko & _). destruct (Hs i Ki) as (So & Uo). unfold in_order, under in So, Uo. rewrite Eo in So, Uo.
      exists (o :: outs). constructor; [|exact F]. split; [exact Eo|]. split; [exact So|]. split; apply Forall_forall; auto. }
    destruct X as (outs & F).
    assert (Ep : eval w n (EBin l OpPath r) c = (concat outs, Done)).
    { apply (path_eq w n l r c ls outs E). assert (M : forall i, In i ls -> ~ falsy w i) by (intros i Hi; apply (not_falsy w W k1); auto). clear - F M.
      induction F as [|i o ls outs (E & _) F IH]; constructor; [exists i; split; [left; split; [apply M; left; reflexivity|reflexivity]|exact E]|]. apply IH. intros j Hj. apply M. right. exact Hj. }
    assert (In_outs : forall ls outs, Forall2 (fun i o => eval w n r i = (o, Done) /\ StronglySorted R o /\ Forall (within i) o /\ Forall (of_kind w k2) o) ls outs ->
              forall y, In y (concat outs) -> exists j, In j ls /\ within j y /\ of_kind w k2 y).
    { clear. intros ls outs F. induction F as [|i o ls outs (_ & _ & Wi & Ko) F IH]; cbn [concat]; [intros y []|]. intros y Hy. apply in_app_iff in Hy as [Hy|Hy].
      - rewrite Forall_forall in Wi, Ko. exists i. split; [left; reflexivity|auto].
      - destruct (IH y Hy) as (j & Hj & X). exists j. split; [right; exact Hj|exact X]. }
    unfold in_order in S. rewrite E in S. cbn [fst] in S. split.
    - unfold in_order. rewrite Ep. cbn [fst]. clear E Ep I K Hr Hs. induction F as [|i o ls outs (_ & So & Wi & Ko) F IH]; cbn [concat]; [constructor|]. apply StronglySorted_inv in S as (S1 & S2).
      apply sorted_app; [exact So|auto|]. intros x y Hx Hy. destruct (In_outs ls outs F y Hy) as (j & Hj & Wj & Kj). rewrite Forall_forall in S2, Wi, Ko.
      assert (A : apart x y) by (apply (apart_within k2 i j); auto). destruct HR as [-> | ->]; [exact A|apply apart_precedes; exact A].
    - intros U d Hd. rewrite Ep in Hd. cbn [fst] in Hd. destruct (In_outs ls outs F d Hd) as (j & Hj & Wj & _). apply (within_trans c j d); [|exact Wj]. apply U. rewrite E. exact Hj.
  Qed.
  Lemma size_pred e ps p : In p ps -> size p < size (EPred e ps).
  Proof. intros H. apply size_in in H. cbn [size]. lia. Qed.
  Lemma pred_kept e ps c k k' : size (EPred e ps) <= bound -> kind_of k (EPred e ps) = Some k' -> of_kind w k c ->
    exists P ls out, eval w n e c = (ls, Done) /\ eval w n (EPred e ps) c = (out, Done) /\ kept P 1 ls out.
  Proof.
    intros B HK Hc. destruct (kind_pred_all k e ps k' HK) as (E & _).
    destruct (pred_parts w n W e ps c k k' HK) as (ls & out & Els & _ & _ & Eo & K).
    - apply (NR e k k' c); [cbn [size] in B; lia|exact E|exact Hc].
    - intros p kp i Hp Ep Ki. apply (NR p k' kp i); [pose proof (size_pred e ps p Hp); lia|exact Ep|exact Ki].
    - eexists. exists ls, out. split; [exact Els|]. split; [exact Eo|exact K].
  Qed.
  Lemma pred_order e ps c k k' (R : item -> item -> Prop) : size (EPred e ps) <= bound -> kind_of k (EPred e ps) = Some k' -> of_kind w k c ->
    (in_order R (eval w n e c) -> in_order R (eval w n (EPred e ps) c)) /\ (under c (eval w n e c) -> under c (eval w n (EPred e ps) c)).
  Proof.
    intros B HK Hc. destruct (pred_kept e ps c k k' B HK Hc) as (P & ls & out & Els & Eo & K).
    unfold in_order, under. rewrite Els, Eo. cbn [fst]. split; [apply (kept_sorted _ _ _ _ _ K)|]. intros H. apply Forall_forall. apply (kept_forall _ _ _ _ _ K), Forall_forall, H.
  Qed.

  (** Single steps *)
  Lemma sorted_nodes P l : listing D P l -> StronglySorted (precedes w) (nodes l).
  Proof.
    intros (S & _). unfold nodes. assert (E : map (fun p : addr * xtree => INode (fst p)) l = map INode (map fst l)) by (rewrite map_map; reflexivity). rewrite E.
    apply (sorted_map doc_before); [|exact S]. intros x y _ _. apply pr_node.
  Qed.
  Lemma single i (R : item -> item -> Prop) : StronglySorted R [i]. Proof. repeat constructor. Qed.
  Lemma siblings_order P l p : listing D P l -> (forall b u, P b u -> exists i, b = p ++ [i]) -> StronglySorted apart (nodes l).
  Proof.
    intros (S & L) H. unfold nodes. assert (E : map (fun q : addr * xtree => INode (fst q)) l = map INode (map fst l)) by (rewrite map_map; reflexivity). rewrite E.
    apply (sorted_map doc_before); [|exact S]. intros x y Hx Hy B. split; [apply pr_node; exact B|]. split; [discriminate|]. intros a b Ea Eb. injection Ea as <-. injection Eb as <-.
    apply in_map_iff in Hx as ((a & u) & <- & Hx). apply in_map_iff in Hy as ((b & v) & <- & Hy). apply L in Hx as (_ & Hx). apply L in Hy as (_ & Hy). destruct (H _ _ Hx) as (i & Ei). destruct (H _ _ Hy) as (j & Ej).
    cbn [fst] in *. rewrite Ei, Ej in *. apply siblings_apart. exact B.
  Qed.
  Lemma child_order t c : tree_item w c -> in_order apart (eval w n (EStep AxChild t) c) /\ under c (eval w n (EStep AxChild t) c).
  Proof.
    intros Hc. rewrite eval_step. destruct (child_axis w n t c Hc (or_intror We)) as (l & L & ->). unfold in_order, under. cbn [fst]. split.
    - destruct c as [|a| | | | |]; try (destruct Hc).
      + destruct l as [|x l]; [constructor|]. destruct l as [|y l]; [apply single|]. exfalso. destruct L as (S & L). destruct x as [a u], y as [b v].
        assert (a = []) as -> by (apply (L a u); left; reflexivity). assert (b = []) as -> by (apply (L b v); right; left; reflexivity).
        cbn [map fst] in S. apply StronglySorted_inv in S as (_ & S). inversion S as [|? ? X _]; subst. inversion X.
      + eapply siblings_order; [exact L|]. intros b u' ((i & ->) & _). exists i. reflexivity.
    - intros d Hd. apply nodes_in in Hd as (b & u & -> & Hd). apply L in Hd as (_ & Hd & _). destruct c as [|a| | | | |]; try (destruct Hd); [right; left; reflexivity|]. subst. right. right. exists x, []. reflexivity.
  Qed.
  Lemma self_order t c : tree_item w c -> in_order apart (eval w n (EStep AxSelf t) c) /\ under c (eval w n (EStep AxSelf t) c).
  Proof.
    intros Hc. destruct (self_yields w n t c Hc) as (ls & E & I). unfold in_order, under. split.
    - rewrite eval_step. cbn [step]. destruct c as [|a| | | | |]; try (destruct Hc).
      + destruct t; cbn; repeat constructor.
      + rewrite test_node by congruence. destruct (passb_at w t a); repeat constructor.
    - rewrite E. cbn [fst]. intros d Hd. apply I in Hd. inversion Hd; subst. left. reflexivity.
  Qed.
  Lemma attrs_sorted a m ats ks : subtree D a = Some (XE m ats ks) -> StronglySorted apart (map (fun kv => IAttr a (fst kv) (snd kv) Made) ats).
  Proof.
    intros E. assert (G : forall rest pre, ats = pre ++ rest -> StronglySorted apart (map (fun kv => IAttr a (fst kv) (snd kv) Made) rest)).
    { induction rest as [|[q v] rest IH]; intros pre Eq; cbn [map]; [constructor|]. constructor; [apply (IH (pre ++ [(q, v)])); rewrite <- app_assoc; exact Eq|].
      apply Forall_forall. intros y Hy. apply in_map_iff in Hy as ((q' & v') & <- & Hy). apply in_split in Hy as (mid & post & ->). split; [|split; [discriminate|intros ? ? X; discriminate]].
      cbn [fst snd]. eapply pr_attrs; [exact E|exact Eq]. }
    exact (G ats [] eq_refl).
  Qed.
  Lemma attr_order t c : tree_item w c -> t = TStar \/ (exists q, q <> lit "*" /\ t = TName q) -> in_order apart (eval w n (EStep AxAttribute t) c) /\ under c (eval w n (EStep AxAttribute t) c).
  Proof.
    intros Hc Ht. destruct (attr_yields w n W t c Hc Ht) as (ls & E & I). split.
    - unfold in_order. destruct ls as [|i ls]; [rewrite E; constructor|]. assert (G : goes w AxAttribute t c i) by (apply I; left; reflexivity).
      inversion G as [| | | | | | | | | | | |t' a m ats ks q v Ea H T]; subst. destruct (attribute_axis w n a m ats ks Ea (Wa a m ats ks Ea)) as (A1 & A2 & A3).
      destruct Ht as [->|(x & Hx & ->)]; [rewrite A1; exact (attrs_sorted a m ats ks Ea)|]. destruct T as [T|T]; [discriminate|]. injection T as ->. rewrite (A2 q v Hx H). apply single.
    - unfold under. rewrite E. cbn [fst]. intros d Hd. apply I in Hd. inversion Hd; subst. right. right. left. reflexivity.
  Qed.
  Lemma down_order t c : tree_item w c -> in_order (precedes w) (eval w n (EStep AxDescendant t) c) /\ under c (eval w n (EStep AxDescendant t) c).
  Proof.
    intros Hc. rewrite eval_step. destruct (descendant_axis w n t c Hc We) as (l & L & ->). unfold in_order, under. cbn [fst]. split; [exact (sorted_nodes _ l L)|].
    intros d Hd. apply nodes_in in Hd as (b & u & -> & Hd). apply L in Hd as (_ & Hd & _). destruct c as [|a| | | | |]; try (destruct Hd; fail); [right; left; reflexivity|]. right. right. exact Hd.
  Qed.
  Lemma down_self_order t c : tree_item w c -> in_order (precedes w) (eval w n (EStep AxDescendantOrSelf t) c) /\ under c (eval w n (EStep AxDescendantOrSelf t) c).
  Proof.
    intros Hc. rewrite eval_step. unfold in_order, under. destruct c as [|a| | | | |]; try (destruct Hc).
    - split; [|intros; right; left; reflexivity]. destruct (descendant_or_self_root w n t We) as (l & L & [(R & ->)|(R & ->)]); cbn [fst]; [|exact (sorted_nodes _ l L)].
      constructor; [exact (sorted_nodes _ l L)|]. apply Forall_forall. intros d Hd. apply nodes_in in Hd as (b & u & -> & _). constructor.
    - destruct (descendant_or_self_axis w n t a x We H) as (l & L & ->). cbn [fst]. split; [exact (sorted_nodes _ l L)|].
      intros d Hd. apply nodes_in in Hd as (b & u & -> & Hd). apply L in Hd as (_ & [->|Hd] & _); [left; reflexivity|right; right; exact Hd].
  Qed.

  Lemma kind_path k l r k' : kind_of k (EBin l OpPath r) = Some k' -> exists k1, kind_of k l = Some k1 /\ node_kind k1 /\ kind_of k1 r = Some k' /\ node_kind k'.
  Proof.
    cbn [kind_of]. destruct (no_value (kind_of k l)) as [k1|] eqn:E1; [|discriminate]. intros HK. apply no_value_some in E1 as (E1 & N1). apply no_value_some in HK as (HK & N2). exists k1. repeat (split; [assumption|]). assumption.
  Qed.
  Lemma kind_deep k l ax t k' : kind_of k (EBin l OpDeep (EStep ax t)) = Some k' -> exists k1, kind_of k l = Some k1 /\ (k1 = KElem \/ k1 = KNode) /\ k' = tested t.
  Proof. cbn [kind_of]. intros HK. destruct (kind_of k l) as [[]|]; try discriminate; injection HK as <-; eexists; (split; [reflexivity|auto]). Qed.
  Lemma tree_of k c : k = KElem \/ k = KNode -> of_kind w k c -> tree_item w c.
  Proof. intros [-> | ->]; [apply elem_tree|exact (fun x => x)]. Qed.

  Lemma step_tree k ax t k' c : step_kind k ax t = Some k' -> of_kind w k c -> ax = AxChild \/ ax = AxSelf \/ ax = AxAttribute \/ ax = AxDescendant \/ ax = AxDescendantOrSelf -> tree_item w c.
  Proof. intros S K H. apply (tree_of k); [|exact K]. destruct k; auto; exfalso; destruct H as [->|[->|[->|[-> | ->]]]]; discriminate. Qed.
  Lemma step_attr k t k' : step_kind k AxAttribute t = Some k' -> t = TStar \/ exists q, q <> lit "*" /\ t = TName q.
  Proof.
    destruct k; cbn [step_kind]; try discriminate; destruct t; try discriminate; auto; intros H; right; exists n0; (split; [|reflexivity]); intros ->; rewrite ParserInv.str_eqb_refl in H; discriminate.
  Qed.

  Lemma deep_result k t i : k = KElem \/ k = KNode -> of_kind w k i -> result w (tested t) (nav w (EStep AxDescendantOrSelf t) i) (eval w n (EStep AxDescendantOrSelf t) i).
  Proof. intros K Ki. apply (step_result w n W k); [destruct K as [-> | ->]; reflexivity|exact Ki]. Qed.
  Lemma flat_order e : forall k k' c, size e <= bound -> flat e = true -> kind_of k e = Some k' -> of_kind w k c -> in_order apart (eval w n e c) /\ under c (eval w n e c).
  Proof.
    induction e as [l|e IHe|l op r IHl IHr|dd|dd e IHe|ax t|e ps IHe IHps|t|u|v|f l IHl|l IHl] using expr_ind'; intros k k' c B F HK Hc; try discriminate.
    - destruct op; try discriminate. cbn [flat] in F. apply andb_prop in F as (Fl & Fr). destruct (kind_path k l r k' HK) as (k1 & E1 & N1 & E2 & N2).
      destruct (IHl k k1 c ltac:(cbn [size] in B; lia) Fl E1 Hc) as (Sl & Ul).
      destruct (compose l r c k1 k' apart (or_introl eq_refl) N1 N2 (NR l k k1 c ltac:(cbn [size] in B; lia) E1 Hc) Sl) as (X & Y).
      { intros i Hi. exists (nav w r i). exact (NR r k1 k' i ltac:(cbn [size] in B; lia) E2 Hi). }
      { intros i Hi. exact (IHr k1 k' i ltac:(cbn [size] in B; lia) Fr E2 Hi). }
      split; [exact X|exact (Y Ul)].
    - destruct ax; try discriminate; cbn [kind_of] in HK.
      + apply self_order. apply (step_tree k _ t k' c HK Hc). auto.
      + apply child_order. apply (step_tree k _ t k' c HK Hc). auto.
      + apply attr_order; [apply (step_tree k _ t k' c HK Hc); auto|exact (step_attr k t k' HK)].
    - destruct (kind_pred_all k e ps k' HK) as (E & N & _). destruct (IHe k k' c ltac:(cbn [size] in B; lia) F E Hc) as (S & U). destruct (pred_order e ps c k k' apart B HK Hc) as (X & Y). auto.
    - destruct u; [discriminate|]. rewrite eval_abbrev. split; [apply single|]. intros d [<-|[]]. left. reflexivity.
  Qed.
  Lemma weaken r : in_order apart r -> in_order (precedes w) r.
  Proof.
    unfold in_order. induction 1 as [|a l S IH F]; constructor; [exact IH|]. rewrite Forall_forall in *. intros x Hx. apply apart_precedes, F, Hx.
  Qed.
  Lemma down_order_all e : forall k k' c, size e <= bound -> down e = true -> kind_of k e = Some k' -> of_kind w k c -> in_order (precedes w) (eval w n e c) /\ under c (eval w n e c).
  Proof.
    induction e as [l|e IHe|l op r IHl IHr|dd|dd e IHe|ax t|e ps IHe IHps|t|u|v|f l IHl|l IHl] using expr_ind'; intros k k' c B F HK Hc; try discriminate.
    - destruct op; try discriminate.
      + cbn [down] in F. apply andb_prop in F as (Fl & Fr). destruct (kind_path k l r k' HK) as (k1 & E1 & N1 & E2 & N2).
        destruct (flat_order l k k1 c ltac:(cbn [size] in B |- *; lia) Fl E1 Hc) as (Sl & Ul).
        destruct (compose l r c k1 k' (precedes w) (or_intror eq_refl) N1 N2 (NR l k k1 c ltac:(cbn [size] in B; lia) E1 Hc) Sl) as (X & Y).
        { intros i Hi. exists (nav w r i). exact (NR r k1 k' i ltac:(cbn [size] in B; lia) E2 Hi). }
        { intros i Hi. exact (IHr k1 k' i ltac:(cbn [size] in B; lia) Fr E2 Hi). }
        split; [exact X|exact (Y Ul)].
      + destruct r as [| | | |ax t| | | | | |]; try discriminate. cbn [down] in F. destruct (kind_deep k l ax t k' HK) as (k1 & E1 & N1 & ->). rewrite deep_step.
        assert (Nk : node_kind k1) by (destruct N1 as [-> | ->]; reflexivity). assert (Nt : node_kind (tested t)) by (destruct t; reflexivity).
        destruct (flat_order l k k1 c ltac:(cbn [size] in B |- *; lia) F E1 Hc) as (Sl & Ul).
        destruct (compose l (EStep AxDescendantOrSelf t) c k1 (tested t) (precedes w) (or_intror eq_refl) Nk Nt (NR l k k1 c ltac:(cbn [size] in B; lia) E1 Hc) Sl) as (X & Y).
        { intros i Hi. eexists. exact (deep_result k1 t i N1 Hi). }
        { intros i Hi. apply down_self_order. exact (tree_of k1 i N1 Hi). }
        split; [exact X|exact (Y Ul)].
    - destruct ax; try discriminate; cbn [kind_of] in HK.
      + destruct (self_order t c) as (X & Y); [apply (step_tree k _ t k' c HK Hc); auto|]. split; [apply weaken; exact X|exact Y].
      + destruct (child_order t c) as (X & Y); [apply (step_tree k _ t k' c HK Hc); auto|]. split; [apply weaken; exact X|exact Y].
      + destruct (attr_order t c) as (X & Y); [apply (step_tree k _ t k' c HK Hc); auto|exact (step_attr k t k' HK)|]. split; [apply weaken; exact X|exact Y].
      + apply down_order. apply (step_tree k _ t k' c HK Hc). auto.
      + apply down_self_order. apply (step_tree k _ t k' c HK Hc). auto 6.
    - destruct (kind_pred_all k e ps k' HK) as (E & N & _). destruct (IHe k k' c ltac:(cbn [size] in B; lia) F E Hc) as (S & U). destruct (pred_order e ps c k k' (precedes w) B HK Hc) as (X & Y). auto.
    - destruct u; [discriminate|]. rewrite eval_abbrev. split; [apply single|]. intros d [<-|[]]. left. reflexivity.
  Qed.
  Lemma few_apart l : length l <= 1 -> StronglySorted apart l.
  Proof. destruct l as [|x [|y l]]; cbn [length]; intros H; [constructor|apply single|lia]. Qed.
  Lemma parent_few t c : length (fst (eval w n (EStep AxParent t) c)) <= 1 /\ length (fst (eval w n (EAbbrev true) c)) <= 1.
  Proof.
    rewrite eval_step, eval_abbrev. cbn [step abbrev]. split.
    - destruct (parent c) as [[p|]|]; [|unfold with_root; destruct (root_of w c) as [[]|]; cbn; lia|cbn; lia]. unfold test_all. cbn [map bindl].
      assert (T : forall i, length (fst (test w t i)) <= 1).
      { intros i. unfold test. destruct t; try (cbn; lia).
        - destruct i as [|a| | | | |]; try (cbn; lia). destruct (node_at w a) as [[m ats ks|x]|]; try (cbn; lia). destruct (str_eqb m n0); cbn; lia.
        - destruct (is_node i || _); cbn; lia.
        - destruct (as_str w i); cbn; lia. }
      match goal with |- context [test w t ?i] => specialize (T i); destruct (test w t i) as [l []] end; cbn [seq2 fst] in *; rewrite ?app_nil_r; exact T.
    - destruct (parent c) as [[p|]|]; cbn; try lia. unfold with_root. destruct (root_of w c) as [[]|]; cbn; lia.
  Qed.
  Lemma after_order t k k' c : step_kind k AxFollowingSibling t = Some k' -> of_kind w k c -> in_order apart (eval w n (EStep AxFollowingSibling t) c).
  Proof.
    intros S K. destruct (step_yields w n W k AxFollowingSibling t k' c S K) as (ls & E & I). unfold in_order. destruct ls as [|i ls]; [rewrite E; constructor|].
    assert (G : goes w AxFollowingSibling t c i) by (apply I; left; reflexivity). inversion G as [| | | | | | | | | |t' p j b B M| |]; subst.
    assert (U : exists u, subtree D (p ++ [j]) = Some u /\ is_element u).
    { destruct k; try discriminate. destruct (elem_cases w (INode (p ++ [j])) K) as [X|[X|(p' & j' & u & X & Eu & Iu)]]; [discriminate|injection X as X; destruct p; discriminate|]. injection X as X. rewrite X. eauto. }
    destruct U as (u & Eu & Iu). rewrite eval_step. destruct (following_sibling_axis w n t p j u We Eu Iu) as (l & L & ->). cbn [fst].
    eapply siblings_order; [exact L|]. intros x v ((q & -> & _) & _). exists q. reflexivity.
  Qed.
  Lemma fan_order e : forall k k' c, size e <= bound -> fan e = true -> kind_of k e = Some k' -> of_kind w k c -> in_order apart (eval w n e c).
  Proof.
    induction e as [l|e IHe|l op r IHl IHr|dd|dd e IHe|ax t|e ps IHe IHps|t|u|v|f l IHl|l IHl] using expr_ind'; intros k k' c B F HK Hc; try discriminate.
    - destruct op; try discriminate. cbn [fan] in F. apply andb_prop in F as (Fl & Fr). destruct (kind_path k l r k' HK) as (k1 & E1 & N1 & E2 & N2).
      refine (proj1 (compose l r c k1 k' apart (or_introl eq_refl) N1 N2 (NR l k k1 c ltac:(cbn [size] in B; lia) E1 Hc) (IHl k k1 c ltac:(cbn [size] in B; lia) Fl E1 Hc) _ _)).
      + intros i Hi. exists (nav w r i). exact (NR r k1 k' i ltac:(cbn [size] in B; lia) E2 Hi).
      + intros i Hi. exact (flat_order r k1 k' i ltac:(cbn [size] in B |- *; lia) Fr E2 Hi).
    - destruct dd; discriminate.
    - destruct dd; [discriminate|]. cbn [kind_of] in HK. destruct k; try discriminate. destruct (just_node e) eqn:J; [discriminate|]. apply no_value_some in HK as (HK & N).
      rewrite (absolute_relative w n e c Hc J). apply (IHe KElem k' IRoot ltac:(cbn [size] in B; lia) F HK). left. reflexivity.
    - destruct ax; try discriminate; [exact (proj1 (flat_order (EStep AxSelf t) k k' c B eq_refl HK Hc))|exact (proj1 (flat_order (EStep AxChild t) k k' c B eq_refl HK Hc))|exact (proj1 (flat_order (EStep AxAttribute t) k k' c B eq_refl HK Hc))| |].
      + exact (after_order t k k' c HK Hc).
      + apply few_apart, parent_few.
    - destruct (kind_pred_all k e ps k' HK) as (E & N & _). apply (pred_order e ps c k k' apart B HK Hc). exact (IHe k k' c ltac:(cbn [size] in B; lia) F E Hc).
    - destruct u; [apply few_apart, (parent_few TNode c)|]. rewrite eval_abbrev. apply single.
  Qed.
  Theorem orderly_order e : forall k k' c, size e <= bound -> orderly e = true -> kind_of k e = Some k' -> of_kind w k c -> in_order (precedes w) (eval w n e c).
  Proof.
    induction e as [l|e IHe|l op r IHl IHr|dd|dd e IHe|ax t|e ps IHe IHps|t|u|v|f l IHl|l IHl] using expr_ind'; intros k k' c B F HK Hc; try discriminate.
    all: cbn [orderly] in F; apply orb_prop in F as [F|F]; [apply orb_prop in F as [F|F]; [exact (weaken _ (fan_order _ k k' c B F HK Hc))|exact (proj1 (down_order_all _ k k' c B F HK Hc))]|]; try discriminate.
    - destruct op; try discriminate.
      + apply andb_prop in F as (Fl & Fr). destruct (kind_path k l r k' HK) as (k1 & E1 & N1 & E2 & N2).
        refine (proj1 (compose l r c k1 k' (precedes w) (or_intror eq_refl) N1 N2 (NR l k k1 c ltac:(cbn [size] in B; lia) E1 Hc) (fan_order l k k1 c ltac:(cbn [size] in B |- *; lia) Fl E1 Hc) _ _)).
        * intros i Hi. exists (nav w r i). exact (NR r k1 k' i ltac:(cbn [size] in B; lia) E2 Hi).
        * intros i Hi. exact (down_order_all r k1 k' i ltac:(cbn [size] in B |- *; lia) Fr E2 Hi).
      + destruct r as [| | | |ax t| | | | | |]; try discriminate. destruct (kind_deep k l ax t k' HK) as (k1 & E1 & N1 & ->). rewrite deep_step.
        assert (Nk : node_kind k1) by (destruct N1 as [-> | ->]; reflexivity). assert (Nt : node_kind (tested t)) by (destruct t; reflexivity).
        refine (proj1 (compose l (EStep AxDescendantOrSelf t) c k1 (tested t) (precedes w) (or_intror eq_refl) Nk Nt (NR l k k1 c ltac:(cbn [size] in B; lia) E1 Hc) (fan_order l k k1 c ltac:(cbn [size] in B |- *; lia) F E1 Hc) _ _)).
        * intros i Hi. eexists. exact (deep_result k1 t i N1 Hi).
        * intros i Hi. apply down_self_order. exact (tree_of k1 i N1 Hi).
    - destruct dd; discriminate.
    - destruct dd; [discriminate|]. cbn [kind_of] in HK. destruct k; try discriminate. destruct (just_node e) eqn:J; [discriminate|]. apply no_value_some in HK as (HK & N).
      rewrite (absolute_relative w n e c Hc J). apply (IHe KElem k' IRoot ltac:(cbn [size] in B; lia) F HK). left. reflexivity.
    - destruct (kind_pred_all k e ps k' HK) as (E & N & _). apply (pred_order e ps c k k' (precedes w) B HK Hc). exact (IHe k k' c ltac:(cbn [size] in B; lia) F E Hc).
  Qed.
  Lemma precedes_irrefl i : ~ precedes w i i.
  Proof.
    intros H. inversion H as [b|a b B|a b q v q' v' o o' B|a m ats ks pre q v mid q' v' post o o' E Eq]; subst; try (exact (doc_before_irrefl _ B)).
    apply Wa in E. rewrite map_app in E. cbn [map fst] in E. apply NoDup_remove_2 in E. apply E. rewrite map_app, !in_app_iff. right. right. left. reflexivity.
  Qed.
  Corollary orderly_once e k k' c : size e <= bound -> orderly e = true -> kind_of k e = Some k' -> of_kind w k c -> NoDup (fst (eval w n e c)).
  Proof. intros B O K C. apply (sorted_nodup (precedes w)); [intros x _; apply precedes_irrefl|]. exact (orderly_order e k k' c B O K C). Qed.

  (** Paths of a fixed depth *)
  Definition place (i : item) : option addr := match i with IRoot => Some [] | INode a | IAttr a _ _ _ => Some (0 :: a) | _ => None end.
  Fixpoint depth (e : expr) : nat :=
    match e with EStep AxChild _ => 1 | EBin l _ r => depth l + depth r | EPred e _ => depth e | _ => 0 end.
  Lemma depth_place e : forall c d a, flat e = true -> nav w e c d -> place c = Some a -> exists r, place d = Some (a ++ r) /\ length r = depth e.
  Proof.
    induction e as [l|e IHe|l op r IHl IHr|dd|dd e IHe|ax t|e ps IHe IHps|t|u|v|f l IHl|l IHl] using expr_ind'; intros c d a F N E; try discriminate.
    - destruct op; try discriminate. cbn [flat] in F. apply andb_prop in F as (Fl & Fr). destruct N as (i & N1 & N2). destruct (IHl c i a Fl N1 E) as (r1 & E1 & L1). destruct (IHr i d _ Fr N2 E1) as (r2 & E2 & L2).
      exists (r1 ++ r2). rewrite app_assoc. split; [exact E2|]. cbn [depth]. rewrite app_length. lia.
    - destruct ax; try discriminate; cbn [nav depth] in *.
      + inversion N; subst. exists []. rewrite app_nil_r. auto.
      + inversion N as [|t' c' b u Eb C P| | | | | | | | | | |]; subst. destruct c as [|x| | | | |]; try contradiction; cbn in C, E; injection E as <-.
        * subst b. exists [0]. auto.
        * destruct C as (i & ->). exists [i]. auto.
      + inversion N; subst. exists []. rewrite app_nil_r. auto.
    - apply (nav_pred_all w e ps c d) in N as (N & _). exact (IHe c d a F N E).
    - destruct u; [discriminate|]. cbn [nav] in N. subst d. exists []. rewrite app_nil_r. auto.
  Qed.
  Lemma place_tree k i j : k = KElem \/ k = KNode -> of_kind w k i -> of_kind w k j -> place i = place j -> i = j.
  Proof.
    intros K Ki Kj. apply (tree_of k i K) in Ki. apply (tree_of k j K) in Kj. destruct i, j; try contradiction; cbn [place]; congruence.
  Qed.
  Lemma flat_attr e : forall k', flat e = true -> kind_of KAttr e = Some k' -> forall c d, nav w e c d -> d = c.
  Proof.
    induction e as [l|e IHe|l op r IHl IHr|dd|dd e IHe|ax t|e ps IHe IHps|t|u|v|f l IHl|l IHl] using expr_ind'; intros k' F HK c d N; try discriminate.
    - destruct op; try discriminate. cbn [flat] in F. apply andb_prop in F as (Fl & Fr). destruct (kind_path KAttr l r k' HK) as (k1 & E1 & N1 & E2 & N2). destruct N as (i & X & Y).
      pose proof (IHl k1 Fl E1 c i X) as ->. assert (k1 = KAttr) as ->; [|exact (IHr k' Fr E2 c d Y)].
      clear - E1 Fl N1. revert k1 E1 N1. induction l as [|? ?|l1 op l2 H1 H2|?|? e H|ax t|e ps H ?|?|u|?|?|?] using expr_ind'; intros k1 E1 N1; try discriminate.
      + destruct op; try discriminate. cbn [flat] in Fl. apply andb_prop in Fl as (F1 & F2). destruct (kind_path KAttr l1 l2 k1 E1) as (k0 & A & B & C & D). pose proof (H1 F1 k0 A B) as ->. exact (H2 F2 k1 C D).
      + destruct ax; discriminate.
      + destruct (kind_pred_all KAttr e ps k1 E1) as (A & _). exact (H Fl k1 A N1).
      + destruct u; [discriminate|]. cbn in E1. congruence.
    - destruct ax; try discriminate.
    - destruct (kind_pred_all KAttr e ps k' HK) as (A & _). apply (nav_pred_all w e ps c d) in N as (N & _). exact (IHe k' F A c d N).
    - destruct u; [discriminate|]. exact N.
  Qed.
  (** The starts are told by the results. *)
  Lemma flat_start e k k' i j d : flat e = true -> node_kind k -> kind_of k e = Some k' -> of_kind w k i -> of_kind w k j -> nav w e i d -> nav w e j d -> i = j.
  Proof.
    intros F N HK Ki Kj Ni Nj. assert (K : (k = KElem \/ k = KNode) \/ k = KAttr) by (destruct k; auto; discriminate N). destruct K as [K| ->].
    - assert (P : forall c, of_kind w k c -> exists a, place c = Some a) by (intros c Kc; apply (tree_of k c K) in Kc; destruct c; try contradiction; eexists; reflexivity).
      destruct (P i Ki) as (a & Ea). destruct (P j Kj) as (b & Eb). destruct (depth_place e i d a F Ni Ea) as (r & E1 & L1). destruct (depth_place e j d b F Nj Eb) as (r' & E2 & L2).
      apply (place_tree k i j K Ki Kj). rewrite Ea, Eb. f_equal. rewrite E1 in E2. injection E2 as E2. clear - E2 L1 L2. rewrite <- L2 in L1. clear L2. revert b E2.
      induction a as [|x a IH]; intros [|y b] E2; cbn [app] in E2; [reflexivity| | |injection E2 as -> E2; f_equal; auto].
      + apply (f_equal (@length nat)) in E2. cbn [length] in E2. rewrite app_length in E2. lia.
      + apply (f_equal (@length nat)) in E2. cbn [length] in E2. rewrite app_length in E2. lia.
    - rewrite <- (flat_attr e k' F HK i d Ni). exact (flat_attr e k' F HK j d Nj).
  Qed.
  Lemma nodup_concat (outs : list (list item)) (ls : list item) (Q : item -> item -> Prop) :
    Forall2 (fun i o => NoDup o /\ forall d, In d o -> Q i d) ls outs -> NoDup ls -> (forall i j d, In i ls -> In j ls -> Q i d -> Q j d -> i = j) -> NoDup (concat outs).
  Proof.
    intros F. induction F as [|i o ls outs (No & Qo) F IH]; cbn [concat]; intros N H; [constructor|]. inversion N as [|? ? N1 N2]; subst.
    assert (G : forall ls outs, Forall2 (fun i o => NoDup o /\ forall d, In d o -> Q i d) ls outs -> forall d, In d (concat outs) -> exists j, In j ls /\ Q j d).
    { clear. intros ls outs F. induction F as [|i o ls outs (_ & Qo) F IH]; cbn [concat]; intros d Hd; [destruct Hd|]. apply in_app_iff in Hd as [Hd|Hd]; [exists i; split; [left; reflexivity|auto]|]. destruct (IH d Hd) as (j & Hj & X). exists j. split; [right; exact Hj|exact X]. }
    assert (R : NoDup (concat outs)) by (apply IH; [exact N2|intros x y d Hx Hy; apply H; right; assumption]).
    clear IH N. assert (X : forall d, In d o -> ~ In d (concat outs)).
    { intros d Hd Hc. destruct (G ls outs F d Hc) as (j & Hj & Y). apply N1. rewrite (H i j d); auto; [left; reflexivity|right; exact Hj]. }
    clear - No R X. induction o as [|d o IH]; [exact R|]. cbn [app]. inversion No as [|? ? A B]; subst. constructor.
    - rewrite in_app_iff. intros [Hd|Hd]; [exact (A Hd)|]. exact (X d (or_introl eq_refl) Hd).
    - apply IH; [exact B|]. intros x Hx. apply X. right. exact Hx.
  Qed.
  Lemma flat_nodup e k k' c : size e <= bound -> flat e = true -> kind_of k e = Some k' -> of_kind w k c -> NoDup (fst (eval w n e c)).
  Proof. intros B F K C. apply (sorted_nodup (precedes w)); [intros x _; apply precedes_irrefl|]. apply (weaken _ (proj1 (flat_order e k k' c B F K C))). Qed.
  Lemma flat_outs e k k' ls : size e < bound -> flat e = true -> kind_of k e = Some k' -> (forall i, In i ls -> of_kind w k i) ->
    exists outs, Forall2 (fun i o => eval w n e i = (o, Done) /\ NoDup o /\ forall d, In d o -> nav w e i d) ls outs.
  Proof.
    intros B F HK. induction ls as [|i ls IH]; intros H; [exists []; constructor|]. destruct IH as (outs & G); [intros j Hj; apply H; right; exact Hj|].
    assert (Ki : of_kind w k i) by (apply H; left; reflexivity). destruct (NR e k k' i ltac:(cbn [size] in B; lia) HK Ki) as (o & Eo & Io & _). pose proof (flat_nodup e k k' i (Nat.lt_le_incl _ _ B) F HK Ki) as No. rewrite Eo in No.
    exists (o :: outs). constructor; [|exact G]. split; [exact Eo|]. split; [exact No|]. intros d Hd. apply Io, Hd.
  Qed.
  Theorem once_nodup e : forall k k' c, size e <= bound -> once e = true -> kind_of k e = Some k' -> of_kind w k c -> NoDup (fst (eval w n e c)).
  Proof.
    induction e as [l|e IHe|l op r IHl IHr|dd|dd e IHe|ax t|e ps IHe IHps|t|u|v|f l IHl|l IHl] using expr_ind'; intros k k' c B F HK Hc; try discriminate.
    all: cbn [once] in F; apply orb_prop in F as [F|F]; [exact (orderly_once _ k k' c B F HK Hc)|]; try discriminate.
    - destruct op; try discriminate. apply andb_prop in F as (Fl & Fr). destruct (kind_path k l r k' HK) as (k1 & E1 & N1 & E2 & N2).
      pose proof (IHl k k1 c ltac:(cbn [size] in B; lia) Fl E1 Hc) as Nl. destruct (NR l k k1 c ltac:(cbn [size] in B; lia) E1 Hc) as (ls & El & Il & Kl & _). rewrite El in Nl. cbn [fst] in Nl.
      destruct (flat_outs r k1 k' ls ltac:(cbn [size] in B; lia) Fr E2 Kl) as (outs & G). rewrite (path_eq w n l r c ls outs El).
      + cbn [fst]. apply (nodup_concat outs ls (nav w r)); [clear - G; induction G as [|i o ls outs (_ & X) G IH]; constructor; auto|exact Nl|].
        intros i j d Hi Hj. apply (flat_start r k1 k' i j d Fr N1 E2); apply Kl; assumption.
      + assert (M : forall i, In i ls -> ~ falsy w i) by (intros i Hi; apply (not_falsy w W k1); auto). clear - G M.
        induction G as [|i o ls outs (E & _) G IH]; constructor; [exists i; split; [left; split; [apply M; left; reflexivity|reflexivity]|exact E]|]. apply IH. intros j Hj. apply M. right. exact Hj.
    - destruct dd; discriminate.
    - destruct dd; cbn [kind_of] in HK; destruct k; try discriminate; destruct (just_node e) eqn:J; try discriminate; apply no_value_some in HK as (HK & N).
      + assert (A : forall i, In i (IRoot :: nodes (all_nodes D)) -> of_kind w KNode i).
        { intros i [<-|Hi]; [exact I|]. apply nodes_in in Hi as (b & u & -> & Hi). apply all_nodes_in in Hi. exists u. exact Hi. }
        destruct (flat_outs e KNode k' (IRoot :: nodes (all_nodes D)) ltac:(cbn [size] in B; lia) F HK A) as (outs & G).
        rewrite (deep_any w n e c (all_nodes D) outs We Hc J (all_nodes_listing D)) by (clear - G; induction G as [|i o ls outs (E & _) G IH]; constructor; auto).
        cbn [fst]. apply (nodup_concat outs (IRoot :: nodes (all_nodes D)) (nav w e)); [clear - G; induction G as [|i o ls outs (_ & X) G IH]; constructor; auto| |].
        * constructor; [intros X; apply nodes_in in X as (b & u & X & _); discriminate|]. apply (sorted_nodup (precedes w)); [intros x _; apply precedes_irrefl|]. exact (sorted_nodes _ _ (all_nodes_listing D)).
        * intros i j d Hi Hj. apply (flat_start e KNode k' i j d F); [reflexivity|exact HK|apply A; exact Hi|apply A; exact Hj].
      + rewrite (absolute_relative w n e c Hc J). apply (IHe KElem k' IRoot ltac:(cbn [size] in B; lia) F HK). left. reflexivity.
    - destruct (kind_pred_all k e ps k' HK) as (E & _). pose proof (IHe k k' c ltac:(cbn [size] in B; lia) F E Hc) as Ne. destruct (pred_kept e ps c k k' B HK Hc) as (P & ls & out & Els & Eo & K). rewrite Els in Ne. cbn [fst] in Ne.
      rewrite Eo. cbn [fst]. clear - K Ne. revert K Ne. generalize (1). intros pos K. induction K as [pos|pos i l l' Hp K IH|pos i l l' Hp K IH]; intros X; [constructor| |]; inversion X as [|? ? X1 X2]; subst; [|auto].
      constructor; [|auto]. intros Y. apply X1. pose proof (kept_forall _ (fun y => In y l) _ _ _ K) as Z. rewrite !Forall_forall in Z. exact (Z (fun y Hy => Hy) i Y).
  Qed.

  (** Steps backwards *)
  Lemma sorted_rev {A} (R : A -> A -> Prop) l : StronglySorted R l -> StronglySorted (fun x y => R y x) (rev l).
  Proof.
    induction 1 as [|a l S IH F]; [constructor|]. cbn [rev]. apply sorted_app; [exact IH|repeat constructor|]. intros x y Hx [<-|[]]. rewrite Forall_forall in F. apply F, in_rev, Hx.
  Qed.
  Lemma backward_order e : forall k k' c, size e <= bound -> backward e = true -> kind_of k e = Some k' -> of_kind w k c -> in_order (fun i j => precedes w j i) (eval w n e c).
  Proof.
    induction e as [l|e IHe|l op r IHl IHr|dd|dd e IHe|ax t|e ps IHe IHps|t|u|v|f l IHl|l IHl] using expr_ind'; intros k k' c B F HK Hc; try discriminate.
    - unfold in_order. destruct ax; try discriminate; destruct k; try discriminate; cbn [of_kind] in Hc.
      + rewrite eval_step. destruct Hc as [->|(a & m & ats & ks & -> & E)]; [repeat constructor|].
        destruct (ancestor_axis w n t a (XE m ats ks) E) as (l & L & ->); [do 3 eexists; reflexivity|]. cbn [fst].
        apply sorted_app; [apply sorted_rev; exact (sorted_nodes _ l L)|repeat constructor|]. intros x y Hx [<-|[]]. apply in_rev in Hx. apply nodes_in in Hx as (b & u & -> & _). constructor.
      + destruct (elem_cases w c Hc) as [->|[->|(p & i & u & -> & E & U)]].
        * rewrite (proj2 (no_parent_none w n IRoot (or_introl eq_refl) t)). constructor.
        * rewrite (proj2 (no_parent_none w n (INode []) (or_intror eq_refl) t)). constructor.
        * rewrite eval_step. destruct (preceding_sibling_axis w n t p i u We E U) as (l & L & ->). cbn [fst]. apply sorted_rev. exact (sorted_nodes _ l L).
    - destruct (kind_pred_all k e ps k' HK) as (E & _). apply (pred_order e ps c k k' _ B HK Hc). exact (IHe k k' c ltac:(cbn [size] in B; lia) F E Hc).
  Qed.
  Theorem in_line_order e k k' c : size e <= bound -> in_line e = true -> kind_of k e = Some k' -> of_kind w k c -> StronglySorted (direction w e) (fst (eval w n e c)).
  Proof.
    intros B L HK Hc. unfold direction, in_line in *. destruct (backward e) eqn:E; [exact (backward_order e k k' c B E HK Hc)|]. exact (orderly_order e k k' c B L HK Hc).
  Qed.
End Order.
