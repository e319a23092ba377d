(** Serialisations that cannot be read back (C25), and indentation (C79). *)
From Verif Require Import PyStr CharClass Parser ParserS ParserM XTree Grammar ParserSpec ParserFrag ParserInv ParserGram ParserMore ParserVal ParserClass.
From Verif Require Import Tree TreeSpec TreeFacts.

(** ** Beginnings of documents extend by elements and content *)
Lemma beginning_elem :
  (forall e t, lenient_elem e t -> forall p evs open, at_markup p evs open ->
     after_tag (p ++ e) (evs ++ tree_events (rev open) t) open) /\
  (forall c ks, lenient_content c ks -> forall p evs n open, after_tag p evs (n :: open) ->
     at_markup (p ++ c) (evs ++ forest_events (rev (n :: open)) ks) (n :: open)).
Proof.
  assert (H : forall P : Prop, P -> P) by auto.
  split.
  - apply (lenient_elem_mut
      (fun e t => forall p evs open, at_markup p evs open -> after_tag (p ++ e) (evs ++ tree_events (rev open) t) open)
      (fun c ks => forall p evs n open, after_tag p evs (n :: open) ->
         at_markup (p ++ c) (evs ++ forest_events (rev (n :: open)) ks) (n :: open))).
    + intros st n d content kids en Hs _ IH He p evs open Hp.
      pose proof (at_start _ _ _ _ _ _ Hp Hs) as H1. apply IH in H1. pose proof (at_end _ _ _ _ _ H1 He) as H2.
      cbn [tree_events]. cbn [rev] in H2. unfold forest_events in H2. rewrite <- !app_assoc in *. exact H2.
    + intros raw v Hc p evs n open Hp. rewrite text_events_any. apply am_text; auto.
    + intros raw v e t rest ks Hc _ IHe _ IHc p evs n open Hp.
      pose proof (am_text _ _ _ _ _ _ Hp Hc) as H1. apply IHe in H1. apply IHc in H1.
      rewrite <- (text_events_any (rev (n :: open))) in H1. unfold forest_events in *. rewrite flat_map_app. cbn [flat_map].
      rewrite <- !app_assoc in *. exact H1.
  - apply (lenient_content_mut
      (fun e t => forall p evs open, at_markup p evs open -> after_tag (p ++ e) (evs ++ tree_events (rev open) t) open)
      (fun c ks => forall p evs n open, after_tag p evs (n :: open) ->
         at_markup (p ++ c) (evs ++ forest_events (rev (n :: open)) ks) (n :: open))).
    + intros st n d content kids en Hs _ IH He p evs open Hp.
      pose proof (at_start _ _ _ _ _ _ Hp Hs) as H1. apply IH in H1. pose proof (at_end _ _ _ _ _ H1 He) as H2.
      cbn [tree_events]. cbn [rev] in H2. unfold forest_events in H2. rewrite <- !app_assoc in *. exact H2.
    + intros raw v Hc p evs n open Hp. rewrite text_events_any. apply am_text; auto.
    + intros raw v e t rest ks Hc _ IHe _ IHc p evs n open Hp.
      pose proof (am_text _ _ _ _ _ _ Hp Hc) as H1. apply IHe in H1. apply IHc in H1.
      rewrite <- (text_events_any (rev (n :: open))) in H1. unfold forest_events in *. rewrite flat_map_app. cbn [flat_map].
      rewrite <- !app_assoc in *. exact H1.
Qed.

Lemma encode_start n a : name n -> NoDup (map fst a) -> (forall k v, In (k, v) a -> name k /\ plain_value v) ->
  lstart (c_lt :: n ++ concat (attr_bits a) ++ [c_gt]) n (norm_attrs a).
Proof.
  intros Hn Hnd Ha. apply (ls [] n (concat (attr_bits a)) (norm_attrs a)); auto.
  - intros x [].
  - right; auto.
  - apply (attrs_lenient a Ha Hnd []). auto.
  - apply attrs_head.
  - intros ->. destruct Hn as (c & r & H & _). discriminate.
Qed.

Definition kid_text (k : xtree) : str := match k with XE _ _ _ => xml_encode k | XT s => py_escape s end.
Lemma encode_content ks : (forall k, In k ks -> writable k) ->
  lenient_content (flat_map kid_text ks) (fold_right (fun k acc => cons_node (normal k) acc) [] ks).
Proof.
  induction ks as [|k ks IH]; intros Hk; [apply (lc_last [] []); constructor|].
  cbn [flat_map fold_right]. specialize (IH (fun x Hx => Hk x (or_intror Hx))).
  destruct k as [n a l|s].
  - pose proof (encode_lenient (XE n a l) (Hk _ (or_introl eq_refl))) as H. cbn beta iota in H.
    change (normal (XE n a l)) with (XE n (norm_attrs a) (fold_right (fun k acc => cons_node (normal k) acc) [] l)) in *.
    cbn [cons_node]. apply content_elem; auto.
  - cbn [normal cons_node]. apply content_text; auto. apply escape_cdata.
Qed.

(** ** Finding the first bad value *)
Definition plainb (v : str) : bool := negb (char_in c_tab v || char_in c_nl v || char_in c_cr v).
Lemma plainb_iff v : plainb v = true <-> plain_value v.
Proof.
  unfold plainb, plain_value. rewrite negb_true_iff, !orb_false_iff, !char_in_not. tauto.
Qed.
Fixpoint goodb (t : xtree) : bool :=
  match t with XE n a ks => forallb (fun kv => plainb (snd kv)) a && forallb goodb ks | XT _ => true end.
Lemma goodb_writable t : named t -> goodb t = true -> writable t.
Proof.
  induction t as [n a ks IH|s] using xtree_ind'; [|constructor]. intros Hn Hg. inversion Hn as [n' a' ks' H1 H2 H3 H4|]; subst.
  cbn [goodb] in Hg. apply andb_true_iff in Hg as [Hg1 Hg2]. rewrite forallb_forall in Hg1, Hg2. constructor; auto.
  - intros k v Hi. split; [eapply H3; eauto|]. apply plainb_iff. apply (Hg1 _ Hi).
  - intros k Hi. rewrite Forall_forall in IH. auto.
Qed.
Lemma goodb_break t : has_line_break_value t -> goodb t = false.
Proof.
  induction 1 as [n a ks k v Hi Hv|n a ks k Hi _ IH]; cbn [goodb]; apply not_true_iff_false; rewrite andb_true_iff, !forallb_forall; intros [H1 H2].
  - apply Hv, plainb_iff, (H1 _ Hi).
  - rewrite (H2 _ Hi) in IH. congruence.
Qed.
Lemma first_false {A} (p : A -> bool) l : forallb p l = false ->
  exists a x b, l = a ++ x :: b /\ p x = false /\ forall y, In y a -> p y = true.
Proof.
  induction l as [|x l IH]; cbn; [discriminate|]. destruct (p x) eqn:E; cbn.
  - intros H. destruct (IH H) as (a & y & b & -> & Hy & Ha). exists (x :: a), y, b. split; [reflexivity|]. split; auto.
    intros z [<-|Hz]; auto.
  - intros _. exists [], x, l. split; [reflexivity|]. split; [auto|intros y []].
Qed.

Lemma NoDup_left {A} (l m : list A) : NoDup (l ++ m) -> NoDup l.
Proof.
  induction l as [|x l IH]; cbn; intros H; [constructor|]. inversion H; subst. constructor; auto.
  intros Hi. apply H2. apply in_or_app; auto.
Qed.

(** ** A value with a line break is never read to its end *)
Definition breakb (c : chr) : bool := ((c =? c_tab) || (c =? c_nl) || (c =? c_cr))%N.
Lemma plain_breakb v : forallb (fun c => negb (breakb c)) v = true <-> plain_value v.
Proof.
  rewrite forallb_forall. unfold plain_value, breakb. split.
  - intros H. repeat split; intros Hi; specialize (H _ Hi); discriminate.
  - intros (H1 & H2 & H3) x Hx. rewrite negb_true_iff, !orb_false_iff, !N.eqb_neq. repeat split; intros ->; auto.
Qed.

Lemma break_ref c : breakb c = true -> exists b, esc2 c = c_amp :: b /\ bad_reference b.
Proof.
  unfold breakb. rewrite !orb_true_iff, !N.eqb_eq. intros [[->| ->]| ->].
  - exists (lit "#9;"). split; [reflexivity|]. exists [], c_hash, (lit "9;"). repeat split; try discriminate; try (intros x []).
    exists 57%N, (lit ";"). split; [reflexivity|discriminate].
  - exists (lit "#10;"). split; [reflexivity|]. exists [], c_hash, (lit "10;"). repeat split; try discriminate; try (intros x []).
    exists 49%N, (lit "0;"). split; [reflexivity|discriminate].
  - exists (lit "#13;"). split; [reflexivity|]. exists [], c_hash, (lit "13;"). repeat split; try discriminate; try (intros x []).
    exists 49%N, (lit "3;"). split; [reflexivity|discriminate].
Qed.

Lemma quoteattr_stall v : ~ plain_value v -> exists q raw, py_quoteattr v = q :: raw ++ [q] /\ is_quote q = true /\
  forall k, s_cdata (attr_pat q) [q] (raw ++ k) = SCNeed.
Proof.
  intros Hv.
  assert (Hs : exists v1 c v2, v = v1 ++ c :: v2 /\ plain_value v1 /\ breakb c = true).
  { destruct (forallb (fun c => negb (breakb c)) v) eqn:E; [apply plain_breakb in E; contradiction|].
    destruct (first_false _ _ E) as (v1 & c & v2 & -> & Hc & H1). exists v1, c, v2. split; [reflexivity|].
    split; [apply plain_breakb, forallb_forall, H1|]. apply negb_false_iff, Hc. }
  destruct Hs as (v1 & c & v2 & -> & Hp & Hc).
  assert (G : forall q f, is_quote q = true -> (forall c, c <> q -> f c = esc2 c) -> (In q (v1 ++ c :: v2) -> q = c_dq /\ f q = lit "&quot;") ->
     forall k, s_cdata (attr_pat q) [q] (flat_map f (v1 ++ c :: v2) ++ k) = SCNeed).
  { intros q f Hq Hf Hfq k. rewrite flat_map_app. cbn [flat_map]. rewrite <- !app_assoc.
    assert (Hcq : c <> q).
    { intros ->. apply quote_not_amp in Hq as [->| ->]; discriminate. }
    rewrite (Hf c Hcq). destruct (break_ref c Hc) as (b & -> & Hb). cbn [app].
    assert (Hcd : cdata (droppable q) (value_char q) (flat_map f v1) (filter is_character v1)).
    { apply value_escape; auto. intros Hi. apply Hfq. apply in_or_app; auto. }
    destruct (quote_facts q Hq) as (Hq1 & Hq2 & Hq3).
    assert (Hva : value_char q = attr_pat q) by reflexivity.
    rewrite <- Hva. rewrite cdata_prefix_ref with (v := filter is_character v1); auto.
    rewrite bad_reference_need by auto. reflexivity. }
  rewrite py_quoteattr_data. destruct (char_in c_dq (v1 ++ c :: v2)) eqn:E1; [destruct (char_in c_sq (v1 ++ c :: v2)) eqn:E2|].
  - exists c_dq. eexists. split; [reflexivity|]. split; [reflexivity|]. apply G; auto.
    intros x Hx. apply N.eqb_neq in Hx. rewrite Hx. reflexivity.
  - exists c_sq. eexists. split; [reflexivity|]. split; [reflexivity|]. apply G; auto.
    intros H. apply char_in_In in H. congruence.
  - exists c_dq. eexists. split; [reflexivity|]. split; [reflexivity|]. apply G; auto.
    intros H. apply char_in_In in H. congruence.
Qed.

Lemma plain_filter v : plain_value v -> plain_value (filter is_character v).
Proof. intros (H1 & H2 & H3). repeat split; intros H; apply filter_In in H as [H _]; auto. Qed.
Lemma plain_events_app l m : plain_events l -> plain_events m -> plain_events (l ++ m).
Proof. intros H1 H2 n d anc k v Hi Hk. apply in_app_or in Hi as [Hi|Hi]; [eapply H1|eapply H2]; eauto. Qed.
Lemma plain_norm_attrs a : (forall k v, In (k, v) a -> plain_value v) -> forall k v, In (k, v) (norm_attrs a) -> plain_value v.
Proof. intros H k v Hi. apply in_map_iff in Hi as ([k0 v0] & He & Hi). cbn in He. inversion He; subst. apply plain_filter. eauto. Qed.
Lemma plain_cons_node anc k acc : plain_events (tree_events anc k) -> plain_events (forest_events anc acc) -> plain_events (forest_events anc (cons_node k acc)).
Proof.
  intros H1 H2. destruct k as [n a ks|s]; cbn [cons_node].
  - cbn [forest_events flat_map]. apply plain_events_app; auto.
  - assert (H0 : forall l r, plain_events (forest_events anc r) -> plain_events (forest_events anc (XT l :: r))).
    { intros l r H n d an k v Hi Hk. cbn in Hi. destruct Hi as [Hi|Hi]; [discriminate|]. eapply H; eauto. }
    destruct s as [|c s]; [exact H2|]. cbn [cons_text]. destruct acc as [|[n a ks|s'] acc]; apply H0; auto.
    intros n d an k v Hi Hk. eapply H2; [right; exact Hi|exact Hk].
Qed.
Lemma plain_forest anc ks : (forall k, In k ks -> plain_events (tree_events anc (normal k))) ->
  plain_events (forest_events anc (fold_right (fun k acc => cons_node (normal k) acc) [] ks)).
Proof.
  induction ks as [|x ks IHk]; intros H; [intros ? ? ? ? ? []|]. cbn [fold_right].
  apply plain_cons_node; [apply H; left; auto|]. apply IHk; intros; apply H; right; auto.
Qed.
Lemma writable_plain_events t : writable t -> forall anc, plain_events (tree_events anc (normal t)).
Proof.
  induction t as [n a ks IH|s] using xtree_ind'; intros Hw anc.
  - inversion Hw as [n' a' ks' H1 H2 H3 H4|]; subst. cbn [normal tree_events].
    intros n0 d an k v [He|Hi] Hk.
    + inversion He; subst. eapply plain_norm_attrs; [|exact Hk]. intros k0 v0 Hi. apply (H3 k0 v0 Hi).
    + apply in_app_or in Hi as [Hi|[He|[]]]; [|discriminate]. revert n0 d an k v Hi Hk.
      change (plain_events (forest_events (anc ++ [n]) (fold_right (fun k acc => cons_node (normal k) acc) [] ks))).
      rewrite Forall_forall in IH. apply plain_forest. intros k Hk. apply IH; auto.
  - intros n d an k v [He|[]]. discriminate.
Qed.

(** The serialisation of a tree with such a value stops the parser inside the start tag. *)
Lemma break_in_value t : named t -> goodb t = false -> forall p evs open, at_markup p evs open -> plain_events evs ->
  exists pre evs' open' n d a q raw f, p ++ xml_encode t = pre ++ raw ++ f /\ in_attr_value pre evs' open' n d a q /\
    (forall k, s_cdata (attr_pat q) [q] (raw ++ k) = SCNeed) /\ plain_events evs'.
Proof.
  induction t as [n a ks IH|s] using xtree_ind'; [|discriminate]. intros Hn Hg p evs open Hp Hpe.
  inversion Hn as [n' a' ks' H1 H2 H3 H4|]; subst. cbn [goodb] in Hg.
  rewrite encode_elem. destruct (forallb (fun kv => plainb (snd kv)) a) eqn:Ea; cbn [andb] in Hg.
  - rewrite forallb_forall in Ea.
    pose proof (encode_start n a H1 H2 (fun k v Hi => conj (H3 k v Hi) (proj1 (plainb_iff v) (Ea _ Hi)))) as Hst.
    pose proof (at_start _ _ _ _ _ _ Hp Hst) as Ht.
    destruct (first_false _ _ Hg) as (k1 & k & k2 & -> & Hk & Hk1).
    assert (Hw : forall x, In x k1 -> writable x).
    { intros x Hx. apply goodb_writable; auto. apply H4. apply in_or_app; auto. }
    pose proof (proj2 beginning_elem _ _ (encode_content k1 Hw) _ _ _ _ Ht) as Hm.
    assert (Hpm : plain_events ((evs ++ [EvStart n (norm_attrs a) (rev open)]) ++ forest_events (rev (n :: open)) (fold_right (fun k acc => cons_node (normal k) acc) [] k1))).
    { apply plain_events_app; [apply plain_events_app; [exact Hpe|]|].
      - intros n0 d an k0 v [He|[]] Hkv. inversion He; subst. eapply plain_norm_attrs; [|exact Hkv].
        intros k3 v3 Hi. apply plainb_iff, (Ea _ Hi).
      - apply plain_forest. intros x Hx. apply writable_plain_events, Hw, Hx. }
    rewrite Forall_forall in IH.
    assert (Hin : In k (k1 ++ k :: k2)) by (apply in_or_app; right; left; auto).
    destruct (IH k Hin (H4 _ Hin) Hk _ _ _ Hm Hpm) as (pre & evs' & open' & n1 & d1 & a1 & q & raw & f & He & Hv & Hs).
    exists pre, evs', open', n1, d1, a1, q, raw, (f ++ flat_map kid_text k2 ++ c_lt :: c_slash :: n ++ [c_gt]). split; [|split; [exact Hv|exact Hs]].
    rewrite flat_map_app. cbn [flat_map]. fold kid_text.
    assert (Hke : (match k with XE _ _ _ => xml_encode k | XT s => py_escape s end) = xml_encode k) by (destruct k; [reflexivity|discriminate]).
    rewrite Hke. transitivity ((pre ++ raw ++ f) ++ flat_map kid_text k2 ++ c_lt :: c_slash :: n ++ [c_gt]); [|rewrite <- !app_assoc; reflexivity].
    rewrite <- He. repeat (rewrite <- !app_assoc; cbn [app]). reflexivity.
  - destruct (first_false _ _ Ea) as (a1 & [k v] & a2 & -> & Hk & Ha1). cbn [snd] in Hk.
    assert (Hv : ~ plain_value v) by (rewrite <- plainb_iff; congruence).
    destruct (quoteattr_stall v Hv) as (q & raw & Hq & Hqq & Hs).
    assert (Hnk : name k) by (apply (H3 k v); apply in_or_app; right; left; auto).
    destruct Hnk as (c & r & -> & Hc & Hr).
    exists (p ++ c_lt :: [] ++ n ++ concat (attr_bits a1) ++ [c_sp] ++ (c :: r) ++ [] ++ [c_eq; q]).
    exists evs, open, n, (norm_attrs a1), (c :: r), q, raw. eexists. split; [|split].
    2:{ apply iav; auto.
        - intros x [].
        - apply (attrs_lenient a1); auto.
          + intros k0 v0 Hi. split; [apply (H3 k0 v0); apply in_or_app; auto|]. apply plainb_iff, (Ha1 _ Hi).
          + rewrite map_app in H2. eapply NoDup_left; eauto.
        - apply attrs_head.
        - intros x [<-|[]]. reflexivity.
        - discriminate.
        - exists c, r. auto.
        - intros x []. }
    2:{ split; [exact Hs|exact Hpe]. }
    unfold attr_bits. rewrite flat_map_app, concat_app. cbn [flat_map fst snd app concat]. rewrite Hq.
    repeat (rewrite <- !app_assoc; cbn [app]). reflexivity.
Qed.

Theorem break_incomplete t : named t -> has_line_break_value t -> forall k,
  exists evs g, feed [xml_encode t ++ k] = (evs, Suspended g) /\ ~ complete_document evs /\ plain_events evs.
Proof.
  intros Hn Hb k.
  destruct (break_in_value t Hn (goodb_break t Hb) [] [] [] (am_root [] ltac:(intros x [])) ltac:(intros ? ? ? ? ? []))
    as (pre & evs & open & n & d & a & q & raw & f & He & Hv & Hs & Hpe).
  cbn [app] in He. rewrite He. rewrite <- !app_assoc.
  destruct (in_attr_value_run false _ _ _ _ _ _ _ Hv) as (c & nm & w1 & -> & Hnm & Hw1 & Hq & HM).
  apply name_inv in Hnm as [_ Hnm].
  pose proof (feed_one (pre ++ raw ++ f ++ k) (app_ne _ _ (in_attr_ne _ _ _ _ _ _ _ Hv))) as Hf.
  rewrite HM in Hf. rewrite M_eq in Hf. rewrite attr_value_step in Hf by auto.
  rewrite Hs in Hf. cbn [s_noa flow_run lprepend] in Hf. rewrite app_nil_r in Hf. destruct Hf as (s & Hf & Hok & Habs).
  exists evs, (GRun s). split; [exact Hf|]. split; [|exact Hpe]. rewrite (complete_iff _ _ _ Hf), Habs. discriminate.
Qed.

(** ** Indentation (C79) *)
Fixpoint indented (indent : str) (depth : nat) (t : xtree) : xtree :=
  match t with
  | XE n a ks => XE n a (XT (concat (indent_bits indent depth)) ::
      flat_map (fun k => match k with
                         | XE _ _ _ => [indented indent (S depth) k; XT (concat (indent_bits indent depth))]
                         | XT _ => [k] end) ks)
  | XT s => XT s
  end.

Lemma escape_plain s : ~ In c_amp s -> ~ In c_lt s -> ~ In c_gt s -> py_escape s = s.
Proof.
  rewrite py_escape_map. intros H1 H2 H3. induction s as [|c s IH]; [reflexivity|]. cbn [flat_map In] in *.
  rewrite esc1_char by (intros ->; tauto). cbn. f_equal. apply IH; tauto.
Qed.
Lemma indent_blank indent depth : blank indent -> blank (concat (indent_bits indent depth)).
Proof.
  intros H. unfold indent_bits. destruct indent as [|c i]; [intros x []|]. cbn [concat app]. rewrite app_nil_r.
  intros x [<-|Hx]; [reflexivity|]. induction depth as [|d IH]; cbn in Hx; [destruct Hx|].
  apply in_app_or with (l := c :: i) in Hx as [Hx|Hx]; auto.
Qed.
Lemma escape_blank w : blank w -> py_escape w = w.
Proof. intros H. apply escape_plain; intros Hi; apply H in Hi; discriminate. Qed.

Lemma encode_indented indent t : blank indent -> forall depth,
  match t with XE _ _ _ => element_encode indent depth t = xml_encode (indented indent depth t) | XT _ => True end.
Proof.
  intros Hi. induction t as [n a ks IH|s] using xtree_ind'; intros depth; [|auto].
  cbn [indented]. rewrite encode_elem. cbn [element_encode flat_map].
  set (w := concat (indent_bits indent depth)). unfold py_join. rewrite !concat_app. cbn [concat app]. fold w.
  rewrite (escape_blank w) by (apply indent_blank; auto).
  assert (Hk : concat (flat_map (fun k => match k with
             | XE _ _ _ => element_encode indent (S depth) k :: indent_bits indent depth
             | XT s => [py_escape s] end) ks) =
    flat_map (fun k => match k with XE _ _ _ => xml_encode k | XT s => py_escape s end)
      (flat_map (fun k => match k with XE _ _ _ => [indented indent (S depth) k; XT w] | XT _ => [k] end) ks)).
  { induction IH as [|k ks Hk _ IHk]; [reflexivity|]. cbn [flat_map]. rewrite concat_app, flat_map_app, IHk. f_equal.
    destruct k as [n0 a0 l0|s0]; cbn [flat_map concat]; rewrite ?app_nil_r; [|reflexivity].
    specialize (Hk (S depth)). cbn beta iota in Hk. rewrite Hk. fold w. rewrite (escape_blank w) by (apply indent_blank; auto).
    cbn [indented]. reflexivity. }
  rewrite Hk. rewrite !app_nil_r. cbn [app lit]. repeat (rewrite <- !app_assoc; cbn [app]). reflexivity.
Qed.

Lemma indented_writable indent t : writable t -> forall depth, writable (indented indent depth t).
Proof.
  induction t as [n a ks IH|s] using xtree_ind'; intros Hw depth; [|constructor]. inversion Hw as [n' a' ks' H1 H2 H3 H4|]; subst.
  cbn [indented]. constructor; auto. intros k [<-|Hk]; [constructor|]. apply in_flat_map in Hk as (x & Hx & Hk).
  rewrite Forall_forall in IH. specialize (IH x Hx (H4 x Hx)). destruct x as [n0 a0 l0|s0].
  - destruct Hk as [<-|[<-|[]]]; [apply IH|constructor].
  - destruct Hk as [<-|[]]. constructor.
Qed.

Lemma skeleton_text s anc l : skeleton (forest_events anc (cons_text s l)) = map inr (filter visible s) ++ skeleton (forest_events anc l).
Proof.
  unfold skeleton, forest_events. destruct s as [|c s]; [reflexivity|]. cbn [cons_text]. destruct l as [|[n a k|s2] l].
  - cbn [flat_map tree_events app skeleton1]. reflexivity.
  - cbn [flat_map]. rewrite flat_map_app. cbn [tree_events flat_map skeleton1]. rewrite app_nil_r. reflexivity.
  - cbn [flat_map tree_events app skeleton1]. change (c :: s ++ s2) with ((c :: s) ++ s2).
    rewrite filter_app, map_app, <- app_assoc. reflexivity.
Qed.
Lemma blank_invisible w : blank w -> filter visible w = [].
Proof.
  intros H. assert (G : forall l, (forall x, In x l -> visible x = false) -> filter visible l = []).
  { induction l as [|x l IH]; intros Hl; [reflexivity|]. cbn. rewrite Hl by (left; auto). apply IH. intros y Hy; apply Hl; right; auto. }
  apply G. intros x Hx. unfold visible. rewrite (H x Hx). reflexivity.
Qed.
Lemma filter_blank p w : blank w -> blank (filter p w).
Proof. intros H x Hx. apply filter_In in Hx. apply H, Hx. Qed.

Lemma cons_node_elem t acc : (exists n a l, t = XE n a l) -> cons_node (normal t) acc = normal t :: acc.
Proof. intros (n & a & l & ->). reflexivity. Qed.
Lemma skeleton_indented indent t : blank indent -> forall depth anc,
  skeleton (tree_events anc (normal (indented indent depth t))) = skeleton (tree_events anc (normal t)).
Proof.
  intros Hi. induction t as [n a ks IH|s] using xtree_ind'; intros depth anc; [|reflexivity].
  cbn [indented normal fold_right]. set (w := concat (indent_bits indent depth)).
  assert (Hw : blank w) by (apply indent_blank; auto).
  assert (Hk : skeleton (forest_events (anc ++ [n]) (fold_right (fun k acc => cons_node (normal k) acc) []
       (flat_map (fun k => match k with XE _ _ _ => [indented indent (S depth) k; XT w] | XT _ => [k] end) ks))) =
    skeleton (forest_events (anc ++ [n]) (fold_right (fun k acc => cons_node (normal k) acc) [] ks))).
  { induction IH as [|k ks Hk _ IHk]; [reflexivity|]. cbn [flat_map]. destruct k as [n0 a0 l0|s0].
    - specialize (Hk (S depth) (anc ++ [n])). cbn [app fold_right].
      rewrite (cons_node_elem (indented indent (S depth) (XE n0 a0 l0))) by (cbn; eauto).
      rewrite (cons_node_elem (XE n0 a0 l0)) by eauto.
      unfold forest_events in *. cbn [flat_map]. unfold skeleton in *. rewrite !flat_map_app. rewrite Hk. f_equal.
      rewrite <- IHk. cbn [normal cons_node].
      etransitivity; [apply (skeleton_text (filter is_character w) (anc ++ [n]))|].
      rewrite (blank_invisible (filter is_character w)) by (apply filter_blank; auto). reflexivity.
    - cbn [app fold_right normal cons_node]. rewrite !skeleton_text. f_equal. exact IHk. }
  cbn [cons_node]. unfold skeleton in *. cbn [tree_events flat_map]. rewrite !flat_map_app. f_equal. f_equal.
  change (skeleton (forest_events (anc ++ [n]) (cons_text (filter is_character w) (fold_right (fun k acc => cons_node (normal k) acc) []
       (flat_map (fun k => match k with XE _ _ _ => [indented indent (S depth) k; XT w] | XT _ => [k] end) ks)))) =
    skeleton (forest_events (anc ++ [n]) (fold_right (fun k acc => cons_node (normal k) acc) [] ks))).
  rewrite skeleton_text, (blank_invisible (filter is_character w)) by (apply filter_blank; auto). exact Hk.
Qed.
