(** Values, references, truncation. *)
From Verif Require Import PyStr CharClass Parser ParserS ParserM XTree Grammar ParserSpec ParserFrag ParserInv ParserGram ParserMore.

Lemma feed_then (p : str) more evs g : feed [p] = (evs, Suspended g) ->
  feed (p :: more) = add_events evs (sends g (nf more)).
Proof.
  intros H. unfold feed in *. change (p :: more) with ([p] ++ more). rewrite map_app, sends_app, H. reflexivity.
Qed.

(** ** Inside an attribute value *)
Lemma lattrs_prefix done : forall at0 d d', lattrs at0 d d' -> forall c nm k w g st,
  blank w -> is_namestart c = true ->
  M done (mkS (at0 ++ w ++ c :: nm ++ k) CompleteTag g PendStart st d) =
  M done (mkS (c :: nm ++ k) Attribute g PendStart st d').
Proof.
  induction 1 as [w0 d Hw0|w0 a n v rest0 d d' Hw0 Hh Ha Hl IH]; intros c nm k w g st Hw Hc.
  - rewrite app_assoc. rewrite M_eq. unfold mstep, s_complete_tag; cbn [sc ParserS.rest].
    rewrite blank_drop by (auto using blank_app, namestart_ws). cbn [spend andb]. rewrite Hc. red_s.
    apply lprepend_nil.
  - rewrite M_eq. unfold mstep, s_complete_tag; cbn [sc ParserS.rest].
    destruct Hh as (c0 & r & -> & Hc0).
    rewrite <- !app_assoc. cbn [app]. rewrite blank_drop by (auto using namestart_ws).
    cbn [spend andb]. rewrite Hc0. red_s. rewrite lprepend_nil.
    pose proof (lattr_run done _ _ _ Ha (rest0 ++ w ++ c :: nm ++ k) g PendStart st d) as HH. cbn [app] in HH.
    rewrite HH. apply IH; auto.
Qed.

Lemma in_attr_value_run0 done pre evs open n d a q : in_attr_value pre evs open n d a q ->
  exists c nm w1 pre0, a = c :: nm /\ name a /\ blank w1 /\ is_quote q = true /\ pre = pre0 ++ [q] /\ forall k,
    M done (start_state (pre0 ++ k)) =
    lprepend evs (M done (mkS (c :: nm ++ w1 ++ c_eq :: k) Attribute n PendStart open d)).
Proof.
  intros H. destruct H as [t evs open w0 n attrs d w c nm w1 q Ht Hw0 Hn Hat Hh Hw Hwne Hnm Hw1 Hq].
  exists c, nm, w1, (t ++ c_lt :: w0 ++ n ++ attrs ++ w ++ (c :: nm) ++ w1 ++ [c_eq]). repeat split; auto.
  { repeat (rewrite <- !app_assoc; cbn [app]). reflexivity. }
  intros k.
  destruct (proj1 (beginnings done) _ _ _ Ht) as (g & pe & HM).
  repeat (rewrite <- !app_assoc; cbn [app]). rewrite HM. f_equal.
  rewrite M_eq. unfold mstep, s_tag, s_tag_body; cbn [sc ParserS.rest w_pend].
  destruct Hn as (n0 & nr & -> & Hn0 & Hnr). cbn [app].
  rewrite blank_drop by (auto using namestart_ws).
  assert (Hs : (n0 =? c_slash)%N = false) by (apply N.eqb_neq; intros ->; discriminate).
  rewrite Hs. cbn [andb]. rewrite Hn0.
  assert (Hd0 : exists d0 y, attrs ++ w ++ c :: nm ++ w1 ++ c_eq :: k = d0 :: y /\ is_namechar d0 = false).
  { destruct attrs as [|a0 attrs].
    - destruct w as [|x w]; [congruence|]. cbn. do 2 eexists; split; [reflexivity|]. apply namechar_ws, Hw. left; auto.
    - cbn. do 2 eexists; split; [reflexivity|]. destruct (is_namechar a0) eqn:E; auto. exfalso. apply Hh. exists a0, attrs; auto. }
  destruct Hd0 as (d0 & y & Hy & Hd0). rewrite Hy. rewrite dropw_stop, takew_stop by auto. red_s. rewrite lprepend_nil, <- Hy.
  destruct Hnm as (c' & r' & He & Hc' & _). inversion He; subst.
  apply (lattrs_prefix done attrs [] d Hat c' r'); auto.
Qed.

Lemma in_attr_value_run done pre evs open n d a q : in_attr_value pre evs open n d a q ->
  exists c nm w1, a = c :: nm /\ name a /\ blank w1 /\ is_quote q = true /\ forall k,
    M done (start_state (pre ++ k)) =
    lprepend evs (M done (mkS (c :: nm ++ w1 ++ c_eq :: q :: k) Attribute n PendStart open d)).
Proof.
  intros H. destruct (in_attr_value_run0 done _ _ _ _ _ _ _ H) as (c & nm & w1 & pre0 & Ha & Hn & Hw & Hq & -> & HM).
  exists c, nm, w1. repeat split; auto. intros k. rewrite <- app_assoc. apply HM.
Qed.

(** Reading the value. *)
Lemma attr_value_step done c nm w1 q k g pe st d : namechars nm -> blank w1 -> is_quote q = true ->
  mstep done (mkS (c :: nm ++ w1 ++ c_eq :: q :: k) Attribute g pe st d) =
  match s_cdata (attr_pat q) [q] k with
  | SCNeed => s_noa done (mkS (q :: k) Attribute g pe st d)
  | SCRaise e => Raise e []
  | SCDone v r4 => Fall (mkS (tl r4) CompleteTag g pe st (dict_set d (c :: nm) v)) []
  end.
Proof.
  intros Hn Hw Hq. unfold mstep, s_attribute; cbn [sc ParserS.rest].
  destruct (name_drop nm w1 c_eq (q :: k) Hn Hw eq_refl) as [-> ->].
  destruct (w1 ++ c_eq :: q :: k) eqn:E; [destruct w1; discriminate|]. rewrite <- E. clear E.
  rewrite blank_drop by auto. change (c_eq =? c_eq)%N with true. cbn match. rewrite Hq. reflexivity.
Qed.

Lemma name_inv c nm : name (c :: nm) -> is_namestart c = true /\ namechars nm.
Proof. intros (c' & r & H & H1 & H2). inversion H; subst. split; auto. Qed.

Lemma in_attr_ne pre evs open n d a q : in_attr_value pre evs open n d a q -> pre <> [].
Proof. intros H; destruct H. destruct t; discriminate. Qed.

Theorem attr_value_delivered (pre : str) evs open n d a q (raw v : str) :
  in_attr_value pre evs open n d a q -> cdata (droppable q) (value_char q) raw v ->
  exists g, feed [pre ++ raw ++ [q; c_gt]] = (evs ++ [EvStart n (dict_set d a v) (rev open)], Suspended g).
Proof.
  intros H Hc. destruct (in_attr_value_run false _ _ _ _ _ _ _ H) as (c & nm & w1 & -> & Hn & Hw1 & Hq & HM).
  apply name_inv in Hn as [_ Hn].
  pose proof (feed_one (pre ++ raw ++ [q; c_gt]) (app_ne _ _ (in_attr_ne _ _ _ _ _ _ _ H))) as Hf.
  rewrite HM in Hf. rewrite M_eq in Hf. rewrite attr_value_step in Hf by auto.
  rewrite (value_run _ _ _ _ Hq Hc) in Hf. cbn [flow_run tl] in Hf. rewrite lprepend_nil in Hf.
  rewrite (lattrs_run false [] _ _ (las_nil [] _ ltac:(intros x []))  []) in Hf.
  unfold after, s_after_gt in Hf; cbn in Hf. destruct Hf as (s & Hf & _). eauto.
Qed.

(** ** References (C08, C16) *)
Section Prefix.
  Variables (p : chr -> bool) (stop : chr).
  Hypothesis Hamp : p c_amp = false.
  Hypothesis Hne : stop <> c_amp.
  Lemma cdata_prefix raw v : cdata (droppable stop) p raw v -> forall k,
    s_cdata p [stop] (raw ++ k) = scd_app v (s_cdata p [stop] k).
  Proof.
    induction 1 as [|c raw v Hc H IH|body c raw v Hr H IH|c raw v [Hd1 Hd2] Hc H IH]; intros k; cbn [app].
    - destruct (s_cdata p [stop] k); reflexivity.
    - rewrite s_cdata_eq, Hc, IH. destruct (s_cdata p [stop] k); reflexivity.
    - rewrite s_cdata_eq, Hamp, char_in_single.
      replace (c_amp =? stop)%N with false by (symmetry; apply N.eqb_neq; auto).
      change (c_amp =? c_amp)%N with true. cbn match. rewrite <- app_assoc. cbn [app].
      rewrite (s_ref_refers _ _ _ Hr), IH. destruct (s_cdata p [stop] k); reflexivity.
    - rewrite s_cdata_eq, Hc, char_in_single.
      replace (c =? stop)%N with false by (symmetry; apply N.eqb_neq; auto).
      replace (c =? c_amp)%N with false by (symmetry; apply N.eqb_neq; auto). apply IH.
  Qed.
  Lemma cdata_prefix_ref raw v k : cdata (droppable stop) p raw v ->
    s_cdata p [stop] (raw ++ c_amp :: k) =
    match s_ref k with
    | SROk c k' => scd_app (v ++ [c]) (s_cdata p [stop] k')
    | SRNeed => SCNeed
    | SRRaise e => SCRaise e
    end.
  Proof.
    intros H. rewrite (cdata_prefix _ _ H). rewrite s_cdata_eq, Hamp, char_in_single.
    replace (c_amp =? stop)%N with false by (symmetry; apply N.eqb_neq; auto).
    change (c_amp =? c_amp)%N with true. cbn match.
    destruct (s_ref k); try reflexivity. destruct (s_cdata p [stop] rest); cbn; rewrite <- ?app_assoc; reflexivity.
  Qed.
End Prefix.

Lemma lt_ne_amp : c_lt <> c_amp. Proof. intro H; vm_compute in H; discriminate H. Qed.

Lemma wrong_reference_raises body e k : wrong_reference body e -> s_ref (body ++ c_semi :: k) = SRRaise e.
Proof.
  intros H. destruct H as [ds e Hd He|n Hn Hk].
  - cbn [app s_ref]. change (c_hash =? c_hash)%N with true. change (c_x =? c_x)%N with true. cbn match.
    unfold s_hexref. rewrite dropw_stop, takew_stop by auto. change (c_semi =? c_semi)%N with true. cbn match.
    unfold int16, s_charcheck.
    destruct He as [[-> ->]|[(Hne & H & ->)|[(Hne & H & ->)|(Hne & H & Hc & ->)]]]; [reflexivity| | | ];
      (destruct ds as [|d0 ds]; [congruence|]; rewrite hex_number_value by auto; set (n := hex_number (d0 :: ds)) in *).
    + replace (0x80000000 <=? n)%N with true by (symmetry; apply N.leb_le; lia). reflexivity.
    + replace (0x80000000 <=? n)%N with false by (symmetry; apply N.leb_gt; lia).
      replace (0x110000 <=? n)%N with true by (symmetry; apply N.leb_le; lia). reflexivity.
    + replace (0x80000000 <=? n)%N with false by (symmetry; apply N.leb_gt; lia).
      replace (0x110000 <=? n)%N with false by (symmetry; apply N.leb_gt; lia). rewrite Hc. reflexivity.
  - assert (Hnr : s_namedref (n ++ c_semi :: k) = SRRaise RtUnknownRef).
    { unfold s_namedref. rewrite dropw_stop, takew_stop by auto. change (c_semi =? c_semi)%N with true. cbn match.
      destruct (lookup_charname charnames n) eqn:E; auto. exfalso. apply Hk. cbn [In].
      cbn [lookup_charname charnames] in E.
      repeat (match type of E with context [str_eqb ?a ?b] => let E1 := fresh "E1" in destruct (str_eqb a b) eqn:E1;
        [apply str_eqb_eq in E1; subst n; cbn; tauto|] end). discriminate. }
    unfold s_ref. destruct n as [|c n]; [exact Hnr|]. cbn [app] in *.
    assert (Hc : (c =? c_hash)%N = false) by (apply alnum_not, Hn; left; auto). rewrite Hc. exact Hnr.
Qed.

Theorem wrong_reference_in_text (p : str) evs top open (raw v body : str) e (k : str) :
  after_tag p evs (top :: open) -> cdata (droppable c_lt) is_datachar raw v -> wrong_reference body e ->
  feed [p ++ raw ++ c_amp :: body ++ c_semi :: k] = (evs, Raised e).
Proof.
  intros Hp Hc Hr.
  pose proof (feed_one (p ++ raw ++ c_amp :: body ++ c_semi :: k) (app_ne _ _ (after_tag_ne _ _ _ Hp))) as Hf.
  destruct (after_tag_run_false _ _ _ Hp) as (g & pe & HM). rewrite HM in Hf.
  rewrite M_eq in Hf. cbn [state_in] in Hf. unfold mstep, s_in_element in Hf; cbn [sc ParserS.rest] in Hf.
  rewrite (cdata_prefix_ref is_datachar c_lt eq_refl lt_ne_amp _ _ _ Hc) in Hf.
  rewrite (wrong_reference_raises _ _ _ Hr) in Hf. cbn in Hf. rewrite app_nil_r in Hf. exact Hf.
Qed.

Theorem wrong_reference_in_value (pre : str) evs open n d a q (raw v body : str) e (k : str) :
  in_attr_value pre evs open n d a q -> cdata (droppable q) (value_char q) raw v -> wrong_reference body e ->
  feed [pre ++ raw ++ c_amp :: body ++ c_semi :: k] = (evs, Raised e).
Proof.
  intros H Hc Hr. destruct (in_attr_value_run false _ _ _ _ _ _ _ H) as (c & nm & w1 & -> & Hn & Hw1 & Hq & HM).
  apply name_inv in Hn as [_ Hn]. destruct (quote_facts q Hq) as (_ & Hqa & Hqn).
  pose proof (feed_one (pre ++ raw ++ c_amp :: body ++ c_semi :: k) (app_ne _ _ (in_attr_ne _ _ _ _ _ _ _ H))) as Hf.
  rewrite HM in Hf. rewrite M_eq in Hf. rewrite attr_value_step in Hf by auto.
  rewrite (cdata_prefix_ref _ _ Hqa Hqn _ _ _ Hc) in Hf.
  rewrite (wrong_reference_raises _ _ _ Hr) in Hf. cbn in Hf. rewrite app_nil_r in Hf. exact Hf.
Qed.

(** Text is delivered when the next tag ends; here an end tag. *)
Theorem text_delivered (p : str) evs top open (raw v en : str) :
  after_tag p evs (top :: open) -> cdata (droppable c_lt) is_datachar raw v -> lend en top ->
  exists g, feed [p ++ raw ++ en] =
    (evs ++ (match v with [] => [] | _ => [EvChars v] end) ++ [EvEnd top (rev open)], Suspended g).
Proof.
  intros Hp Hc He.
  pose proof (at_end _ _ _ _ _ (am_text _ _ _ _ _ _ Hp Hc) He) as Ha.
  destruct (after_tag_feed _ _ _ Ha) as (s & Hs). exists (GRun s).
  rewrite <- app_assoc in Hs. etransitivity; [exact Hs|]. rewrite <- app_assoc, text_events. reflexivity.
Qed.

(** ** Malformed references stall (C16) *)
Lemma bad_reference_need b f : bad_reference b -> s_ref (b ++ f) = SRNeed.
Proof.
  intros (a & c & k & -> & Ha & Hc & Hs & Hh). rewrite <- app_assoc. cbn [app].
  assert (Hn : s_namedref (a ++ c :: k ++ f) = SRNeed).
  { unfold s_namedref. rewrite dropw_stop by auto. apply N.eqb_neq in Hs. rewrite Hs. reflexivity. }
  unfold s_ref. destruct a as [|a0 a]; cbn [app] in *.
  - destruct (c =? c_hash)%N eqn:E; [|exact Hn]. apply N.eqb_eq in E.
    destruct (Hh eq_refl E) as (d & k' & -> & Hd). cbn [app] in *. apply N.eqb_neq in Hd. rewrite Hd. exact Hn.
  - assert (H0 : (a0 =? c_hash)%N = false) by (apply alnum_not, Ha; left; auto). rewrite H0. exact Hn.
Qed.

Theorem bad_reference_stalls (p : str) evs top open (raw v b : str) (more : list str) :
  after_tag p evs (top :: open) -> cdata (droppable c_lt) is_datachar raw v -> bad_reference b ->
  exists g, feed ((p ++ raw ++ c_amp :: b) :: more) = (evs, Suspended g).
Proof.
  intros Hp Hc Hb.
  pose proof (feed_one (p ++ raw ++ c_amp :: b) (app_ne _ _ (after_tag_ne _ _ _ Hp))) as Hf.
  destruct (after_tag_run_false _ _ _ Hp) as (g & pe & HM). rewrite HM in Hf.
  assert (Hst : forall f, M false (mkS (raw ++ c_amp :: b ++ f) InElement g pe (top :: open) []) =
                 LStop (mkS (raw ++ c_amp :: b ++ f) InElement g pe (top :: open) []) []).
  { intros f. rewrite M_eq. unfold mstep, s_in_element; cbn [sc ParserS.rest].
    rewrite (cdata_prefix_ref is_datachar c_lt eq_refl lt_ne_amp _ _ _ Hc).
    rewrite bad_reference_need by auto. reflexivity. }
  cbn [state_in] in Hf. pose proof (Hst []) as H0. rewrite app_nil_r in H0. rewrite H0 in Hf.
  cbn [lprepend] in Hf. rewrite app_nil_r in Hf. destruct Hf as (s & Hf & Hok & Habs).
  assert (G : forall more w s f, ok_in w s -> abs s = mkS (raw ++ c_amp :: b ++ f) InElement g pe (top :: open) [] ->
    exists g', sends (GRun s) (nf more) = ([], Suspended g')).
  { clear - Hst. induction more as [|x more IH]; intros w s f Hok Ha; cbn [nf map].
    - cbn. eauto.
    - rewrite sends_cons. destruct x as [|c x].
      + cbn [send]. destruct (IH w s f Hok Ha) as (g' & Hg). unfold nf in Hg. unfold add_events. rewrite Hg. cbn. eauto.
      + set (F := c :: x). pose proof (send_M w s F false Hok ltac:(discriminate)) as Hs.
        rewrite Ha in Hs. unfold ext, w_rest in Hs; cbn [ParserS.rest sc sgi spend sstk satt] in Hs.
        replace ((raw ++ c_amp :: b ++ f) ++ F) with (raw ++ c_amp :: b ++ (f ++ F)) in Hs
          by (repeat (rewrite <- ?app_assoc; cbn [app]); reflexivity).
        rewrite Hst in Hs. destruct Hs as (g0 & -> & s' & -> & Hok' & Ha').
        destruct (IH _ s' (f ++ F) Hok' Ha') as (g' & Hg). unfold nf in Hg. unfold add_events. rewrite Hg. cbn. eauto. }
  destruct (G more _ s [] Hok) as (g' & Hg).
  { rewrite app_nil_r. exact Habs. }
  exists g'. etransitivity; [exact (feed_then _ more _ _ Hf)|].
  rewrite Hg. unfold add_events; cbn. rewrite app_nil_r. reflexivity.
Qed.

(** ** Dropped characters (C15) *)
Lemma cdata_filter stop p raw : ~ In stop raw -> ~ In c_amp raw -> cdata (droppable stop) p raw (filter p raw).
Proof.
  induction raw as [|c raw IH]; cbn [filter In]; intros H1 H2; [constructor|].
  destruct (p c) eqn:E; [apply cd_char|apply cd_drop]; auto. split; intros ->; tauto.
Qed.

(** ** A cut inside a value (C02) *)
Lemma plain_need p stop v : (forall c, In c v -> p c = true) -> s_cdata p [stop] v = SCNeed.
Proof.
  induction v as [|c v IH]; intros H; rewrite s_cdata_eq; [reflexivity|].
  rewrite H by (left; auto). rewrite IH; [reflexivity|]. intros; apply H; right; auto.
Qed.

Lemma dropw_suffix p q k u : p q = false -> exists u', dropw p (u ++ q :: k) = u' ++ q :: k /\ incl u' u.
Proof.
  intros Hq. induction u as [|c u IH]; cbn [app dropw].
  - rewrite Hq. exists []. split; auto. intros x [].
  - destruct (p c).
    + destruct IH as (u' & -> & Hi). exists u'. split; auto. intros x Hx. right; auto.
    + exists (c :: u). split; auto. intros x Hx; auto.
Qed.

Theorem cut_in_value (pre : str) evs open n d a q (v1 v2 k : str) :
  in_attr_value pre evs open n d a q ->
  (forall c, In c v1 -> value_char q c = true) -> ~ In c_eq (v1 ++ v2) ->
  feed [pre ++ v1; v2 ++ q :: k] = (evs, Raised RtExpectedEq).
Proof.
  intros H Hv Heq. destruct (in_attr_value_run false _ _ _ _ _ _ _ H) as (c & nm & w1 & -> & Hn & Hw1 & Hq & HM).
  apply name_inv in Hn as [_ Hn]. destruct (quote_facts q Hq) as (_ & Hqa & Hqn).
  pose proof (feed_one (pre ++ v1) (app_ne _ _ (in_attr_ne _ _ _ _ _ _ _ H))) as Hf.
  rewrite HM in Hf. rewrite M_eq in Hf. rewrite attr_value_step in Hf by auto.
  rewrite plain_need in Hf by auto. cbn [s_noa flow_run lprepend] in Hf. rewrite app_nil_r in Hf. destruct Hf as (s & Hf & Hok & Habs).
  etransitivity; [exact (feed_then _ _ _ _ Hf)|]. cbn [nf map]. rewrite sends_cons.
  assert (Hfr : v2 ++ q :: k <> []) by (destruct v2; discriminate).
  pose proof (send_M _ s (v2 ++ q :: k) false Hok Hfr) as Hs. rewrite Habs in Hs.
  unfold ext, w_rest in Hs; cbn [ParserS.rest sc sgi spend sstk satt app] in Hs.
  assert (Hqc : is_namechar q = false /\ is_ws q = false /\ (q =? c_eq)%N = false).
  { apply quote_not_amp in Hq as [->| ->]; repeat split. }
  destruct Hqc as (Hq1 & Hq2 & Hq3).
  assert (HR : M false (mkS (q :: v1 ++ v2 ++ q :: k) Attribute n PendStart open d) = LRaise RtExpectedEq []).
  { rewrite M_eq. unfold mstep, s_attribute; cbn [sc ParserS.rest]. rewrite app_assoc.
    destruct (dropw_suffix is_namechar q k (v1 ++ v2) Hq1) as (u & -> & Hu).
    destruct (dropw_suffix is_ws q k u Hq2) as (u2 & Hd2 & Hu2).
    destruct (u ++ q :: k) eqn:E; [destruct u; discriminate|]. rewrite Hd2.
    destruct u2 as [|c2 u2]; cbn [app]; [rewrite Hq3; reflexivity|].
    assert (Hc2 : (c2 =? c_eq)%N = false).
    { apply N.eqb_neq. intros ->. apply Heq, Hu, Hu2. left; auto. }
    rewrite Hc2. reflexivity. }
  rewrite HR in Hs. rewrite Hs. unfold add_events; cbn. rewrite app_nil_r. reflexivity.
Qed.

(** ** Truncation (C11) *)
Lemma mstep_same done s s' e :
  mstep false s = Fall s' e \/ mstep false s = Again s' e -> mstep done s = mstep false s.
Proof.
  destruct done; auto. intros H. destruct s as [r c g pe st at0]. unfold mstep in *; cbn [sc] in *. destruct c.
  - unfold s_pre_element, s_noa in *; cbn [sc ParserS.rest] in *. destruct (dropw is_ws r); auto. destruct H as [H|H]; discriminate.
  - unfold s_in_element, s_noa in *; cbn [sc ParserS.rest] in *. destruct (s_cdata _ _ _); auto. destruct H as [H|H]; discriminate.
  - unfold s_tag, s_tag_body, s_noa in *; cbn [sc ParserS.rest w_pend] in *. destruct (dropw is_ws r); [destruct H as [H|H]; discriminate|].
    destruct (_ && _); auto. destruct (is_namestart _); auto. destruct (dropw is_namechar _); auto. destruct H as [H|H]; discriminate.
  - unfold s_tag, s_tag_body, s_noa in *; cbn [sc ParserS.rest w_pend] in *. destruct (dropw is_ws r); [destruct H as [H|H]; discriminate|].
    destruct (_ && _); auto. destruct (is_namestart _); auto. destruct (dropw is_namechar _); auto. destruct H as [H|H]; discriminate.
  - unfold s_complete_tag, s_after_gt, s_noa in *; cbn [sc ParserS.rest] in *. destruct (dropw is_ws r) as [|c0 l]; [destruct H as [H|H]; discriminate|].
    destruct (_ && _); auto. destruct (_ =? _)%N; auto. destruct pe; cbn [spend sstk sgi ParserS.rest] in *.
    + destruct l; auto. destruct H as [H|H]; discriminate.
    + destruct st; auto. destruct (str_eqb _ _); auto. destruct l; auto. destruct H as [H|H]; discriminate.
  - unfold s_complete_doc, s_noa in *; cbn [sc ParserS.rest] in *. destruct r; auto. destruct (dropw _ _); auto. destruct H as [H|H]; discriminate.
  - unfold s_attribute, s_noa in *; cbn [sc ParserS.rest] in *. destruct r; [destruct H as [H|H]; discriminate|].
    destruct (dropw is_namechar _); [destruct H as [H|H]; discriminate|].
    destruct (dropw is_ws _) as [|cc l1]; [destruct H as [H|H]; discriminate|]. destruct (_ =? _)%N; auto.
    destruct l1; [destruct H as [H|H]; discriminate|]. destruct (is_quote _); auto.
    destruct (s_cdata _ _ _); auto. destruct H as [H|H]; discriminate.
Qed.

Lemma qscan_ws_tag s : forallb is_ws s = true -> qscan MTag s = MTag.
Proof. apply qscan_const. apply qstep_ws_tag. Qed.
Lemma qscan_nm_tag s : forallb is_namechar s = true -> qscan MTag s = MTag.
Proof. apply qscan_const. apply qstep_name_tag. Qed.

Lemma truncated_stop m s s' e : mode_inv m s -> in_value (qscan m (rest s)) = false ->
  mstep false s = Need s' e -> sc s' <> CompleteDoc ->
  (mstep true s = Again s' [] /\ stuck (mstep true) s' /\ e = []) \/
  (exists t, rest s = t ++ [c_gt] /\ qscan m t = MTag /\ mstep true s = Break s' e) \/
  (exists t, rest s = t ++ [c_eq] /\ mstep true s = Raise IndexErr [] /\ e = []).
Proof.
  intros Hm Hv E Hsc. pose proof (incomplete_in_value m s Hm) as Hinc.
  destruct s as [r c g pe st at0]. unfold mstep in *; cbn [sc] in *. destruct c.
  - unfold s_pre_element, s_noa in *; cbn [sc ParserS.rest] in *. destruct (dropw is_ws r); [|destruct (_ =? _)%N; discriminate].
    inversion E; subst. left. split; [reflexivity|]. split; auto. left. reflexivity.
  - unfold s_in_element, s_noa in *; cbn [sc ParserS.rest] in *. destruct (s_cdata _ _ _) eqn:Ed; inversion E; subst.
    left. split; [reflexivity|]. split; auto. left. unfold mstep, s_in_element; cbn [sc ParserS.rest]. rewrite Ed. reflexivity.
  - unfold s_tag, s_tag_body, s_noa in *; cbn [sc ParserS.rest w_pend] in *. destruct (dropw is_ws r) as [|c0 x] eqn:E0.
    { inversion E; subst. left. split; [reflexivity|]. split; auto. left. reflexivity. }
    destruct (c0 =? c_slash)%N eqn:Es; cbn [andb] in *; [discriminate|]. destruct (is_namestart c0) eqn:En; [|discriminate].
    destruct (dropw is_namechar x) eqn:E1; inversion E; subst.
    left. split; [reflexivity|]. split; auto. left. unfold mstep, s_tag, s_tag_body, w_rest; cbn [sc ParserS.rest w_pend spend].
    cbn [dropw]. rewrite (dropw_head _ _ _ _ E0). rewrite Es. cbn [andb]. rewrite En, E1. reflexivity.
  - unfold s_tag, s_tag_body, s_noa in *; cbn [sc ParserS.rest w_pend andb] in *. destruct (dropw is_ws r) as [|c0 x] eqn:E0.
    { inversion E; subst. left. split; [reflexivity|]. split; auto. left. reflexivity. }
    destruct (is_namestart c0) eqn:En; [|discriminate].
    destruct (dropw is_namechar x) eqn:E1; inversion E; subst.
    left. split; [reflexivity|]. split; auto. left. unfold mstep, s_tag, s_tag_body, w_rest; cbn [sc ParserS.rest w_pend spend andb].
    cbn [dropw]. rewrite (dropw_head _ _ _ _ E0). rewrite En, E1. reflexivity.
  - unfold mode_inv in Hm; cbn [sc] in Hm. subst m.
    unfold s_complete_tag, s_after_gt, s_noa in *; cbn [sc ParserS.rest] in *. destruct (dropw is_ws r) as [|c0 l] eqn:E0.
    { inversion E; subst. left. split; [reflexivity|]. split; auto. left. reflexivity. }
    destruct (_ && _); [discriminate|]. destruct (c0 =? c_gt)%N eqn:Eg; [|discriminate]. apply N.eqb_eq in Eg; subst c0.
    pose proof (ws_split _ _ _ E0) as Hr.
    destruct pe; cbn [spend sstk sgi ParserS.rest] in *.
    + destruct l; [|discriminate]. right; left. exists (takew is_ws r). split; auto.
      split; [apply qscan_ws_tag, takew_all|]. inversion E; subst. reflexivity.
    + destruct st; [discriminate|]. destruct (str_eqb _ _); [|discriminate]. destruct l; [|discriminate].
      right; left. exists (takew is_ws r). split; auto. split; [apply qscan_ws_tag, takew_all|]. inversion E; subst. reflexivity.
  - unfold s_complete_doc, s_noa in *; cbn [sc ParserS.rest] in *. destruct r; [discriminate|]. destruct (dropw _ _); inversion E; subst.
    exfalso. apply Hsc. reflexivity.
  - assert (Hsame : forall X, X = s_noa true (mkS r Attribute g pe st at0) -> mstep true (mkS r Attribute g pe st at0) = X ->
      Need (mkS r Attribute g pe st at0) [] = Need s' e -> s' = mkS r Attribute g pe st at0 /\ e = [] /\ stuck (mstep true) s').
    { intros X HX HmX Hn. inversion Hn; subst. repeat split. left. exact HmX. }
    unfold s_attribute in *; cbn [sc ParserS.rest] in *. destruct r as [|c0 r0].
    { unfold s_noa in E. destruct (Hsame _ eq_refl eq_refl E) as (-> & -> & Hst). left. split; auto. }
    destruct (dropw is_namechar r0) as [|c1 r1] eqn:E1.
    { unfold s_noa in E. destruct (fun H => Hsame _ eq_refl H E) as (-> & -> & Hst).
      - unfold mstep, s_attribute; cbn [sc ParserS.rest]. rewrite E1. reflexivity.
      - left. split; auto. }
    destruct (dropw is_ws (c1 :: r1)) as [|c r2] eqn:E2.
    { unfold s_noa in E. destruct (fun H => Hsame _ eq_refl H E) as (-> & -> & Hst).
      - unfold mstep, s_attribute; cbn [sc ParserS.rest]. rewrite E1, E2. reflexivity.
      - left. split; auto. }
    destruct (c =? c_eq)%N eqn:Ec; [|discriminate]. apply N.eqb_eq in Ec; subst c.
    destruct r2 as [|q r3].
    { inversion E; subst. right; right. exists (c0 :: takew is_namechar r0 ++ takew is_ws (c1 :: r1)). split; [|auto].
      cbn [app]. f_equal. rewrite <- app_assoc. rewrite <- E2, takew_dropw, <- E1, takew_dropw. reflexivity. }
    destruct (is_quote q) eqn:Eq; [|discriminate].
    destruct (s_cdata (attr_pat q) [q] r3) eqn:Ed; try discriminate.
    exfalso. rewrite Hinc in Hv; [discriminate|]. unfold value_incomplete. cbn [sc ParserS.rest].
    split; auto. exists c0, (takew is_namechar r0), (takew is_ws (c1 :: r1)), q, r3.
    repeat split; auto using takew_all.
    f_equal. rewrite <- E2, takew_dropw, <- E1, takew_dropw. reflexivity.
Qed.

Lemma M_true_same : forall k m s, mu s <= k -> mode_inv m s -> in_value (qscan m (rest s)) = false ->
  forall s' e, M false s = LStop s' e -> sc s' <> CompleteDoc ->
  M true s = LHang e \/
  (exists t, rest s = t ++ [c_gt] /\ qscan m t = MTag) \/
  (exists t, rest s = t ++ [c_eq]).
Proof.
  assert (Hstep : forall m s s1 e1 s' e, mode_inv m s ->
    (mstep false s = Fall s1 e1 \/ mstep false s = Again s1 e1) -> M false s = LStop s' e ->
    exists e2 b, M false s1 = LStop s' e2 /\ e = e1 ++ e2 /\ rest s = b ++ rest s1 /\ mode_inv (qscan m b) s1 /\
      forall h, M true s1 = LHang h -> M true s = LHang (e1 ++ h)).
  { intros m s s1 e1 s' e Hm Hs HM.
    pose proof (mstep_same true s s1 e1 Hs) as Hsame.
    destruct (mode_step m s s1 e1 Hm Hs) as (b & Hb & Hm').
    rewrite (M_eq false s) in HM. rewrite (M_eq true s), Hsame.
    destruct Hs as [Hs|Hs]; rewrite Hs in *; cbn [flow_run] in *;
      (destruct (M false s1) as [s2 e2|x e2|e2]; cbn [lprepend] in HM; inversion HM; subst;
       exists e2, b; repeat split; auto; intros h ->; reflexivity). }
  induction k as [k IHk] using lt_wf_ind. intros m s Hk Hm Hv s' e HM Hsc.
  assert (Hrec : forall s1 e1, (mstep false s = Fall s1 e1 \/ mstep false s = Again s1 e1) ->
    M true s = LHang e \/ (exists t, rest s = t ++ [c_gt] /\ qscan m t = MTag) \/ (exists t, rest s = t ++ [c_eq])).
  { intros s1 e1 Hs. destruct (Hstep m s s1 e1 s' e Hm Hs HM) as (e2 & b & HM1 & -> & Hb & Hm1 & Hh).
    destruct (mstep_decreasing false s s1 e1 Hs) as [Hd|Hd].
    - destruct (IHk (mu s1) ltac:(lia) (qscan m b) s1 (le_n _) Hm1) with (s' := s') (e := e2) as [H|[(t & Ht & Hq)|(t & Ht)]]; auto.
      + rewrite <- qscan_app, <- Hb. exact Hv.
      + right; left. exists (b ++ t). rewrite <- app_assoc, <- Ht. split; auto. rewrite qscan_app. exact Hq.
      + right; right. exists (b ++ t). rewrite <- app_assoc, <- Ht. auto.
    - rewrite (M_stuck false s1 Hd) in HM1. discriminate. }
  destruct (mstep false s) as [s1 e1|s1 e1|s1 e1|s1 e1|x e1] eqn:E.
  - eauto.
  - eauto.
  - rewrite M_eq, E in HM. cbn [flow_run] in HM. inversion HM; subst.
    destruct (truncated_stop m s s' e Hm Hv E Hsc) as [(H1 & H2 & ->)|[(t & H1 & H2 & _)|(t & H1 & _)]]; eauto.
    left. rewrite M_eq, H1. cbn [flow_run]. rewrite (M_stuck true s' H2). reflexivity.
  - rewrite M_eq, E in HM. cbn [flow_run] in HM. inversion HM; subst. exfalso. apply Hsc.
    revert E. clear. destruct s as [r c g pe st at0]. unfold mstep; cbn [sc]. intros E. destruct c.
    + unfold s_pre_element, s_noa in *; cbn [sc ParserS.rest] in *. destruct (dropw is_ws r); [discriminate|]. destruct (_ =? _)%N; discriminate.
    + unfold s_in_element, s_noa in *; cbn [sc ParserS.rest] in *. destruct (s_cdata _ _ _); discriminate.
    + unfold s_tag, s_tag_body, s_noa in *; cbn [sc ParserS.rest w_pend] in *. destruct (dropw is_ws r); [discriminate|].
      destruct (_ && _); [discriminate|]. destruct (is_namestart _); [|discriminate]. destruct (dropw is_namechar _); discriminate.
    + unfold s_tag, s_tag_body, s_noa in *; cbn [sc ParserS.rest w_pend] in *. destruct (dropw is_ws r); [discriminate|].
      destruct (_ && _); [discriminate|]. destruct (is_namestart _); [|discriminate]. destruct (dropw is_namechar _); discriminate.
    + unfold s_complete_tag, s_after_gt, s_noa in *; cbn [sc ParserS.rest] in *. destruct (dropw is_ws r) as [|c0 l]; [discriminate|].
      destruct (_ && _); [discriminate|]. destruct (_ =? _)%N; [|discriminate]. destruct pe; cbn [spend sstk sgi ParserS.rest] in *.
      * destruct l; discriminate.
      * destruct st; [discriminate|]. destruct (str_eqb _ _); [|discriminate]. destruct l; discriminate.
    + unfold s_complete_doc, s_noa in *; cbn [sc ParserS.rest] in *. destruct r; [inversion E; reflexivity|]. destruct (dropw _ _); [discriminate|]. discriminate.
    + unfold s_attribute, s_noa in *; cbn [sc ParserS.rest] in *. destruct r; [discriminate|].
      destruct (dropw is_namechar _); [discriminate|]. destruct (dropw is_ws _) as [|cc l1]; [discriminate|]. destruct (_ =? _)%N; [|discriminate].
      destruct l1; [discriminate|]. destruct (is_quote _); [|discriminate]. destruct (s_cdata _ _ _); discriminate.
  - rewrite M_eq, E in HM. discriminate.
Qed.

Theorem truncated_one_shot (text : str) evs g :
  text <> [] -> feed [text] = (evs, Suspended g) -> ~ complete_document evs ->
  ends_in_value text = false -> ~ closes_tag text -> (forall t, text <> t ++ [c_eq]) ->
  sends new_parser [(text, true)] = (evs, Hung).
Proof.
  intros Hne Hf Hc Hv Hg He. destruct (feed_suspended _ _ _ Hf) as (s & ->).
  rewrite (complete_iff _ _ _ Hf) in Hc.
  pose proof (feed_one text Hne) as Ho. rewrite final_one by auto.
  destruct (M false (start_state text)) as [s' e|x e|e] eqn:EM;
    [|rewrite Hf in Ho; discriminate|rewrite Hf in Ho; discriminate].
  destruct Ho as (s2 & Ho & _ & Ha). rewrite Hf in Ho. inversion Ho; subst.
  destruct (M_true_same _ MText (start_state text) (le_n _) (mode_start text) Hv _ _ EM Hc) as [->|[(t & Ht & Hq)|(t & Ht)]].
  - reflexivity.
  - exfalso. apply Hg. exists t. auto.
  - exfalso. eapply He, Ht.
Qed.

(** Errors and hangs are not undone by more input. *)
Lemma M_more_bad f : f <> [] -> forall k s, mu s <= k ->
  (forall x e, M false s = LRaise x e -> M false (ext s f) = LRaise x e) /\
  (forall e, M false s = LHang e -> M false (ext s f) = LHang e).
Proof.
  intros Hf. induction k as [k IHk] using lt_wf_ind. intros s Hk.
  assert (Hstep : forall s' e, mstep false s = Fall s' e \/ mstep false s = Again s' e ->
    M false s = lprepend e (M false s') /\ M false (ext s f) = lprepend e (M false (ext s' f))).
  { intros s' e Hs. rewrite (M_eq false (ext s f)), (M_eq false s), (mstep_ext s s' e f Hs).
    destruct Hs as [Hs|Hs]; rewrite Hs; cbn [flow_ext flow_map flow_run]; auto. }
  assert (Hrec : forall s' e, mstep false s = Fall s' e \/ mstep false s = Again s' e ->
     (forall x e, M false s = LRaise x e -> M false (ext s f) = LRaise x e) /\
     (forall e, M false s = LHang e -> M false (ext s f) = LHang e)).
  { intros s' e Hs. destruct (Hstep s' e Hs) as [H1 H2]. rewrite H1, H2.
    destruct (mstep_decreasing false s s' e Hs) as [Hd|Hd].
    - destruct (IHk (mu s') ltac:(lia) s' (le_n _)) as [IH1 IH2].
      split; [intros x|]; intros e0 H; destruct (M false s') eqn:E; cbn [lprepend] in H; inversion H; subst.
      + rewrite (IH1 _ _ eq_refl). reflexivity.
      + rewrite (IH2 _ eq_refl). reflexivity.
    - rewrite (M_stuck _ _ Hd), (M_ext_stuck f s' Hd). auto. }
  destruct (mstep false s) as [s' e|s' e|s' e|s' e|x e] eqn:E; eauto.
  - rewrite (M_eq false s), E. cbn [flow_run]. split; intros; discriminate.
  - rewrite (M_eq false s), E. cbn [flow_run]. split; intros; discriminate.
  - rewrite (M_eq false (ext s f)), (mstep_ext_raise _ _ _ f E), (M_eq false s), E. cbn. split; intros; congruence.
Qed.

Lemma lenient_doc_then done (text : str) t : lenient_doc text t -> forall f,
  exists g w2, blank w2 /\ M done (start_state (text ++ f)) =
    lprepend (doc_events t) (M done (mkS (w2 ++ f) CompleteDoc g PendEnd [] [])).
Proof.
  intros (w1 & e & w2 & -> & H1 & H2 & He) f. pose proof (lenient_elem_lt _ _ He) as Hlt.
  destruct (proj1 (lenient_run done) e t He (w2 ++ f) [] PendStart []) as (g' & Hr).
  exists g', w2. split; auto.
  cbn [state_in] in Hr. rewrite after_complete in Hr by reflexivity. change (rev (@nil str)) with (@nil str) in Hr.
  unfold start_state. rewrite M_eq. unfold mstep, s_pre_element; cbn [sc ParserS.rest].
  repeat rewrite <- app_assoc.
  rewrite Hlt. cbn [app]. rewrite blank_drop by auto.
  change (c_lt =? c_lt)%N with true. red_s. rewrite lprepend_nil. exact Hr.
Qed.

Lemma not_blank_forallb s : ~ blank s -> forallb is_ws s = false.
Proof.
  intros H. destruct (forallb is_ws s) eqn:E; auto. exfalso. apply H. intros c Hc.
  rewrite forallb_forall in E. auto.
Qed.

Theorem truncated_suspends (p f : str) t : lenient_doc (p ++ f) t -> ~ blank f ->
  exists evs g later, feed [p] = (evs, Suspended g) /\ ~ complete_document evs /\ doc_events t = evs ++ later.
Proof.
  intros H Hb. destruct (parse_lenient _ _ H) as [(g0 & Hw) _].
  assert (Hfne : f <> []) by (intros ->; apply Hb; intros c []).
  destruct p as [|c0 p0] eqn:Ep.
  { exists [], (GRun init_pst), (doc_events t). repeat split. apply document_events_nonnil. }
  rewrite <- Ep in *. assert (Hne : p <> []) by (subst; discriminate). clear Ep.
  pose proof (feed_one p Hne) as Hf.
  pose proof (feed_one (p ++ f) (app_ne _ _ Hne)) as Hpf.
  destruct (M_more_bad f Hfne _ (start_state p) (le_n _)) as [H1 H2].
  change (ext (start_state p) f) with (start_state (p ++ f)) in *.
  destruct (M false (start_state p)) as [s' e|x e|e] eqn:EM.
  - destruct Hf as (s & Hf & _). exists e, (GRun s).
    destruct (feed_streaming p f) as (later & Hl). rewrite Hw, Hf in Hl. cbn [fst] in Hl.
    exists later. repeat split; auto. intros Hc.
    destruct (proj1 (parse_complete_iff p e)) as (t' & Ht' & ->); [split; eauto|].
    destruct (lenient_doc_then false _ _ Ht' f) as (g & w2 & Hw2 & HM). rewrite HM in Hpf.
    rewrite M_eq in Hpf. unfold mstep, s_complete_doc in Hpf; cbn [sc ParserS.rest] in Hpf.
    assert (Hd : dropw is_ws (w2 ++ f) <> []).
    { intros Hd. apply Hb. intros c Hc'. pose proof (dropw_nil_all _ _ Hd) as Hall. rewrite forallb_forall in Hall. apply Hall. apply in_or_app; auto. }
    destruct (w2 ++ f) as [|c l] eqn:E; [destruct w2, f; cbn in E; congruence|].
    destruct (dropw is_ws (c :: l)) eqn:E2; [congruence|]. cbn [flow_run lprepend] in Hpf.
    pose proof (eq_trans (eq_sym Hw) Hpf) as HH. discriminate HH.
  - rewrite (H1 _ _ eq_refl) in Hpf. exfalso. pose proof (eq_trans (eq_sym Hw) Hpf) as HH. discriminate HH.
  - rewrite (H2 _ eq_refl) in Hpf. exfalso. pose proof (eq_trans (eq_sym Hw) Hpf) as HH. discriminate HH.
Qed.

(** ** The accumulating handler (C19) *)
Lemma h_fold evs : forall l, fold_left h_send (map Some evs) (HWait l) = HWait (l ++ map Some evs).
Proof.
  induction evs as [|e evs IH]; intros l; cbn [map fold_left]; [rewrite app_nil_r; reflexivity|].
  cbn [h_send]. rewrite IH, <- app_assoc. reflexivity.
Qed.
Theorem accumulated_items evs : accumulated evs = None :: map Some evs.
Proof. unfold accumulated. cbn [h_send new_handler]. rewrite h_fold. reflexivity. Qed.

(** ** Repeated attributes (C17) *)
Lemma dict_set_old {A} (d : dict A) a v : In a (map fst d) -> map fst (dict_set d a v) = map fst d.
Proof.
  induction d as [|[k w] d IH]; cbn; [tauto|]. intros H. destruct (str_eqb k a) eqn:E; cbn; [apply str_eqb_eq in E; subst; reflexivity|].
  f_equal. apply IH. destruct H as [->|H]; auto. rewrite str_eqb_refl in E. discriminate.
Qed.
