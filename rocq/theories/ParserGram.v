(** The parser and the lenient grammar: each completed parse is a derivation and
    conversely. *)
From Verif Require Import PyStr CharClass Parser ParserS ParserM XTree Grammar ParserSpec ParserFrag ParserInv.

(** ** Character data *)
Lemma hex_digit_value c : is_hex c = true -> hex_digit c = digit_value c.
Proof.
  unfold is_hex, hex_digit, digit_value, in_range. rewrite !orb_true_iff, !andb_true_iff, !N.leb_le.
  intros H.
  destruct (48 <=? c)%N eqn:E1, (c <=? 57)%N eqn:E2, (65 <=? c)%N eqn:E3, (c <=? 70)%N eqn:E4; cbn;
    rewrite ?N.leb_le, ?N.leb_gt in *; lia.
Qed.
Lemma hex_number_value ds : (forall d, In d ds -> is_hex d = true) -> hex_value ds = hex_number ds.
Proof.
  unfold hex_value. intros H.
  assert (G : forall ds a, (forall d, In d ds -> is_hex d = true) ->
    fold_left (fun a c => a * 16 + hex_digit c)%N ds a = (a * 16 ^ N.of_nat (length ds) + hex_number ds)%N).
  { clear. induction ds as [|d ds IH]; intros a H; [cbn; lia|].
    cbn [fold_left]. rewrite IH by (intros; apply H; right; auto).
    rewrite hex_digit_value by (apply H; left; auto).
    cbn [hex_number length]. rewrite Nat2N.inj_succ, N.pow_succ_r'. lia. }
  rewrite G by auto. lia.
Qed.

Lemma is_character_small n : is_character n = true -> (n < 0x110000)%N.
Proof.
  unfold is_character, high_char, in_range. rewrite !orb_true_iff, !andb_true_iff, !N.leb_le. lia.
Qed.

Lemma forallb_In (p : chr -> bool) l : (forall c, In c l -> p c = true) <-> forallb p l = true.
Proof. rewrite forallb_forall. reflexivity. Qed.

Lemma dropw_stop p a c k : (forall x, In x a -> p x = true) -> p c = false -> dropw p (a ++ c :: k) = c :: k.
Proof. intros H Hc. rewrite dropw_skip by (apply forallb_In; auto). cbn. rewrite Hc. reflexivity. Qed.
Lemma takew_stop p a c k : (forall x, In x a -> p x = true) -> p c = false -> takew p (a ++ c :: k) = a.
Proof. intros H Hc. rewrite takew_skip by (apply forallb_In; auto). cbn. rewrite Hc. apply app_nil_r. Qed.

Lemma s_ref_refers body c k : refers body c -> s_ref (body ++ c_semi :: k) = SROk c k.
Proof.
  intros H. destruct H; try reflexivity.
  cbn [app s_ref]. change (c_hash =? c_hash)%N with true. change (c_x =? c_x)%N with true. cbn match.
  unfold s_hexref. rewrite dropw_stop, takew_stop by auto. change (c_semi =? c_semi)%N with true. cbn match.
  unfold int16. destruct ds as [|d ds]; [congruence|]. rewrite hex_number_value by auto.
  pose proof (is_character_small _ H1). unfold s_charcheck.
  replace (0x80000000 <=? hex_number (d :: ds))%N with false by (symmetry; apply N.leb_gt; lia).
  replace (0x110000 <=? hex_number (d :: ds))%N with false by (symmetry; apply N.leb_gt; lia).
  rewrite H1. reflexivity.
Qed.

Lemma s_ref_inv s c x : s_ref s = SROk c x -> exists body, s = body ++ c_semi :: x /\ refers body c.
Proof.
  assert (Hn : forall s, s_namedref s = SROk c x -> exists body, s = body ++ c_semi :: x /\ refers body c).
  { intros s0. unfold s_namedref. destruct (dropw is_alnum s0) as [|d y] eqn:Ed; [discriminate|].
    destruct (d =? c_semi)%N eqn:E; [|discriminate]. apply N.eqb_eq in E; subst d.
    destruct (lookup_charname charnames (takew is_alnum s0)) eqn:El; [|discriminate].
    intros H; inversion H; subst. exists (takew is_alnum s0). rewrite <- Ed, takew_dropw. split; auto.
    revert El. cbn [lookup_charname charnames].
    repeat match goal with |- context [str_eqb ?a ?b] => destruct (str_eqb a b) eqn:?E end;
      intros Hx; inversion Hx; subst;
      match goal with H : str_eqb _ _ = true |- _ => apply str_eqb_eq in H; rewrite H end; constructor. }
  unfold s_ref. destruct s as [|d s]; [discriminate|].
  destruct (d =? c_hash)%N eqn:Eh; [|apply Hn]. destruct s as [|d2 s]; [discriminate|].
  destruct (d2 =? c_x)%N eqn:Ex; [|apply Hn].
  apply N.eqb_eq in Eh, Ex; subst d d2.
  unfold s_hexref. destruct (dropw is_hex s) as [|d3 y] eqn:Ed; [discriminate|].
  destruct (d3 =? c_semi)%N eqn:E; [|discriminate]. apply N.eqb_eq in E; subst d3.
  assert (Hall : forall d, In d (takew is_hex s) -> is_hex d = true) by (intros d; apply takew_In).
  unfold int16. destruct (takew is_hex s) as [|t0 t] eqn:Et; [discriminate|].
  rewrite hex_number_value by auto. unfold s_charcheck.
  destruct (_ <=? _)%N; [discriminate|]. destruct (_ <=? _)%N; [discriminate|].
  destruct (is_character _) eqn:Ec; [|discriminate]. intros H; inversion H; subst.
  exists (c_hash :: c_x :: t0 :: t). split.
  - rewrite <- Et. cbn [app]. do 2 f_equal. rewrite <- Ed, takew_dropw. reflexivity.
  - constructor; auto. discriminate.
Qed.

Section CData.
  Variables (p : chr -> bool) (stop : chr).
  Hypothesis Hstop : p stop = false.
  Hypothesis Hamp : p c_amp = false.
  Hypothesis Hne : stop <> c_amp.

  Lemma cdata_run raw v k : cdata (droppable stop) p raw v ->
    s_cdata p [stop] (raw ++ stop :: k) = SCDone v (stop :: k).
  Proof.
    induction 1 as [|c raw v Hc H IH|body c raw v Hr H IH|c raw v [Hd1 Hd2] Hc H IH].
    - cbn [app]. rewrite s_cdata_eq. rewrite Hstop. rewrite char_in_single, N.eqb_refl. reflexivity.
    - cbn [app]. rewrite s_cdata_eq, Hc, IH. reflexivity.
    - cbn [app]. rewrite s_cdata_eq, Hamp, char_in_single.
      replace (c_amp =? stop)%N with false by (symmetry; apply N.eqb_neq; auto).
      change (c_amp =? c_amp)%N with true. cbn match.
      rewrite <- app_assoc. cbn [app]. rewrite (s_ref_refers _ _ _ Hr), IH. reflexivity.
    - cbn [app]. rewrite s_cdata_eq, Hc, char_in_single.
      replace (c =? stop)%N with false by (symmetry; apply N.eqb_neq; auto).
      replace (c =? c_amp)%N with false by (symmetry; apply N.eqb_neq; auto). exact IH.
  Qed.

  Lemma cdata_inv : forall n s v x, length s <= n -> s_cdata p [stop] s = SCDone v x ->
    exists raw y, s = raw ++ stop :: y /\ x = stop :: y /\ cdata (droppable stop) p raw v.
  Proof.
    induction n as [|n IH]; intros s v x Hn H; rewrite s_cdata_eq in H;
      (destruct s as [|c s]; [discriminate|]); cbn [length] in Hn; [lia|].
    destruct (p c) eqn:Ep.
    - destruct (s_cdata p [stop] s) as [d' x'| |] eqn:E; cbn in H; inversion H; subst.
      apply IH in E as (raw & y & -> & -> & Hd); [|lia]. exists (c :: raw), y. repeat split. constructor; auto.
    - rewrite char_in_single in H. destruct (c =? stop)%N eqn:Es.
      { inversion H; subst. apply N.eqb_eq in Es; subst c. exists [], s. repeat split. constructor. }
      destruct (c =? c_amp)%N eqn:Ea.
      + apply N.eqb_eq in Ea; subst c.
        destruct (s_ref s) as [r y| |] eqn:Er; try discriminate. pose proof (s_ref_length _ _ _ Er).
        apply s_ref_inv in Er as (body & -> & Hr).
        destruct (s_cdata p [stop] y) as [d' x'| |] eqn:E; cbn in H; inversion H; subst.
        apply IH in E as (raw & z & -> & -> & Hd); [|lia]. exists (c_amp :: body ++ c_semi :: raw), z.
        split; [cbn [app]; rewrite <- app_assoc; reflexivity|]. split; auto. constructor; auto.
      + apply IH in H as (raw & y & -> & -> & Hd); [|lia]. exists (c :: raw), y. repeat split.
        apply cd_drop; auto. split; apply N.eqb_neq; auto.
  Qed.
End CData.

Lemma text_run raw v k : cdata (droppable c_lt) is_datachar raw v ->
  s_cdata is_datachar [c_lt] (raw ++ c_lt :: k) = SCDone v (c_lt :: k).
Proof. apply cdata_run; reflexivity || discriminate. Qed.
Lemma text_inv s v x : s_cdata is_datachar [c_lt] s = SCDone v x ->
  exists raw y, s = raw ++ c_lt :: y /\ x = c_lt :: y /\ cdata (droppable c_lt) is_datachar raw v.
Proof. intros H. eapply (cdata_inv is_datachar c_lt ltac:(discriminate) (length s) s); eauto. Qed.
Lemma value_char_pat q : value_char q = attr_pat q. Proof. reflexivity. Qed.
Lemma quote_facts q : is_quote q = true -> attr_pat q q = false /\ attr_pat q c_amp = false /\ q <> c_amp.
Proof. intros H. apply quote_not_amp in H as [->| ->]; repeat split; discriminate. Qed.
Lemma value_run q raw v k : is_quote q = true -> cdata (droppable q) (value_char q) raw v ->
  s_cdata (attr_pat q) [q] (raw ++ q :: k) = SCDone v (q :: k).
Proof. intros H. destruct (quote_facts q H) as (? & ? & ?). apply cdata_run; auto. Qed.
Lemma value_inv q s v x : is_quote q = true -> s_cdata (attr_pat q) [q] s = SCDone v x ->
  exists raw y, s = raw ++ q :: y /\ x = q :: y /\ cdata (droppable q) (value_char q) raw v.
Proof. intros H. destruct (quote_facts q H) as (_ & _ & Hq). intros H1. eapply (cdata_inv (attr_pat q) q Hq (length s) s); eauto. Qed.

(** ** From derivations to runs *)
Ltac red_s := cbn [flow_run]; unfold w_sc, w_rest, w_pend; cbn [ParserS.rest sc sgi spend sstk satt].
Ltac red_s_all := cbn [flow_run] in *; unfold w_sc, w_rest, w_pend in *; cbn [ParserS.rest sc sgi spend sstk satt] in *.

Definition after (done : bool) (s : sst) (e : list event) : lres sst := flow_run (M done) (s_after_gt done s e).
Definition state_in (st : list str) : pstate := match st with [] => CompleteDoc | _ => InElement end.

Lemma after_more done s e : rest s <> [] -> after done s e = lprepend e (M done s).
Proof. unfold after, s_after_gt. destruct (rest s); [congruence|]. reflexivity. Qed.
Lemma after_false s e : sc s = InElement \/ sc s = CompleteDoc -> after false s e = lprepend e (M false s).
Proof.
  intros H. destruct (rest s) eqn:E; [|apply after_more; congruence].
  unfold after, s_after_gt. rewrite E. cbn [flow_run]. rewrite M_eq. unfold mstep.
  destruct H as [H|H]; rewrite H.
  - unfold s_in_element. rewrite H, E. rewrite s_cdata_eq. cbn. rewrite app_nil_r. reflexivity.
  - unfold s_complete_doc. rewrite H, E. cbn. rewrite app_nil_r. reflexivity.
Qed.
Lemma after_complete done s e : sc s = CompleteDoc -> after done s e = lprepend e (M done s).
Proof.
  intros H. destruct (rest s) eqn:E; [|apply after_more; congruence].
  unfold after, s_after_gt. rewrite E. rewrite (M_eq done s). unfold mstep. rewrite H.
  unfold s_complete_doc. rewrite H, E. destruct done; cbn; rewrite app_nil_r; reflexivity.
Qed.

Lemma blank_drop w c k : blank w -> is_ws c = false -> dropw is_ws (w ++ c :: k) = c :: k.
Proof. apply dropw_stop. Qed.

Lemma namestart_ws c : is_namestart c = true -> is_ws c = false.
Proof.
  intros H. destruct (is_ws c) eqn:E; auto. apply is_ws_cases in E as [->|[->|[->| ->]]]; discriminate.
Qed.
Lemma namechar_ws c : is_ws c = true -> is_namechar c = false.
Proof. intros E. apply is_ws_cases in E as [->|[->|[->| ->]]]; reflexivity. Qed.

(** dropping name characters before optional white space and a character *)
Lemma name_drop nm w c k : namechars nm -> blank w -> is_namechar c = false ->
  dropw is_namechar (nm ++ w ++ c :: k) = w ++ c :: k /\ takew is_namechar (nm ++ w ++ c :: k) = nm.
Proof.
  intros Hn Hw Hc. destruct w as [|w0 w]; cbn [app].
  - split; [apply dropw_stop|apply takew_stop]; auto.
  - assert (is_namechar w0 = false) by (apply namechar_ws, Hw; left; auto).
    split; [apply dropw_stop|apply takew_stop]; auto.
Qed.

Lemma lattr_run done a n v : lattr a n v -> forall k g pe st d,
  M done (mkS (a ++ k) Attribute g pe st d) = M done (mkS k CompleteTag g pe st (dict_set d n v)).
Proof.
  induction 1 as [c nm w q raw v Hn Hw Hq Hv|c nm w rest0 n v Hn Hw Hh Hl IH]; intros k g pe st d.
  - rewrite M_eq. unfold mstep, s_attribute; cbn [sc ParserS.rest app].
    rewrite <- !app_assoc. cbn [app].
    destruct (name_drop nm w c_eq (q :: (raw ++ [q]) ++ k) Hn Hw eq_refl) as [-> ->].
    rewrite <- app_assoc. cbn [app].
    destruct (w ++ c_eq :: q :: raw ++ q :: k) eqn:E; [destruct w; discriminate|]. rewrite <- E. clear E.
    rewrite blank_drop by auto. change (c_eq =? c_eq)%N with true. cbn match. rewrite Hq.
    rewrite (value_run _ _ _ _ Hq Hv). cbn [flow_run tl sgi spend sstk satt]. apply lprepend_nil.
  - rewrite M_eq. unfold mstep, s_attribute; cbn [sc ParserS.rest app].
    rewrite <- !app_assoc. cbn [app].
    destruct (name_drop nm w c_eq (rest0 ++ k) Hn Hw eq_refl) as [-> _].
    destruct (w ++ c_eq :: rest0 ++ k) eqn:E; [destruct w; discriminate|]. rewrite <- E. clear E.
    rewrite blank_drop by auto. change (c_eq =? c_eq)%N with true. cbn match.
    destruct rest0 as [|q rest0]; [inversion Hl|]. cbn [app].
    destruct (is_quote q) eqn:Eq. { exfalso. apply Hh. exists q, rest0. auto. }
    red_s. rewrite lprepend_nil. apply (IH k).
Qed.

Lemma lattrs_run done : forall at0 d d', lattrs at0 d d' -> forall k g st,
  M done (mkS (at0 ++ c_gt :: k) CompleteTag g PendStart st d) =
  after done (mkS k InElement g PendStart (g :: st) []) [EvStart g d' (rev st)].
Proof.
  induction 1 as [w d Hw|w a n v rest0 d d' Hw Hh Ha Hl IH]; intros k g st.
  - rewrite M_eq. unfold mstep, s_complete_tag; cbn [sc ParserS.rest]. rewrite blank_drop by auto. reflexivity.
  - rewrite M_eq. unfold mstep, s_complete_tag; cbn [sc ParserS.rest].
    destruct Hh as (c & r & -> & Hc).
    rewrite <- !app_assoc. cbn [app]. rewrite blank_drop by (auto using namestart_ws).
    cbn [spend andb]. rewrite Hc. red_s.
    rewrite lprepend_nil.
    pose proof (lattr_run done _ _ _ Ha (rest0 ++ c_gt :: k) g PendStart st d) as HH. cbn [app] in HH.
    rewrite HH. apply IH.
Qed.

Lemma first_not_namechar at0 k c : ~ head_is is_namechar at0 -> is_namechar c = false ->
  exists d r, at0 ++ c :: k = d :: r /\ is_namechar d = false.
Proof.
  intros H Hc. destruct at0 as [|d r]; cbn; [eauto|]. exists d, (r ++ c :: k). split; auto.
  destruct (is_namechar d) eqn:E; auto. exfalso. apply H. exists d, r; auto.
Qed.

Lemma blank_app a b : blank a -> blank b -> blank (a ++ b).
Proof. intros Ha Hb c Hc. apply in_app_or in Hc as [Hc|Hc]; auto. Qed.
Lemma blank_lattrs w d d' : blank w -> lattrs w d d' -> d' = d.
Proof.
  intros Hw H. destruct H; auto. destruct H0 as (c & r & -> & Hc).
  assert (is_ws c = true) by (apply Hw, in_or_app; right; left; auto).
  rewrite (namestart_ws _ Hc) in H0. discriminate.
Qed.

Lemma lstart_run done t n d : lstart t n d -> forall k g pe st,
  M done (mkS (tl t ++ k) PreTagGi g pe st []) =
  after done (mkS k InElement n PendStart (n :: st) []) [EvStart n d (rev st)].
Proof.
  intros H k g pe st. destruct H as [w n attrs d Hw Hn Ha Hh He]. cbn [tl].
  rewrite <- !app_assoc. cbn [app].
  rewrite M_eq. unfold mstep, s_tag, s_tag_body; cbn [sc ParserS.rest w_pend].
  destruct Hn as [->|(c & r & -> & Hc & Hr)].
  - cbn [app]. rewrite app_assoc. pose proof (blank_app _ _ Hw (He eq_refl)) as Hb.
    rewrite blank_drop by auto. change (c_gt =? c_slash)%N with false. change (is_namestart c_gt) with false.
    cbn [andb flow_run sgi spend sstk satt]. rewrite lprepend_nil.
    apply (lattrs_run done []). rewrite (blank_lattrs _ _ _ (He eq_refl) Ha). constructor. intros x [].
  - cbn [app]. rewrite blank_drop by (auto using namestart_ws).
    assert (Hs : (c =? c_slash)%N = false) by (apply N.eqb_neq; intros ->; discriminate).
    rewrite Hs. cbn [andb]. rewrite Hc.
    destruct (first_not_namechar attrs k c_gt Hh eq_refl) as (d0 & y & Hy & Hd0).
    rewrite Hy. rewrite dropw_stop, takew_stop by auto.
    cbn [flow_run sgi spend sstk satt]. rewrite lprepend_nil, <- Hy. apply lattrs_run; auto.
Qed.

Lemma lend_run done t n : lend t n -> forall k g pe st,
  M done (mkS (tl t ++ k) PreTagGi g pe (n :: st) []) =
  after done (mkS k (state_in st) n PendEnd st []) [EvEnd n (rev st)].
Proof.
  intros H k g pe st. destruct H as [w1 w2 n w3 H1 H2 Hn H3]. cbn [tl].
  rewrite <- !app_assoc. cbn [app]. rewrite <- !app_assoc. cbn [app].
  rewrite M_eq. unfold mstep, s_tag, s_tag_body; cbn [sc ParserS.rest w_pend].
  rewrite blank_drop by auto. change (c_slash =? c_slash)%N with true.
  cbn [andb]; red_s. rewrite lprepend_nil.
  rewrite M_eq. unfold mstep, s_tag, s_tag_body; cbn [sc ParserS.rest w_pend andb].
  assert (Hend : forall w, blank w -> M done (mkS (w ++ c_gt :: k) CompleteTag n PendEnd (n :: st) []) =
     after done (mkS k (state_in st) n PendEnd st []) [EvEnd n (rev st)]).
  { intros w Hw. rewrite M_eq. unfold mstep, s_complete_tag; cbn [sc ParserS.rest spend andb sstk sgi].
    rewrite blank_drop by auto. change (c_gt =? c_gt)%N with true. cbn match. rewrite str_eqb_refl. reflexivity. }
  destruct Hn as [->|(c & r & -> & Hc & Hr)].
  - cbn [app]. rewrite app_assoc. rewrite blank_drop by (auto using blank_app).
    change (is_namestart c_gt) with false. cbn [flow_run sgi spend sstk satt]. rewrite lprepend_nil.
    apply (Hend []). intros x [].
  - cbn [app]. rewrite blank_drop by (auto using namestart_ws). rewrite Hc.
    destruct (name_drop r w3 c_gt k Hr H3 eq_refl) as [-> ->].
    destruct (w3 ++ c_gt :: k) eqn:E; [destruct w3; discriminate|]. rewrite <- E.
    cbn [flow_run sgi spend sstk satt]. rewrite lprepend_nil. apply Hend; auto.
Qed.

Lemma lstart_lt t n d : lstart t n d -> t = c_lt :: tl t.
Proof. intros H; destruct H; reflexivity. Qed.
Lemma lend_lt t n : lend t n -> t = c_lt :: tl t.
Proof. intros H; destruct H; reflexivity. Qed.

Lemma lprepend_app_after done s e e' : lprepend e (after done s e') = after done s (e ++ e').
Proof.
  unfold after, s_after_gt. destruct (rest s); [destruct done|]; cbn; rewrite ?lprepend_app; reflexivity.
Qed.

Lemma text_events anc v : forest_events anc (text_node v) = match v with [] => [] | _ => [EvChars v] end.
Proof. destruct v; reflexivity. Qed.
Lemma forest_app anc a b : forest_events anc (a ++ b) = forest_events anc a ++ forest_events anc b.
Proof. apply flat_map_app. Qed.

Lemma text_step done raw v k g pe st : cdata (droppable c_lt) is_datachar raw v ->
  M done (mkS (raw ++ c_lt :: k) InElement g pe st []) =
  lprepend (forest_events (rev st) (text_node v)) (M done (mkS k PreTagGi g pe st [])).
Proof.
  intros H. rewrite M_eq. unfold mstep, s_in_element; cbn [sc ParserS.rest].
  rewrite (text_run _ _ _ H). rewrite text_events. reflexivity.
Qed.

Lemma lenient_run done :
  (forall e t, lenient_elem e t -> forall k g pe st,
     exists g', M done (mkS (tl e ++ k) PreTagGi g pe st []) =
     after done (mkS k (state_in st) g' PendEnd st []) (tree_events (rev st) t)) /\
  (forall c ks, lenient_content c ks -> forall n en k g pe st, lend en n ->
     M done (mkS (c ++ en ++ k) InElement g pe (n :: st) []) =
     after done (mkS k (state_in st) n PendEnd st []) (forest_events (rev (n :: st)) ks ++ [EvEnd n (rev st)])).
Proof.
  set (P := fun e t => e = c_lt :: tl e /\ forall k g pe st,
     exists g', M done (mkS (tl e ++ k) PreTagGi g pe st []) =
     after done (mkS k (state_in st) g' PendEnd st []) (tree_events (rev st) t)).
  set (Q := fun c ks => forall n en k g pe st, lend en n ->
     M done (mkS (c ++ en ++ k) InElement g pe (n :: st) []) =
     after done (mkS k (state_in st) n PendEnd st []) (forest_events (rev (n :: st)) ks ++ [EvEnd n (rev st)])).
  assert (H1 : forall st n d content kids en,
     lstart st n d -> lenient_content content kids -> Q content kids -> lend en n ->
     P (st ++ content ++ en) (XE n d kids)).
  { intros st n d content kids en Hs _ HQ He. pose proof (lstart_lt _ _ _ Hs) as Hlt. split.
    - rewrite Hlt. reflexivity.
    - intros k g pe stk. exists n.
      replace (tl (st ++ content ++ en) ++ k) with (tl st ++ content ++ en ++ k)
        by (rewrite Hlt; cbn; rewrite <- !app_assoc; reflexivity).
      rewrite (lstart_run done _ _ _ Hs). rewrite after_more.
      + rewrite (HQ _ _ k n PendStart stk He). rewrite lprepend_app_after. reflexivity.
      + cbn. rewrite (lend_lt _ _ He). destruct content; discriminate. }
  assert (H2 : forall raw v, cdata (droppable c_lt) is_datachar raw v -> Q raw (text_node v)).
  { intros raw v Hc n en k g pe st He.
    rewrite (lend_lt _ _ He) at 1. cbn [app]. rewrite (text_step done _ _ _ _ _ _ Hc).
    rewrite (lend_run done _ _ He). apply lprepend_app_after. }
  assert (H3 : forall raw v e t rest0 ks, cdata (droppable c_lt) is_datachar raw v ->
     lenient_elem e t -> P e t -> lenient_content rest0 ks -> Q rest0 ks ->
     Q (raw ++ e ++ rest0) (text_node v ++ t :: ks)).
  { intros raw v e t rest0 ks Hc _ [Hlt HP] _ HQ n en k g pe st He.
    rewrite <- !app_assoc. rewrite Hlt. cbn [app]. rewrite (text_step done _ _ _ _ _ _ Hc).
    destruct (HP (rest0 ++ en ++ k) g pe (n :: st)) as (g' & ->). rewrite after_more.
    - rewrite HQ by auto. rewrite !lprepend_app_after. f_equal.
      rewrite forest_app. cbn [forest_events flat_map]. rewrite <- !app_assoc. reflexivity.
    - cbn. rewrite (lend_lt _ _ He). destruct rest0; discriminate. }
  split.
  - intros e t H. eapply (lenient_elem_mut P Q H1 H2 H3 e t H).
  - intros c ks H. eapply (lenient_content_mut P Q H1 H2 H3 c ks H).
Qed.

Lemma lenient_elem_lt e t : lenient_elem e t -> e = c_lt :: tl e.
Proof. intros H. inversion H; subst. rewrite (lstart_lt _ _ _ H0). reflexivity. Qed.

Lemma complete_blank done w g pe : blank w ->
  M done (mkS w CompleteDoc g pe [] []) = LStop (mkS [] CompleteDoc g pe [] []) [].
Proof.
  intros Hw. assert (H0 : M done (mkS [] CompleteDoc g pe [] []) = LStop (mkS [] CompleteDoc g pe [] []) []).
  { rewrite M_eq. reflexivity. }
  rewrite M_eq. unfold mstep, s_complete_doc; cbn [sc ParserS.rest]. destruct w as [|c w]; [reflexivity|].
  assert (Hd : dropw is_ws (c :: w) = []).
  { clear - Hw. induction (c :: w) as [|x l IH]; auto. cbn [dropw]. rewrite Hw by (left; auto).
    apply IH. intros y Hy; apply Hw; right; auto. }
  rewrite Hd. unfold s_noa. destruct done; red_s; [|reflexivity].
  rewrite lprepend_nil. apply H0.
Qed.

Theorem lenient_doc_run done text t : lenient_doc text t ->
  exists g, M done (start_state text) = LStop (mkS [] CompleteDoc g PendEnd [] []) (doc_events t).
Proof.
  intros (w1 & e & w2 & -> & H1 & H2 & He). pose proof (lenient_elem_lt _ _ He) as Hlt.
  unfold start_state. rewrite M_eq. unfold mstep, s_pre_element; cbn [sc ParserS.rest].
  rewrite Hlt. cbn [app]. rewrite blank_drop by auto.
  change (c_lt =? c_lt)%N with true. red_s. rewrite lprepend_nil.
  destruct (proj1 (lenient_run done) e t He w2 [] PendStart []) as (g' & ->).
  exists g'. cbn [state_in]. rewrite after_complete by reflexivity. rewrite complete_blank by auto.
  cbn. rewrite app_nil_r. reflexivity.
Qed.

(** ** From runs to derivations *)
Definition completes (r : lres sst) : Prop :=
  match r with LStop s' _ => sc s' = CompleteDoc | _ => False end.
Lemma completes_prepend e r : completes (lprepend e r) <-> completes r.
Proof. destruct r; cbn; tauto. Qed.

Lemma takew_blank s : blank (takew is_ws s).
Proof. intros c. apply takew_In. Qed.
Lemma takew_namechars s : namechars (takew is_namechar s).
Proof. intros c. apply takew_In. Qed.

Lemma attr_inv : forall n r g pe st d, length r <= n ->
  completes (M false (mkS r Attribute g pe st d)) ->
  exists a k nm v, r = a ++ k /\ lattr a nm v /\ length k < length r /\
    M false (mkS r Attribute g pe st d) = M false (mkS k CompleteTag g pe st (dict_set d nm v)).
Proof.
  induction n as [n IH] using lt_wf_ind. intros r g pe st d Hn Hc.
  rewrite M_eq in Hc. rewrite M_eq. unfold mstep, s_attribute in *; cbn [sc ParserS.rest] in *.
  destruct r as [|c0 r0]; [discriminate Hc|].
  destruct (dropw is_namechar r0) as [|c1 r1] eqn:E1; [discriminate Hc|].
  destruct (dropw is_ws (c1 :: r1)) as [|c r2] eqn:E2; [discriminate Hc|].
  destruct (c =? c_eq)%N eqn:Ec; [|destruct Hc]. apply N.eqb_eq in Ec; subst c.
  destruct r2 as [|q r3]; [discriminate Hc|].
  assert (Hr : r0 = takew is_namechar r0 ++ takew is_ws (c1 :: r1) ++ c_eq :: q :: r3).
  { rewrite <- E2, takew_dropw, <- E1, takew_dropw. reflexivity. }
  assert (Hl : length (q :: r3) < length (c0 :: r0)).
  { rewrite Hr. cbn. rewrite !app_length. cbn. lia. }
  destruct (is_quote q) eqn:Eq.
  - destruct (s_cdata (attr_pat q) [q] r3) as [v x| |] eqn:Ed; [|discriminate Hc|destruct Hc].
    apply value_inv in Ed as (raw & y & -> & -> & Hd); auto.
    exists (c0 :: takew is_namechar r0 ++ takew is_ws (c1 :: r1) ++ c_eq :: q :: raw ++ [q]), y, (c0 :: takew is_namechar r0), v.
    split; [|split; [|split]].
    + rewrite Hr at 1. cbn [app]. rewrite <- !app_assoc. cbn [app]. rewrite <- !app_assoc. reflexivity.
    + constructor; auto using takew_namechars, takew_blank.
    + cbn in *. rewrite app_length in Hl. cbn in Hl. lia.
    + cbn [flow_run tl sgi spend sstk satt]. apply lprepend_nil.
  - red_s_all. rewrite lprepend_nil in *.
    destruct (IH (length (q :: r3)) ltac:(lia) (q :: r3) g pe st d (le_n _) Hc) as (a & k & nm & v & Hk & Ha & Hlk & HM).
    exists (c0 :: takew is_namechar r0 ++ takew is_ws (c1 :: r1) ++ c_eq :: a), k, nm, v.
    split; [|split; [|split]].
    + rewrite Hr at 1. rewrite Hk. cbn [app]. rewrite <- !app_assoc. reflexivity.
    + apply la_junk; auto using takew_namechars, takew_blank.
      intros (c & r & -> & Hq). cbn in Hk. inversion Hk; subst. congruence.
    + lia.
    + exact HM.
Qed.

Lemma ws_split r c x : dropw is_ws r = c :: x -> r = takew is_ws r ++ c :: x.
Proof. intros E. rewrite <- E, takew_dropw. reflexivity. Qed.

Lemma tag_inv : forall n r g st d, length r <= n ->
  completes (M false (mkS r CompleteTag g PendStart st d)) ->
  exists at0 k d', r = at0 ++ c_gt :: k /\ lattrs at0 d d' /\
    M false (mkS r CompleteTag g PendStart st d) =
    lprepend [EvStart g d' (rev st)] (M false (mkS k InElement g PendStart (g :: st) [])).
Proof.
  induction n as [n IH] using lt_wf_ind. intros r g st d Hn Hc.
  rewrite M_eq in Hc. rewrite M_eq. unfold mstep, s_complete_tag in *; cbn [sc ParserS.rest spend andb] in *.
  destruct (dropw is_ws r) as [|c x] eqn:E; [discriminate Hc|].
  pose proof (ws_split _ _ _ E) as Hr. pose proof (dropw_cons_lt _ _ _ _ E) as Hlt.
  destruct (is_namestart c) eqn:En.
  - red_s_all. rewrite lprepend_nil in *.
    destruct (attr_inv _ _ _ _ _ _ (le_n _) Hc) as (a & k & nm & v & Hk & Ha & Hlk & HM).
    rewrite HM in Hc |- *.
    destruct (IH (length k) ltac:(cbn in *; lia) k g st _ (le_n _) Hc) as (at0 & k' & d' & -> & Hat & HM').
    exists (takew is_ws r ++ a ++ at0), k', d'. split; [|split].
    + rewrite Hr at 1. rewrite Hk, <- !app_assoc. reflexivity.
    + eapply las_cons; eauto using takew_blank. destruct a as [|a0 a]; [inversion Ha|].
      cbn in Hk. inversion Hk; subst. exists a0, a. auto.
    + exact HM'.
  - destruct (c =? c_gt)%N eqn:Eg; [|destruct Hc]. apply N.eqb_eq in Eg; subst c.
    exists (takew is_ws r), x, d. split; [auto|]. split; [constructor; apply takew_blank|].
    apply after_false. auto.
Qed.

Lemma pretag_inv r g pe st : completes (M false (mkS r PreTagGi g pe st [])) ->
  (exists t n d k, c_lt :: r = t ++ k /\ lstart t n d /\
     M false (mkS r PreTagGi g pe st []) =
     lprepend [EvStart n d (rev st)] (M false (mkS k InElement n PendStart (n :: st) []))) \/
  (exists t n k st', c_lt :: r = t ++ k /\ lend t n /\ st = n :: st' /\
     M false (mkS r PreTagGi g pe st []) =
     lprepend [EvEnd n (rev st')] (M false (mkS k (state_in st') n PendEnd st' []))).
Proof.
  intros Hc. rewrite M_eq in Hc. rewrite M_eq. unfold mstep, s_tag, s_tag_body in *; cbn [sc ParserS.rest w_pend] in *.
  destruct (dropw is_ws r) as [|c x] eqn:E; [discriminate Hc|]. pose proof (ws_split _ _ _ E) as Hr.
  destruct (c =? c_slash)%N eqn:Es.
  - right. apply N.eqb_eq in Es; subst c. cbn [andb] in *; red_s_all.
    rewrite lprepend_nil in *. rewrite M_eq in Hc. rewrite M_eq.
    unfold mstep, s_tag, s_tag_body in *; cbn [sc ParserS.rest w_pend andb] in *.
    destruct (dropw is_ws x) as [|c2 x2] eqn:E2; [discriminate Hc|]. pose proof (ws_split _ _ _ E2) as Hx.
    assert (Hend : forall y n, completes (M false (mkS y CompleteTag n PendEnd st [])) ->
       exists w k st', blank w /\ y = w ++ c_gt :: k /\ st = n :: st' /\
         M false (mkS y CompleteTag n PendEnd st []) =
         lprepend [EvEnd n (rev st')] (M false (mkS k (state_in st') n PendEnd st' []))).
    { intros y n Hcy. rewrite M_eq in Hcy. rewrite M_eq.
      unfold mstep, s_complete_tag in *; cbn [sc ParserS.rest spend andb sstk sgi] in *.
      destruct (dropw is_ws y) as [|c3 x3] eqn:E3; [discriminate Hcy|]. pose proof (ws_split _ _ _ E3) as Hy.
      destruct (c3 =? c_gt)%N eqn:Eg; [|destruct Hcy]. apply N.eqb_eq in Eg; subst c3.
      destruct st as [|o st']; [destruct Hcy|]. destruct (str_eqb o n) eqn:Eo; [|destruct Hcy].
      apply str_eqb_eq in Eo; subst o.
      exists (takew is_ws y), x3, st'. split; [apply takew_blank|]. split; [exact Hy|]. split; [auto|].
      apply after_false. destruct st'; cbn; auto. }
    destruct (is_namestart c2) eqn:En.
    + destruct (dropw is_namechar x2) as [|c3 x3] eqn:E3; [discriminate Hc|].
      cbn [flow_run sgi spend sstk satt] in *. rewrite lprepend_nil in *.
      destruct (Hend _ _ Hc) as (w & k & st' & Hw & Hy & Hst & HM).
      exists (c_lt :: takew is_ws r ++ c_slash :: takew is_ws x ++ (c2 :: takew is_namechar x2) ++ w ++ [c_gt]),
        (c2 :: takew is_namechar x2), k, st'.
      split; [|split; [|split]]; auto.
      * rewrite Hr at 1. rewrite Hx at 1. cbn [app]. rewrite <- !app_assoc. cbn [app]. rewrite <- !app_assoc. cbn [app].
        rewrite <- !app_assoc. cbn [app]. rewrite <- Hy, <- E3, takew_dropw. reflexivity.
      * constructor; auto using takew_blank. right. exists c2, (takew is_namechar x2). repeat split; auto. apply takew_namechars.
    + cbn [flow_run sgi spend sstk satt] in *. rewrite lprepend_nil in *.
      destruct (Hend _ _ Hc) as (w & k & st' & Hw & Hy & Hst & HM).
      exists (c_lt :: takew is_ws r ++ c_slash :: takew is_ws x ++ [] ++ w ++ [c_gt]), [], k, st'.
      split; [|split; [|split]]; auto.
      * rewrite Hr at 1. rewrite Hx at 1. rewrite Hy. cbn [app]. rewrite <- !app_assoc. cbn [app].
        rewrite <- !app_assoc. reflexivity.
      * constructor; auto using takew_blank. left; auto.
  - left. cbn [andb] in *. destruct (is_namestart c) eqn:En.
    + destruct (dropw is_namechar x) as [|c3 x3] eqn:E3; [discriminate Hc|].
      cbn [flow_run sgi spend sstk satt] in *. rewrite lprepend_nil in *.
      destruct (tag_inv _ _ _ _ _ (le_n _) Hc) as (at0 & k & d' & Hy & Hat & HM).
      exists (c_lt :: takew is_ws r ++ (c :: takew is_namechar x) ++ at0 ++ [c_gt]), (c :: takew is_namechar x), d', k.
      split; [|split]; auto.
      * rewrite Hr at 1. cbn [app]. rewrite <- !app_assoc. cbn [app]. rewrite <- !app_assoc. cbn [app].
        rewrite <- Hy, <- E3, takew_dropw. reflexivity.
      * constructor; auto using takew_blank.
        -- right. exists c, (takew is_namechar x). repeat split; auto. apply takew_namechars.
        -- intros (c4 & r4 & -> & Hc4). cbn in Hy. inversion Hy; subst. apply dropw_head in E3. congruence.
        -- discriminate.
    + cbn [flow_run sgi spend sstk satt] in *. rewrite lprepend_nil in *.
      rewrite M_eq in Hc. rewrite M_eq.
      unfold mstep, s_complete_tag in *; cbn [sc ParserS.rest spend andb sstk sgi dropw satt] in *.
      rewrite (dropw_head _ _ _ _ E) in *. rewrite En in *.
      destruct (c =? c_gt)%N eqn:Eg; [|destruct Hc]. apply N.eqb_eq in Eg; subst c.
      exists (c_lt :: takew is_ws r ++ [] ++ [] ++ [c_gt]), [], [], x. split; [|split].
      * rewrite Hr at 1. cbn [app]. rewrite <- app_assoc. reflexivity.
      * constructor; auto using takew_blank.
        -- left; auto. -- constructor. intros y []. -- intros (? & ? & ? & _); discriminate. -- intros _ y [].
      * apply after_false. auto.
Qed.

Lemma content_inv : forall n r g pe top st, length r <= n ->
  completes (M false (mkS r InElement g pe (top :: st) [])) ->
  exists c kids en k, r = c ++ en ++ k /\ lenient_content c kids /\ lend en top /\
    length k < length r /\
    M false (mkS r InElement g pe (top :: st) []) =
    lprepend (forest_events (rev (top :: st)) kids ++ [EvEnd top (rev st)])
      (M false (mkS k (state_in st) top PendEnd st [])).
Proof.
  induction n as [n IH] using lt_wf_ind. intros r g pe top st Hn Hc.
  destruct (s_cdata is_datachar [c_lt] r) as [v x| |] eqn:Ed.
  2:{ rewrite M_eq in Hc. unfold mstep, s_in_element in Hc; cbn [sc ParserS.rest] in Hc. rewrite Ed in Hc. discriminate Hc. }
  2:{ rewrite M_eq in Hc. unfold mstep, s_in_element in Hc; cbn [sc ParserS.rest] in Hc. rewrite Ed in Hc. destruct Hc. }
  apply text_inv in Ed as (raw & y & -> & -> & Hd).
  rewrite (text_step false _ _ _ _ _ _ Hd) in Hc |- *. rewrite completes_prepend in Hc.
  destruct (pretag_inv _ _ _ _ Hc) as [(t & nm & d & k & Hk & Hs & HM)|(t & nm & k & st' & Hk & He & Hst & HM)].
  - rewrite HM in Hc. rewrite completes_prepend in Hc.
    assert (Hlk : length k < length (raw ++ c_lt :: y)).
    { rewrite Hk, (lstart_lt _ _ _ Hs). rewrite !app_length. cbn. lia. }
    destruct (IH (length k) ltac:(lia) k _ _ _ _ (le_n _) Hc) as (c1 & k1 & en1 & r1 & Hr1 & Hc1 & He1 & Hl1 & HM1).
    rewrite HM1 in Hc. rewrite completes_prepend in Hc. cbn [state_in] in Hc.
    destruct (IH (length r1) ltac:(lia) r1 _ _ _ _ (le_n _) Hc) as (c2 & k2 & en2 & r2 & Hr2 & Hc2 & He2 & Hl2 & HM2).
    exists (raw ++ (t ++ c1 ++ en1) ++ c2), (text_node v ++ XE nm d k1 :: k2), en2, r2.
    split; [|split; [|split; [|split]]]; auto.
    + rewrite Hk, Hr1, Hr2, <- !app_assoc. reflexivity.
    + apply lc_elem; auto. econstructor; eauto.
    + lia.
    + rewrite HM, HM1. cbn [state_in]. rewrite HM2. rewrite !lprepend_app. f_equal.
      rewrite forest_app. cbn [forest_events flat_map tree_events rev app].
      rewrite <- !app_assoc. cbn [app]. rewrite <- !app_assoc. reflexivity.
  - inversion Hst; subst. exists raw, (text_node v), t, k. split; [|split; [|split; [|split]]]; auto.
    + rewrite Hk. reflexivity.
    + constructor; auto.
    + rewrite Hk, (lend_lt _ _ He), !app_length. cbn. lia.
    + rewrite HM, lprepend_app. reflexivity.
Qed.

Theorem completes_doc text : completes (M false (start_state text)) ->
  exists t, lenient_doc text t /\ lev (M false (start_state text)) = doc_events t.
Proof.
  intros Hc. unfold start_state in *. rewrite M_eq in Hc. rewrite M_eq.
  unfold mstep, s_pre_element in *; cbn [sc ParserS.rest] in *.
  destruct (dropw is_ws text) as [|c x] eqn:E; [discriminate Hc|]. pose proof (ws_split _ _ _ E) as Hr.
  destruct (c =? c_lt)%N eqn:Ec.
  - apply N.eqb_eq in Ec; subst c. red_s_all. rewrite lprepend_nil in *.
    destruct (pretag_inv _ _ _ _ Hc) as [(t & nm & d & k & Hk & Hs & HM)|(t & nm & k & st' & Hk & He & Hst & HM)].
    + rewrite HM in Hc |- *. rewrite completes_prepend in Hc.
      destruct (content_inv _ _ _ _ _ _ (le_n _) Hc) as (c1 & k1 & en1 & r1 & Hr1 & Hc1 & He1 & Hl1 & HM1).
      rewrite HM1 in Hc |- *. rewrite completes_prepend in Hc. cbn [state_in] in *.
      exists (XE nm d k1). 
      assert (Hb : dropw is_ws r1 = []).
      { destruct r1 as [|c2 r1]; [reflexivity|]. rewrite M_eq in Hc. unfold mstep, s_complete_doc in Hc; cbn [sc ParserS.rest] in Hc.
        destruct (dropw is_ws (c2 :: r1)); [reflexivity|destruct Hc]. }
      assert (Hbl : blank r1) by (intros z; revert z; rewrite forallb_In; apply dropw_nil_all; auto).
      split.
      * exists (takew is_ws text), (t ++ c1 ++ en1), r1. split; [|split; [|split]]; auto using takew_blank.
        -- rewrite Hr at 1. rewrite Hk, Hr1, <- !app_assoc. reflexivity.
        -- econstructor; eauto.
      * rewrite complete_blank by auto. cbn [lprepend lev]. rewrite app_nil_r. reflexivity.
    + discriminate Hst.
  - exfalso. assert (Hst : stuck (mstep false) (mkS (c :: x) PreElement [] PendStart [] [])).
    { right. unfold mstep, s_pre_element; cbn [sc ParserS.rest dropw]. rewrite (dropw_head _ _ _ _ E), Ec. reflexivity. }
    red_s_all. rewrite (M_stuck _ _ Hst) in Hc. destruct Hc.
Qed.
