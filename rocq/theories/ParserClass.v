(** Character classes against the MicroXML specification; rejected markup. *)
From Verif Require Import PyStr CharClass Parser ParserS ParserM XTree Grammar ParserSpec ParserFrag ParserInv ParserGram ParserMore ParserVal.

Local Open Scope N_scope.

Ltac ranges := unfold in_range in *; rewrite ?orb_true_iff, ?andb_true_iff, ?N.leb_le, ?N.eqb_eq in *.

Lemma high_char_iff c : high_char c = true <->
  (0xA0 <= c <= 0x10FFFF /\ ~ is_surrogate c /\ ~ is_noncharacter c).
Proof.
  unfold high_char, is_surrogate, is_noncharacter. ranges.
  assert (Hm : c mod 0x10000 < 0x10000) by (apply N.mod_lt; discriminate).
  split.
  - intros [[[H|H]|H]|[H1 H2]].
    + rewrite N.mod_small by lia. lia.
    + rewrite N.mod_small by lia. lia.
    + rewrite N.mod_small by lia. lia.
    + lia.
  - intros (H1 & H2 & H3). destruct (N.lt_ge_cases c 0x10000) as [Hc|Hc].
    + rewrite N.mod_small in * by lia. lia.
    + right. lia.
Qed.

Lemma character_iff c : is_character c = true <-> micro_char c.
Proof.
  unfold is_character, micro_char, is_control. ranges. rewrite high_char_iff.
  unfold c_tab, c_nl, is_surrogate, is_noncharacter. split.
  - intros [[H|H]|H].
    + rewrite N.mod_small by lia. lia.
    + rewrite N.mod_small by lia. lia.
    + lia.
  - intros (H1 & H2 & H3 & H4). lia.
Qed.

Lemma high_char_ge c : high_char c = true -> 0xA0 <= c.
Proof. rewrite high_char_iff. lia. Qed.
Lemma low_high c : c < 0xA0 -> high_char c = false.
Proof. intros H. destruct (high_char c) eqn:E; auto. apply high_char_ge in E. lia. Qed.

Lemma datachar_iff c : is_datachar c = true <-> (is_character c = true /\ c <> c_amp /\ c <> c_lt /\ c <> c_gt).
Proof.
  unfold is_datachar, is_character, c_amp, c_lt, c_gt. pose proof (high_char_ge c). ranges. 
  destruct (high_char c); [specialize (H eq_refl)|]; split; intros HH; repeat split; try lia.
Qed.

Lemma value_char_iff q c : is_quote q = true ->
  value_char q c = true <->
  (is_character c = true /\ c <> c_tab /\ c <> c_nl /\ c <> c_amp /\ c <> c_lt /\ c <> c_gt /\ c <> q).
Proof.
  intros Hq. apply quote_not_amp in Hq. pose proof (high_char_ge c).
  destruct Hq as [->| ->]; unfold value_char, is_attr_sgl, is_attr_dbl, is_character, c_dq, c_sq, c_tab, c_nl, c_amp, c_lt, c_gt;
    cbn [N.eqb Pos.eqb]; ranges;
    (destruct (high_char c); [specialize (H eq_refl)|]; split; intros HH; repeat split; try lia).
Qed.

Lemma namestart_iff c : is_namestart c = true <-> micro_namestart c.
Proof. unfold is_namestart, micro_namestart. ranges. lia. Qed.

Lemma namechar_iff c : is_namechar c = true <->
  ((micro_namechar c /\ c <> 0x2E /\ ~ (0xC1 <= c <= 0xD5)) \/ 0xB8 <= c <= 0xBF).
Proof. unfold is_namechar, micro_namechar, micro_namestart. ranges. lia. Qed.

(** ** Rejected markup *)
Local Close Scope N_scope.

Lemma lattrs_then done : forall at0 d d', lattrs at0 d d' -> forall w c k g st,
  blank w -> is_ws c = false ->
  exists m, blank m /\ M done (mkS (at0 ++ w ++ c :: k) CompleteTag g PendStart st d) =
  M done (mkS (m ++ c :: k) CompleteTag g PendStart st d').
Proof.
  induction 1 as [w0 d Hw0|w0 a n v rest0 d d' Hw0 Hh Ha Hl IH]; intros w c k g st Hw Hc.
  - exists (w0 ++ w). split; [auto using blank_app|]. rewrite <- app_assoc. reflexivity.
  - rewrite M_eq. unfold mstep, s_complete_tag; cbn [sc ParserS.rest].
    destruct Hh as (c0 & r & -> & Hc0).
    rewrite <- !app_assoc. cbn [app]. rewrite blank_drop by (auto using namestart_ws).
    cbn [spend andb]. rewrite Hc0. red_s. rewrite lprepend_nil.
    pose proof (lattr_run done _ _ _ Ha (rest0 ++ w ++ c :: k) g PendStart st d) as HH. cbn [app] in HH.
    rewrite HH. apply IH; auto.
Qed.

Theorem rejected_markup (t : str) evs open (w0 n attrs : str) d (w : str) c (k : str) :
  at_markup t evs open -> blank w0 -> lname n -> lattrs attrs [] d -> ~ head_is is_namechar attrs -> blank w ->
  cannot_follow n attrs w c ->
  feed [t ++ c_lt :: w0 ++ n ++ attrs ++ w ++ c :: k] = (evs, Raised RtExpectedGt).
Proof.
  intros Ht Hw0 Hn Hat Hh Hw (Hc1 & Hc2 & Hc3 & Hc4 & Hc5).
  assert (Hne : t ++ c_lt :: w0 ++ n ++ attrs ++ w ++ c :: k <> []) by (destruct t; discriminate).
  pose proof (feed_one _ Hne) as Hf.
  destruct (proj1 (beginnings false) _ _ _ Ht) as (g & pe & HM). rewrite HM in Hf.
  assert (Hend : forall g m d0, blank m -> M false (mkS (m ++ c :: k) CompleteTag g PendStart open d0) = LRaise RtExpectedGt []).
  { intros g0 m d0 Hm. rewrite M_eq. unfold mstep, s_complete_tag; cbn [sc ParserS.rest].
    rewrite blank_drop by auto. cbn [spend andb]. rewrite Hc3. apply N.eqb_neq in Hc2. rewrite Hc2. reflexivity. }
  assert (HR : M false (mkS (w0 ++ n ++ attrs ++ w ++ c :: k) PreTagGi g pe open []) = LRaise RtExpectedGt []).
  { rewrite M_eq. unfold mstep, s_tag, s_tag_body; cbn [sc ParserS.rest w_pend].
    destruct Hn as [->|(n0 & nr & -> & Hn0 & Hnr)].
    - destruct (Hc4 eq_refl) as [-> Hs]. cbn [app]. rewrite app_assoc. rewrite blank_drop by (auto using blank_app).
      apply N.eqb_neq in Hs. rewrite Hs. cbn [andb]. rewrite Hc3. red_s. rewrite lprepend_nil.
      apply (Hend _ [] []). intros x [].
    - cbn [app]. rewrite blank_drop by (auto using namestart_ws).
      assert (Hs : (n0 =? c_slash)%N = false) by (apply N.eqb_neq; intros ->; discriminate).
      rewrite Hs. cbn [andb]. rewrite Hn0.
      assert (Hd0 : exists d0 y, attrs ++ w ++ c :: k = d0 :: y /\ is_namechar d0 = false).
      { destruct attrs as [|a0 attrs].
        - destruct w as [|x w]; cbn.
          + do 2 eexists; split; [reflexivity|]. apply Hc5; auto. discriminate.
          + do 2 eexists; split; [reflexivity|]. apply namechar_ws, Hw. left; auto.
        - cbn. do 2 eexists; split; [reflexivity|]. destruct (is_namechar a0) eqn:E; auto. exfalso. apply Hh. exists a0, attrs; auto. }
      destruct Hd0 as (d0 & y & Hy & Hd0). rewrite Hy. rewrite dropw_stop, takew_stop by auto. red_s. rewrite lprepend_nil, <- Hy.
      destruct (lattrs_then false _ _ _ Hat w c k (n0 :: nr) open Hw Hc1) as (m & Hm & ->). apply Hend; auto. }
  rewrite HR in Hf. cbn [lprepend] in Hf. rewrite app_nil_r in Hf. exact Hf.
Qed.

(** ** Corollaries in the form used by Prop_Parser.v *)
Lemma parsefrags_pieces pieces : safe_cuts pieces = true -> py_parsefrags pieces = py_parsefrags [concat pieces].
Proof.
  intros H. unfold py_parsefrags. rewrite !sends_app. pose proof (feed_pieces pieces H) as Hf.
  unfold feed in Hf. rewrite Hf. reflexivity.
Qed.

Lemma cdata_plain drop p v : (forall c, In c v -> p c = true) -> cdata drop p v v.
Proof.
  induction v as [|c v IH]; intros H; constructor; [apply H; left; auto|]. apply IH. intros x Hx; apply H; right; auto.
Qed.

Lemma uncut_value (pre : str) evs open n d a q (v1 v2 : str) :
  in_attr_value pre evs open n d a q ->
  (forall c, In c (v1 ++ v2) -> value_char q c = true) ->
  exists g, feed [(pre ++ v1) ++ v2 ++ [q; c_gt]] =
    (evs ++ [EvStart n (dict_set d a (v1 ++ v2)) (rev open)], Suspended g).
Proof.
  intros H Hv. destruct (attr_value_delivered pre evs open n d a q (v1 ++ v2) (v1 ++ v2) H (cdata_plain _ _ _ Hv)) as (g & Hg).
  exists g. rewrite <- Hg. f_equal. rewrite <- !app_assoc. reflexivity.
Qed.

Lemma complete_doc_events evs : (exists t n a ks, t = XE n a ks /\ evs = doc_events t) -> complete_document evs.
Proof. intros (t & n & a & ks & -> & ->). apply doc_events_complete. Qed.

Lemma any_chunking_refuted : exists pieces,
  fst (feed pieces) = [EvStart (lit "a") [(lit "'", lit "' y='"); (lit "z", [])] []; EvEnd (lit "a") []] /\
  fst (feed [concat pieces]) = [EvStart (lit "a") [(lit "x", lit "=""" ); (lit "y", lit """ z=")] []; EvChars (lit "'"); EvEnd (lit "a") []] /\
  complete_document (fst (feed pieces)) /\ complete_document (fst (feed [concat pieces])).
Proof.
  exists [lit "<a x='"; lit "=""' y='"" z='>'></a>"].
  split; [vm_compute; reflexivity|]. split; [vm_compute; reflexivity|].
  split; apply complete_doc_events.
  - exists (XE (lit "a") [(lit "'", lit "' y='"); (lit "z", [])] []). do 3 eexists. split; [reflexivity|]. vm_compute. reflexivity.
  - exists (XE (lit "a") [(lit "x", lit "=""" ); (lit "y", lit """ z=")] [XT (lit "'")]). do 3 eexists. split; [reflexivity|]. vm_compute. reflexivity.
Qed.

Lemma sends_history l m : exists later, fst (sends new_parser (l ++ m)) = fst (sends new_parser l) ++ later.
Proof.
  rewrite sends_app. destruct (sends new_parser l) as [e [g|x|]].
  - destruct (sends g m) as [e2 o]. exists e2. reflexivity.
  - exists []. rewrite app_nil_r. reflexivity.
  - exists []. rewrite app_nil_r. reflexivity.
Qed.

Lemma strict_parses text t : strict_doc text t ->
  (exists g, feed [text] = (doc_events t, Suspended g)) /\
  py_parse text = Some (None :: map Some (doc_events t)).
Proof.
  intros H. apply strict_doc_lenient in H. apply parse_lenient in H as [H1 H2]. split; auto.
  unfold py_parse. rewrite H2, accumulated_items. reflexivity.
Qed.

Lemma blank_nil : blank []. Proof. intros c []. Qed.
Lemma blank_cons c w : is_ws c = true -> blank w -> blank (c :: w).
Proof. intros H1 H2 x [<-|H]; auto. Qed.
Lemma name1 c r : is_namestart c = true -> (forall x, In x r -> is_namechar x = true) -> name (c :: r).
Proof. intros H1 H2. exists c, r. auto. Qed.

Lemma strict_doc_case : strict_doc (lit " <a x='1' y =""&#x41;&lt;"">t<b></b >&amp;</a>
")
  (XE (lit "a") [(lit "x", lit "1"); (lit "y", lit "A<")] [XT (lit "t"); XE (lit "b") [] []; XT (lit "&")]).
Proof.
  exists (lit " "), (lit "<a x='1' y =""&#x41;&lt;"">t<b></b >&amp;</a>"), [c_nl].
  split; [reflexivity|]. split; [apply blank_cons; auto using blank_nil|]. split; [apply blank_cons; auto using blank_nil|].
  assert (Hb : strict_elem (lit "<b></b >") (XE (lit "b") [] [])).
  { apply (se (lit "b") [] [] [] [] (lit " ")); [apply name1; [reflexivity|intros x []]|constructor; apply blank_nil| |apply blank_cons; auto using blank_nil].
    apply (sc_last [] []). constructor. }
  apply (se (lit "a") (lit " x='1' y =""&#x41;&lt;""") _ (lit "t<b></b >&amp;") _ []).
  - apply name1; [reflexivity|intros x []].
  - apply (sa_cons (lit " ") (lit "x") [] c_sq (lit "1") (lit "1") (lit " y =""&#x41;&lt;""")).
    + apply blank_cons; auto using blank_nil.
    + discriminate.
    + apply name1; [reflexivity|intros x []].
    + apply blank_nil.
    + reflexivity.
    + apply cd_char; [reflexivity|]. apply cd_nil.
    + apply (sa_cons (lit " ") (lit "y") (lit " ") c_dq (lit "&#x41;&lt;") (lit "A<") []).
      * apply blank_cons; auto using blank_nil.
      * discriminate.
      * apply name1; [reflexivity|intros x []].
      * apply blank_cons; auto using blank_nil.
      * reflexivity.
      * apply (cd_ref no_drop _ (lit "#x41") 65%N (lit "&lt;") (lit "<")).
        { apply (ref_hex (lit "41")); [discriminate| |reflexivity]. intros x [<-|[<-|[]]]; reflexivity. }
        apply (cd_ref no_drop _ (lit "lt") c_lt [] []); constructor.
      * constructor. apply blank_nil.
      * intros [].
    + intros [H|[]]. discriminate.
  - apply (sc_elem (lit "t") (lit "t") (lit "<b></b >") _ (lit "&amp;") [XT (lit "&")]).
    + apply cd_char; [reflexivity|]. apply cd_nil.
    + exact Hb.
    + apply (sc_last (lit "&amp;") (lit "&")). apply (cd_ref no_drop _ (lit "amp") c_amp [] []); constructor.
  - apply blank_nil.
Qed.

Lemma lenient_doc_unique text t t' : lenient_doc text t -> lenient_doc text t' -> doc_events t = doc_events t'.
Proof.
  intros H H'. apply parse_lenient in H as [_ H]. apply parse_lenient in H' as [_ H']. rewrite H in H'. inversion H'. reflexivity.
Qed.

Lemma cdata_app drop p r1 v1 r2 v2 : cdata drop p r1 v1 -> cdata drop p r2 v2 -> cdata drop p (r1 ++ r2) (v1 ++ v2).
Proof.
  induction 1; cbn [app]; intros; auto; try (constructor; auto; fail).
  rewrite <- app_assoc. cbn [app]. constructor; auto.
Qed.

Lemma reference_in_text (p : str) evs top open (raw1 v1 body raw2 v2 en : str) c :
  after_tag p evs (top :: open) -> cdata (droppable c_lt) is_datachar raw1 v1 -> refers body c ->
  cdata (droppable c_lt) is_datachar raw2 v2 -> lend en top ->
  exists g, feed [p ++ (raw1 ++ c_amp :: body ++ c_semi :: raw2) ++ en] =
    (evs ++ [EvChars (v1 ++ c :: v2); EvEnd top (rev open)], Suspended g).
Proof.
  intros Hp H1 Hr H2 He.
  destruct (text_delivered p evs top open (raw1 ++ c_amp :: body ++ c_semi :: raw2) (v1 ++ c :: v2) en) as (g & Hg); auto.
  { apply cdata_app; auto. constructor; auto. }
  exists g. rewrite Hg. destruct (v1 ++ c :: v2) eqn:E; [destruct v1; discriminate|]. reflexivity.
Qed.

Lemma reference_in_value (pre : str) evs open n d a q (raw1 v1 body raw2 v2 : str) c :
  in_attr_value pre evs open n d a q -> cdata (droppable q) (value_char q) raw1 v1 -> refers body c ->
  cdata (droppable q) (value_char q) raw2 v2 ->
  exists g, feed [pre ++ (raw1 ++ c_amp :: body ++ c_semi :: raw2) ++ [q; c_gt]] =
    (evs ++ [EvStart n (dict_set d a (v1 ++ c :: v2)) (rev open)], Suspended g).
Proof.
  intros Hp H1 Hr H2. apply attr_value_delivered; auto. apply cdata_app; auto. constructor; auto.
Qed.

Lemma reference_cases body :
  (exists ds, body = c_hash :: c_x :: ds /\ forall d, In d ds -> is_hex d = true) \/
  (forall c, In c body -> is_alnum c = true) ->
  (exists c, refers body c) \/ (exists e, wrong_reference body e).
Proof.
  intros [(ds & -> & Hd)|Ha].
  - destruct ds as [|d0 ds].
    { right. exists ValueErr. apply wr_hex; auto. left; auto. }
    assert (Hne : d0 :: ds <> []) by discriminate. remember (d0 :: ds) as l. clear Heql.
    destruct (N.le_gt_cases 0x80000000 (hex_number l)).
    { right. exists OverflowErr. apply wr_hex; auto. right; left; auto. }
    destruct (N.le_gt_cases 0x110000 (hex_number l)).
    { right. exists ValueErr. apply wr_hex; auto. right; right; left; auto. }
    destruct (is_character (hex_number l)) eqn:E.
    { left. exists (hex_number l). constructor; auto. }
    right. exists RtBadCharRef. apply wr_hex; auto. right; right; right; auto.
  - destruct (in_dec (list_eq_dec N.eq_dec) body [lit "lt"; lit "gt"; lit "amp"; lit "quot"; lit "apos"]) as [H|H].
    + left. destruct H as [<-|[<-|[<-|[<-|[<-|[]]]]]]; eexists; constructor.
    + right. exists RtUnknownRef. apply wr_name; auto.
Qed.

Lemma after_tag_case : after_tag (lit "<a>") [EvStart (lit "a") [] []] [lit "a"].
Proof.
  apply (at_start [] [] [] (lit "<a>") (lit "a") []); [constructor; apply blank_nil|].
  apply (ls [] (lit "a") [] []); auto using blank_nil.
  - right. apply name1; [reflexivity|intros x []].
  - constructor. apply blank_nil.
  - intros (c & r & H & _). discriminate.
Qed.

Lemma one_shot text evs g : feed [text] = (evs, Suspended g) -> complete_document evs ->
  sends new_parser [(text, true)] = (evs, Suspended GFinal) /\
  sends new_parser [(text, false); ([], true)] = (evs, Suspended GFinal) /\
  py_parse text = py_parsefrags [text].
Proof.
  intros H Hc. destruct (proj1 (parse_complete_iff text evs) (conj (ex_intro _ _ H) Hc)) as (t & Ht & ->).
  apply parse_lenient in Ht as [_ Ht]. pose proof (close_suspended [text] _ _ H) as Hcl.
  repeat split; auto. unfold py_parse, py_parsefrags. rewrite Ht, Hcl. reflexivity.
Qed.

Lemma one_shot_converse_refuted : exists text evs,
  sends new_parser [(text, true)] = (evs, Suspended GFinal) /\ complete_document evs /\
  (exists g, feed [text] = ([], Suspended g)).
Proof.
  exists (lit "<a x='=""v""></a>"), [EvStart (lit "a") [(lit "'", lit "v")] []; EvEnd (lit "a") []].
  split; [vm_compute; reflexivity|]. split; [|vm_compute; eexists; reflexivity].
  apply complete_doc_events. exists (XE (lit "a") [(lit "'", lit "v")] []). do 3 eexists. split; reflexivity.
Qed.

Lemma complete_case : complete_document (fst (feed [lit "<a>x<b></b></a>"])).
Proof.
  apply complete_doc_events. exists (XE (lit "a") [] [XT (lit "x"); XE (lit "b") [] []]). do 3 eexists. split; [reflexivity|].
  vm_compute. reflexivity.
Qed.

Lemma dropped_in_text (p : str) evs top open (raw en : str) :
  after_tag p evs (top :: open) -> ~ In c_lt raw -> ~ In c_amp raw -> lend en top ->
  exists g, feed [p ++ raw ++ en] =
    (evs ++ (match filter is_datachar raw with [] => [] | v => [EvChars v] end) ++ [EvEnd top (rev open)], Suspended g).
Proof.
  intros Hp H1 H2 He.
  destruct (text_delivered p evs top open raw _ en Hp (cdata_filter c_lt is_datachar raw H1 H2) He) as (g & Hg).
  exists g. rewrite Hg. destruct (filter is_datachar raw); reflexivity.
Qed.

Lemma dropped_in_value (pre : str) evs open n d a q (raw : str) :
  in_attr_value pre evs open n d a q -> ~ In q raw -> ~ In c_amp raw ->
  exists g, feed [pre ++ raw ++ [q; c_gt]] =
    (evs ++ [EvStart n (dict_set d a (filter (value_char q) raw)) (rev open)], Suspended g).
Proof. intros H H1 H2. apply attr_value_delivered; auto. apply cdata_filter; auto. Qed.

Lemma bool_false_iff b (P : Prop) : (b = true <-> P) -> (b = false <-> ~ P).
Proof. destruct b; intuition congruence. Qed.

Lemma dropped_characters c :
  (is_datachar c = false <-> ~ micro_char c \/ c = c_amp \/ c = c_lt \/ c = c_gt) /\
  (forall q, is_quote q = true ->
    (value_char q c = false <-> ~ micro_char c \/ c = c_tab \/ c = c_nl \/ c = c_amp \/ c = c_lt \/ c = c_gt \/ c = q)).
Proof.
  pose proof (character_iff c) as Hc. split.
  - rewrite (bool_false_iff _ _ (datachar_iff c)), Hc.
    destruct (is_character c) eqn:E.
    + assert (micro_char c) by tauto. destruct (N.eq_dec c c_amp), (N.eq_dec c c_lt), (N.eq_dec c c_gt); tauto.
    + assert (~ micro_char c) by (intros H; apply Hc in H; congruence). tauto.
  - intros q Hq. rewrite (bool_false_iff _ _ (value_char_iff q c Hq)), Hc.
    destruct (is_character c) eqn:E.
    + assert (micro_char c) by tauto.
      destruct (N.eq_dec c c_amp), (N.eq_dec c c_lt), (N.eq_dec c c_gt), (N.eq_dec c c_tab), (N.eq_dec c c_nl), (N.eq_dec c q); tauto.
    + assert (~ micro_char c) by (intros H; apply Hc in H; congruence). tauto.
Qed.

Lemma unique_keys l n d anc : In (EvStart n d anc) (fst (sends new_parser l)) -> NoDup (map fst d).
Proof. intros H. pose proof (sends_legal l) as Hl. rewrite Forall_forall in Hl. apply Hl in H. apply H. Qed.

Lemma dict_get_set {A} (d : dict A) a v b : dict_get (dict_set d a v) b = if str_eqb a b then Some v else dict_get d b.
Proof.
  induction d as [|[k w] d IH]; cbn.
  - destruct (str_eqb a b); reflexivity.
  - destruct (str_eqb k a) eqn:E.
    + apply str_eqb_eq in E; subst. cbn. destruct (str_eqb a b); reflexivity.
    + cbn. rewrite IH. destruct (str_eqb k b) eqn:E1; auto. destruct (str_eqb a b) eqn:E2; auto.
      apply str_eqb_eq in E1, E2. subst. rewrite str_eqb_refl in E. discriminate.
Qed.

Lemma last_wins (pre : str) evs open n d a q (raw v : str) :
  in_attr_value pre evs open n d a q -> In a (map fst d) -> cdata (droppable q) (value_char q) raw v ->
  exists d' g, feed [pre ++ raw ++ [q; c_gt]] = (evs ++ [EvStart n d' (rev open)], Suspended g) /\
    map fst d' = map fst d /\ dict_get d' a = Some v /\ (forall b, b <> a -> dict_get d' b = dict_get d b).
Proof.
  intros H Ha Hc. destruct (attr_value_delivered pre evs open n d a q raw v H Hc) as (g & Hg).
  exists (dict_set d a v), g. split; auto. split; [apply dict_set_old; auto|]. split.
  - rewrite dict_get_set, str_eqb_refl. reflexivity.
  - intros b Hb. rewrite dict_get_set. destruct (str_eqb a b) eqn:E; auto. apply str_eqb_eq in E. congruence.
Qed.

Lemma coalesced l : text_coalesced (fst (sends new_parser l)) /\
  forall t, In (EvChars t) (fst (sends new_parser l)) -> t <> [].
Proof.
  split; [apply sends_coalesced|]. intros t Ht. pose proof (sends_legal l) as Hl. rewrite Forall_forall in Hl. apply Hl in Ht. apply Ht.
Qed.

Lemma spurious_first_item :
  (forall text items, py_parse text = Some items -> exists evs o, sends new_parser [(text, true)] = (evs, o) /\ items = None :: map Some evs) /\
  (forall frags items, py_parsefrags frags = Some items -> exists evs g, feed frags = (evs, Suspended g) /\ items = None :: map Some evs).
Proof.
  split.
  - intros text items H. unfold py_parse in H. destruct (sends _ _) as [evs [g|x|]]; inversion H; subst.
    exists evs, (Suspended g). rewrite accumulated_items. auto.
  - intros frags items H. unfold py_parsefrags in H. rewrite sends_app in H.
    unfold feed. destruct (sends new_parser (map _ frags)) as [evs [g|x|]] eqn:E; [|discriminate|discriminate].
    exists evs, g. split; auto. destruct (feed_suspended frags evs g E) as (s & ->). cbn in H. inversion H; subst.
    rewrite app_nil_r, accumulated_items. reflexivity.
Qed.

Lemma char_classes c :
  (is_character c = true <-> micro_char c) /\
  (is_datachar c = true <-> micro_char c /\ c <> c_amp /\ c <> c_lt /\ c <> c_gt) /\
  (is_namestart c = true <-> micro_namestart c).
Proof.
  split; [apply character_iff|]. split; [rewrite datachar_iff, character_iff; reflexivity|apply namestart_iff].
Qed.

Lemma small_classes c :
  (is_ws c = true <-> c = 0x9 \/ c = 0xA \/ c = 0xD \/ c = 0x20)%N /\
  (is_quote c = true <-> c = 0x22 \/ c = 0x27)%N /\
  (is_hex c = true <-> 0x30 <= c <= 0x39 \/ 0x41 <= c <= 0x46 \/ 0x61 <= c <= 0x66)%N /\
  (is_alnum c = true <-> 0x30 <= c <= 0x39 \/ 0x41 <= c <= 0x5A \/ 0x61 <= c <= 0x7A)%N.
Proof.
  unfold is_ws, is_quote, is_hex, is_alnum, char_in, c_sp, c_cr, c_nl, c_tab, c_dq, c_sq. cbn [existsb]. ranges.
  assert (false = true <-> False) as F by (split; [discriminate|tauto]). rewrite !F.
  split; [lia|]. split; [lia|]. split; lia.
Qed.
Lemma value_classes c :
  (is_attr_sgl c = true <-> micro_char c /\ c <> c_tab /\ c <> c_nl /\ c <> c_amp /\ c <> c_lt /\ c <> c_gt /\ c <> c_sq) /\
  (is_attr_dbl c = true <-> micro_char c /\ c <> c_tab /\ c <> c_nl /\ c <> c_amp /\ c <> c_lt /\ c <> c_gt /\ c <> c_dq).
Proof.
  rewrite <- character_iff. split; [apply (value_char_iff c_sq c); auto|apply (value_char_iff c_dq c); auto].
Qed.

Lemma namechar_refuted : exists c, micro_namechar c /\ is_namechar c = false.
Proof. exists 0x2E%N. split; [|reflexivity]. unfold micro_namechar. right; right; right; left. reflexivity. Qed.

Lemma space_after_equals (pre : str) evs open n d a q (w2 k : str) :
  in_attr_value (pre ++ [q]) evs open n d a q -> blank w2 -> w2 <> [] ->
  feed [pre ++ w2 ++ q :: k] = (evs, Raised RtExpectedEq).
Proof.
  intros H Hw2 Hne. destruct (in_attr_value_run0 false _ _ _ _ _ _ _ H) as (c & nm & w1 & pre0 & -> & Hn & Hw1 & Hq & He & HM).
  apply app_inj_tail in He as [-> _]. apply name_inv in Hn as [_ Hn].
  assert (Hnn : pre0 ++ w2 ++ q :: k <> []) by (destruct pre0, w2; discriminate).
  pose proof (feed_one _ Hnn) as Hf. rewrite HM in Hf.
  destruct w2 as [|s w2]; [congruence|]. cbn [app] in *.
  assert (Hs : is_ws s = true) by (apply Hw2; left; auto).
  assert (Hw2' : blank w2) by (intros x Hx; apply Hw2; right; auto).
  assert (Hqs : is_quote s = false) by (apply is_ws_cases in Hs as [->|[->|[->| ->]]]; reflexivity).
  rewrite M_eq in Hf. unfold mstep, s_attribute in Hf; cbn [sc ParserS.rest] in Hf.
  destruct (name_drop nm w1 c_eq (s :: w2 ++ q :: k) Hn Hw1 eq_refl) as [Hd1 _]. rewrite Hd1 in Hf.
  destruct (w1 ++ c_eq :: s :: w2 ++ q :: k) eqn:E; [destruct w1; discriminate|]. rewrite <- E in Hf. clear E.
  rewrite blank_drop in Hf by auto. change (c_eq =? c_eq)%N with true in Hf. cbn match in Hf. rewrite Hqs in Hf. red_s_all.
  rewrite lprepend_nil, M_eq in Hf. unfold mstep, s_attribute in Hf; cbn [sc ParserS.rest] in Hf.
  assert (Hqc : is_namechar q = false /\ is_ws q = false /\ (q =? c_eq)%N = false).
  { apply quote_not_amp in Hq as [->| ->]; repeat split. }
  destruct Hqc as (Hq1 & Hq2 & Hq3).
  assert (Hdn : dropw is_namechar (w2 ++ q :: k) = w2 ++ q :: k).
  { destruct w2 as [|x w2]; cbn [app dropw]; [rewrite Hq1; reflexivity|]. rewrite namechar_ws; auto. apply Hw2'. left; auto. }
  rewrite Hdn in Hf. destruct (w2 ++ q :: k) eqn:E; [destruct w2; discriminate|]. rewrite <- E in *. clear E.
  rewrite blank_drop in Hf by auto. rewrite Hq3 in Hf. cbn [flow_run lprepend] in Hf. rewrite app_nil_r in Hf. exact Hf.
Qed.
