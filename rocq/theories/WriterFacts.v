(** Facts about the writers. *)
From Verif Require Import PyStr CharClass Parser ParserS ParserM XTree Grammar ParserSpec ParserFrag ParserInv ParserGram ParserMore ParserVal ParserClass.
From Verif Require Import Tree TreeSpec TreeFacts TreeMore Writer WriterSpec.

(** ** Text written by a call, without indentation *)
Definition call_text (c : wcall) : str :=
  match c with
  | CStart n a e => c_lt :: n ++ concat (attr_bits a) ++ (if e then lit "/>" else [c_gt])
  | CEnd n => c_lt :: c_slash :: n ++ [c_gt]
  | CText s => py_escape s
  end.

Lemma attr_writes_text a : forall f, flat_map raw_write (attr_writes f a) = concat (attr_bits a).
Proof.
  induction a as [|[k v] a IH]; intros f; [reflexivity|].
  cbn [attr_writes flat_map raw_write item_text]. rewrite IH. unfold attr_bits. cbn [flat_map app concat fst snd].
  destruct f; reflexivity.
Qed.

Lemma start_text n a (e : bool) :
  flat_map raw_write ((CxStart, ITok TkStartOpen) :: (CxElemName, IStr n) :: attr_writes true a
     ++ [(CxStart, ITok (if e then TkEmptyClose else TkStartClose))]) = call_text (CStart n a e).
Proof.
  cbn [flat_map raw_write item_text call_text]. rewrite flat_map_app, attr_writes_text.
  destruct e; cbn [flat_map raw_write item_text token_text]; rewrite ?app_nil_r; reflexivity.
Qed.

Lemma end_text n : flat_map raw_write [(CxEnd, ITok TkEndOpen); (CxElemName, IStr n); (CxEnd, ITok TkEndClose)] = call_text (CEnd n).
Proof. cbn [flat_map raw_write item_text token_text call_text]. rewrite app_nil_r. reflexivity. Qed.

Definition indent_text (s : wstate) : str := flat_map raw_write (indent_writes s).

(** What one call writes: the text of the call, after and before indentation. *)
Lemma call_writes_text s c : exists w1 w2, flat_map raw_write (snd (call_writes s c)) = w1 ++ call_text c ++ w2 /\
  (w1 = [] \/ indenting s = true /\ w1 = indent_text s) /\
  (w2 = [] \/ indenting s = true /\ exists b, w2 = indent_text (mkW (windent s) (wdepth s) b)).
Proof.
  destruct c as [n a e|n|t]; cbn [call_writes].
  - unfold start_writes. set (W := wawait s && indenting s).
    exists (if W then indent_text s else []), (if e && indenting s then indent_text s else []).
    assert (HW : W = true -> indenting s = true) by (unfold W; intros H; apply andb_true_iff in H; tauto).
    split; [|split].
    + destruct W, e; cbn [snd]; rewrite ?flat_map_app; try change (indenting (mkW (windent s) (wdepth s) false)) with (indenting s);
        try change (indent_writes (mkW (windent s) (wdepth s) false)) with (indent_writes s); fold (indent_text s).
      * f_equal. rewrite <- (start_text n a true). cbn [flat_map andb]. rewrite <- !app_assoc, !flat_map_app. cbn [flat_map]. rewrite app_nil_r, <- !app_assoc.
        destruct (indenting s); reflexivity.
      * f_equal. cbn [andb]. rewrite <- (start_text n a false). cbn [flat_map]. rewrite ?flat_map_app. cbn [flat_map]. rewrite ?app_nil_r, <- ?app_assoc. reflexivity.
      * cbn [app flat_map]. rewrite <- (start_text n a true). cbn [flat_map andb]. rewrite <- !app_assoc, !flat_map_app. cbn [flat_map]. rewrite app_nil_r, <- !app_assoc.
        destruct (indenting s); reflexivity.
      * cbn [app flat_map andb]. rewrite <- (start_text n a false). cbn [flat_map]. rewrite ?flat_map_app. cbn [flat_map]. rewrite ?app_nil_r, <- ?app_assoc. reflexivity.
    + destruct W; auto.
    + destruct e; cbn [andb]; auto. destruct (indenting s) eqn:E; auto. right. split; auto. exists (wawait s). destruct s; reflexivity.
  - unfold end_writes. exists [], (if indenting s then indent_text s else []). cbn [snd]. split; [|split]; auto.
    + rewrite flat_map_app, end_text. destruct (indenting s); reflexivity.
    + destruct (indenting s); auto. right. split; auto. exists (wawait s). destruct s; reflexivity.
  - exists [], []. cbn. rewrite !app_nil_r. auto.
Qed.

Lemma call_writes_indent s c : windent (fst (call_writes s c)) = windent s.
Proof.
  destruct c as [n a e|n|t]; cbn [call_writes]; auto. unfold start_writes. destruct (wawait s && indenting s), e; reflexivity.
Qed.

Lemma raw_run_cons s c cs : raw_run s (c :: cs) =
  (fst (raw_run (fst (call_writes s c)) cs), flat_map raw_write (snd (call_writes s c)) ++ snd (raw_run (fst (call_writes s c)) cs)).
Proof. cbn [raw_run]. destruct (call_writes s c) as [s1 ws]. cbn [fst snd]. destruct (raw_run s1 cs). reflexivity. Qed.

(** Without indentation the output does not depend on the state. *)
Lemma raw_plain cs : forall s, windent s = [] -> snd (raw_run s cs) = flat_map call_text cs.
Proof.
  induction cs as [|c cs IH]; intros s Hs; [reflexivity|]. rewrite raw_run_cons. cbn [snd flat_map].
  rewrite IH by (rewrite call_writes_indent; auto). f_equal.
  destruct (call_writes_text s c) as (w1 & w2 & -> & H1 & H2).
  assert (Hi : indenting s = false) by (unfold indenting; rewrite Hs; reflexivity).
  destruct H1 as [->|[H _]]; [|congruence]. destruct H2 as [->|[H _]]; [|congruence]. cbn. apply app_nil_r.
Qed.

(** ** C35 *)
Lemma write_calls_text t : match t with XE _ _ _ => flat_map call_text (write_calls t) = xml_encode t | XT s => flat_map call_text (write_calls t) = py_escape s end.
Proof.
  induction t as [n a ks IH|s] using xtree_ind'; [|apply app_nil_r].
  rewrite encode_elem. cbn [write_calls flat_map]. rewrite flat_map_app. cbn [flat_map call_text]. rewrite app_nil_r.
  f_equal. f_equal. induction IH as [|k ks Hk _ IHks]; [reflexivity|]. cbn [flat_map]. rewrite flat_map_app, IHks. f_equal.
  destruct k; exact Hk.
Qed.

Theorem writer_encode n a ks d : snd (raw_run (new_raw [] d) (write_calls (XE n a ks))) = xml_encode (XE n a ks).
Proof. rewrite raw_plain by reflexivity. exact (write_calls_text (XE n a ks)). Qed.

(** ** C36 *)
Lemma blank_nil : blank [].
Proof. intros x []. Qed.

Lemma cons_chars_app s1 s2 evs : cons_chars (s1 ++ s2) evs = cons_chars s1 (cons_chars s2 evs).
Proof.
  destruct s1 as [|x s1]; [reflexivity|]. destruct s2 as [|y s2]; [rewrite app_nil_r; reflexivity|].
  cbn [cons_chars app]. destruct evs as [|[m b anc|m anc|t] evs]; cbn [app]; rewrite <- ?app_assoc; reflexivity.
Qed.

Lemma cons_chars_markup s e evs : (forall t, e <> EvChars t) -> cons_chars s (e :: evs) = forest_events [] (text_node s) ++ e :: evs.
Proof. intros He. destruct s as [|c s]; [reflexivity|]. destruct e as [m b anc|m anc|t]; try reflexivity. destruct (He t eq_refl). Qed.

Lemma start_good n a : good_call (CStart n a false) -> lstart (call_text (CStart n a false)) n (norm_attrs a).
Proof. intros (H1 & H2 & H3). apply encode_start; auto. Qed.
Lemma end_good n : name n -> lend (call_text (CEnd n)) n.
Proof. intros H. apply (le [] [] n []); auto using blank_nil. right; auto. Qed.

(** From a point just after a tag, with some text after it. *)
Lemma calls_run open cs open' : calls open cs open' -> Forall good_call cs -> forall p evs raw v,
  after_tag p evs open -> cdata (droppable c_lt) is_datachar raw v -> (open = [] -> raw = [] /\ v = []) ->
  exists p' evs' raw' v', p ++ raw ++ flat_map call_text cs = p' ++ raw' /\
    after_tag p' evs' open' /\ cdata (droppable c_lt) is_datachar raw' v' /\ (open' = [] -> raw' = [] /\ v' = []) /\
    evs ++ cons_chars v (coalesce (call_events open cs)) = evs' ++ forest_events [] (text_node v').
Proof.
  induction 1 as [open|open n a cs open' Hne H IH|open n cs open' H IH|open s cs open' Hne H IH]; intros Hg p evs raw v Hp Hc Ho.
  - exists p, evs, raw, v. rewrite app_nil_r. do 4 (split; auto). destruct v; reflexivity.
  - apply Forall_cons_iff in Hg as [Hg1 Hg]. destruct open as [|top open]; [congruence|].
    destruct (IH Hg _ _ [] [] (at_start _ _ _ _ _ _ (am_text _ _ _ _ _ _ Hp Hc) (start_good _ _ Hg1)) (cd_nil _ _)) as (p' & evs' & raw' & v' & E1 & H1 & H2 & H3 & E2);
      [auto|].
    exists p', evs', raw', v'. cbn [flat_map]. do 4 (split; [solve [auto | rewrite <- E1, <- !app_assoc; reflexivity]|]).
    rewrite <- E2. cbn [call_events coalesce]. rewrite cons_chars_markup by discriminate. rewrite <- !app_assoc. reflexivity.
  - apply Forall_cons_iff in Hg as [Hg1 Hg].
    destruct (IH Hg _ _ [] [] (at_end _ _ _ _ _ (am_text _ _ _ _ _ _ Hp Hc) (end_good _ Hg1)) (cd_nil _ _)) as (p' & evs' & raw' & v' & E1 & H1 & H2 & H3 & E2);
      [auto|].
    exists p', evs', raw', v'. cbn [flat_map]. do 4 (split; [solve [auto | rewrite <- E1, <- !app_assoc; reflexivity]|]).
    rewrite <- E2. cbn [call_events coalesce tl]. rewrite cons_chars_markup by discriminate. rewrite <- !app_assoc. reflexivity.
  - apply Forall_cons_iff in Hg as [_ Hg].
    destruct (IH Hg p evs _ _ Hp (cdata_app _ _ _ _ _ _ Hc (escape_cdata s))) as (p' & evs' & raw' & v' & E1 & H1 & H2 & H3 & E2); [congruence|].
    exists p', evs', raw', v'. cbn [flat_map call_text]. do 4 (split; [solve [auto | rewrite <- E1, <- !app_assoc; reflexivity]|]).
    rewrite <- E2. cbn [call_events coalesce]. rewrite cons_chars_app. reflexivity.
Qed.

Lemma document_run cs open : document_calls cs open -> Forall good_call cs ->
  exists p evs raw v, flat_map call_text cs = p ++ raw /\
    after_tag p evs open /\ cdata (droppable c_lt) is_datachar raw v /\ (open = [] -> raw = [] /\ v = []) /\
    coalesce (call_events [] cs) = evs ++ forest_events [] (text_node v).
Proof.
  intros (n & a & cs' & -> & H) Hg. apply Forall_cons_iff in Hg as [Hg1 Hg].
  pose proof (at_start _ _ _ _ _ _ (am_root [] blank_nil) (start_good _ _ Hg1)) as H0.
  destruct (calls_run _ _ _ H Hg _ _ [] [] H0 (cd_nil _ _)) as (p & evs & raw & v & E1 & H1 & H2 & H3 & E2); [auto|].
  exists p, evs, raw, v. cbn [flat_map]. do 4 (split; [solve [auto]|]). exact E2.
Qed.

Lemma after_tag_feed_blank p evs w : after_tag p evs [] -> blank w -> exists s, feed [p ++ w] = (evs, Suspended (GRun s)).
Proof.
  intros H Hw. pose proof (feed_one (p ++ w) (app_ne _ _ (after_tag_ne _ _ _ H))) as Hf.
  destruct (after_tag_run_false _ _ _ H) as (g & pe & HM). rewrite (HM w) in Hf. cbn [state_in] in Hf.
  rewrite complete_blank in Hf by auto. cbn in Hf. rewrite app_nil_r in Hf. destruct Hf as (s & Hf & _). eauto.
Qed.

Lemma calls_app open c1 open1 c2 open2 : calls open c1 open1 -> calls open1 c2 open2 -> calls open (c1 ++ c2) open2.
Proof. induction 1; intros H2; cbn [app]; auto; constructor; auto. Qed.

(** The coalesced events are well nested too. *)
Lemma nest_chars_cons v open evs open' : open <> [] -> nest open evs open' -> nest open (cons_chars v evs) open'.
Proof.
  intros Ho H. destruct v as [|c v]; [exact H|]. cbn [cons_chars]. destruct evs as [|[m b anc|m anc|t] evs]; try (constructor; auto; fail).
  inversion H; subst. constructor; auto.
Qed.
Lemma calls_nest open cs open' : calls open cs open' -> nest open (coalesce (call_events open cs)) open'.
Proof.
  induction 1 as [open|open n a cs open' Hne H IH|open n cs open' H IH|open s cs open' Hne H IH]; cbn [call_events coalesce tl].
  - constructor.
  - constructor; auto.
  - constructor; auto.
  - apply nest_chars_cons; auto.
Qed.
Lemma document_nest cs open : document_calls cs open -> document_events (coalesce (call_events [] cs)) open.
Proof.
  intros (n & a & cs' & -> & H). cbn [call_events coalesce rev]. exists n, (norm_attrs a), (coalesce (call_events [n] cs')).
  split; [reflexivity|]. apply calls_nest; auto.
Qed.

Theorem writer_parses cs d : document_calls cs [] -> Forall good_call cs ->
  (exists g, feed [snd (raw_run (new_raw [] d) cs)] = (coalesce (call_events [] cs), Suspended g)) /\
  complete_document (coalesce (call_events [] cs)).
Proof.
  intros H Hg. split; [|apply document_nest; auto]. rewrite raw_plain by reflexivity.
  destruct (document_run _ _ H Hg) as (p & evs & raw & v & -> & H1 & _ & H3 & ->). destruct (H3 eq_refl) as [-> ->].
  rewrite !app_nil_r. destruct (after_tag_feed _ _ _ H1) as (s & ->). eauto.
Qed.

(** ** C37 *)
Section Ns.
  Variable prefixes : dict str.
  Variable mapping : dict (str * str).

  Lemma ns_writes_app s a b : ns_writes prefixes mapping s (a ++ b) =
    let '(s1, o1) := ns_writes prefixes mapping s a in let '(s2, o2) := ns_writes prefixes mapping s1 b in (s2, o1 ++ o2).
  Proof.
    revert s. induction a as [|w a IH]; intros s; cbn [app ns_writes]; [destruct (ns_writes _ _ s b); reflexivity|].
    destruct (ns_write prefixes mapping s w) as [s1 o1]. rewrite IH. destruct (ns_writes _ _ s1 a) as [s2 o2].
    destruct (ns_writes _ _ s2 b) as [s3 o3]. rewrite app_assoc. reflexivity.
  Qed.

  Lemma declarations_bits : declarations prefixes = concat (attr_bits (declared prefixes)).
  Proof.
    unfold declarations, attr_bits, declared. induction prefixes as [|[k v] l IH]; [reflexivity|].
    cbn [flat_map map fst snd]. rewrite concat_app, <- IH. f_equal. cbn [concat app]. rewrite app_nil_r. reflexivity.
  Qed.

  Lemma prefixed_text key n : ns_prefix mapping key ++ n = prefixed mapping key n.
  Proof.
    unfold ns_prefix, prefixed. destruct (dict_get mapping key) as [[u [|c p]]|]; try reflexivity. rewrite <- app_assoc. reflexivity.
  Qed.

  (** Once the declarations are done, or on later elements. *)
  Lemma ns_attrs a : forall s f, nfirst s && negb (nhandled s) = false ->
    ns_writes prefixes mapping s (attr_writes f a ++ [(CxStart, ITok TkStartClose)]) =
    (s, concat (attr_bits (prefix_attrs mapping a)) ++ [c_gt]).
  Proof.
    induction a as [|[k v] a IH]; intros s f Hs.
    - cbn [attr_writes app ns_writes ns_write]. rewrite Hs. reflexivity.
    - cbn [attr_writes app ns_writes].
      assert (H1 : ns_write prefixes mapping s (CxStart, ITok (if f then TkPreAttr else TkBetweenAttr)) = (s, [c_sp])).
      { destruct f; cbn [ns_write]; rewrite ?Hs; reflexivity. }
      rewrite H1. cbn [ns_write item_text token_text]. rewrite IH by auto. rewrite prefixed_text.
      unfold attr_bits, prefix_attrs. cbn [map flat_map concat app fst snd]. f_equal. repeat (rewrite <- !app_assoc; cbn [app]). reflexivity.
  Qed.

  Lemma ns_attrs_first a s : nfirst s = true -> nhandled s = false ->
    ns_writes prefixes mapping s (attr_writes true a ++ [(CxStart, ITok TkStartClose)]) =
    (mkN (nbase s) true true, concat (attr_bits (declared prefixes ++ prefix_attrs mapping a)) ++ [c_gt]).
  Proof.
    intros H1 H2. unfold attr_bits at 1. rewrite flat_map_app, concat_app. fold (attr_bits (declared prefixes)). rewrite <- declarations_bits.
    destruct a as [|[k v] a].
    - cbn [attr_writes app ns_writes ns_write]. rewrite H1, H2. cbn. rewrite !app_nil_r. reflexivity.
    - cbn [attr_writes app ns_writes]. cbn [ns_write]. rewrite H1, H2. cbn [andb negb]. rewrite ns_attrs by reflexivity.
      cbn [item_text token_text]. rewrite prefixed_text.
      unfold attr_bits, prefix_attrs. cbn [map flat_map concat app fst snd]. f_equal. repeat (rewrite <- !app_assoc; cbn [app]). reflexivity.
  Qed.

  Definition decls_at (s : nstate) : dict str := if nfirst s then declared prefixes else [].

  Lemma ns_call_text s c : windent (nbase s) = [] -> (forall n a, c <> CStart n a true) ->
    exists s', ns_call prefixes mapping s c = (s', flat_map call_text (with_prefixes (decls_at s) mapping [c])) /\
      windent (nbase s') = [] /\ nfirst s' = match c with CStart _ _ _ => false | _ => nfirst s end.
  Proof.
    intros Hs Hc. assert (Hi : indenting (nbase s) = false) by (unfold indenting; rewrite Hs; reflexivity).
    destruct c as [n a e|n|t]; cbn [ns_call with_prefixes flat_map].
    - destruct e; [destruct (Hc n a eq_refl)|].
      unfold start_writes. rewrite Hi, andb_false_r. cbn [app].
      set (s0 := mkN (nbase s) (nfirst s) false).
      change (ns_writes prefixes mapping s0 ((CxStart, ITok TkStartOpen) :: (CxElemName, IStr n) :: (attr_writes true a ++ [(CxStart, ITok TkStartClose)])))
        with (let '(s2, o2) := (let '(s2, o2) := ns_writes prefixes mapping s0 (attr_writes true a ++ [(CxStart, ITok TkStartClose)]) in (s2, (ns_prefix mapping n ++ n) ++ o2)) in (s2, lit "<" ++ o2)).
      assert (E : exists s1, ns_writes prefixes mapping s0 (attr_writes true a ++ [(CxStart, ITok TkStartClose)]) =
        (s1, concat (attr_bits (decls_at s ++ prefix_attrs mapping a)) ++ [c_gt])).
      { unfold decls_at. destruct (nfirst s) eqn:Ef.
        - rewrite ns_attrs_first by (cbn; auto). eauto.
        - rewrite ns_attrs by reflexivity. eauto. }
      destruct E as (s1 & ->). eexists. split; [|split].
      + rewrite prefixed_text. cbn [call_text]. rewrite app_nil_r. reflexivity.
      + cbn. exact Hs.
      + reflexivity.
    - cbn [call_writes]. unfold end_writes. rewrite Hi. cbn [app ns_writes ns_write item_text token_text]. rewrite prefixed_text.
      eexists. split; [|split]; [cbn [call_text]; rewrite !app_nil_r; reflexivity| |reflexivity]. exact Hs.
    - cbn [call_writes ns_writes ns_write]. eexists. split; [|split]; [reflexivity| |reflexivity]. exact Hs.
  Qed.

  Lemma ns_run_text cs : (forall n a, ~ In (CStart n a true) cs) -> forall s, windent (nbase s) = [] ->
    snd (ns_run prefixes mapping s cs) = flat_map call_text (with_prefixes (decls_at s) mapping cs).
  Proof.
    induction cs as [|c cs IH]; intros Hc s Hs; [reflexivity|]. cbn [ns_run].
    destruct (ns_call_text s c Hs) as (s' & -> & H1 & H2). { intros n a ->. apply (Hc n a). left; auto. }
    specialize (IH (fun n a Hi => Hc n a (or_intror Hi)) s' H1). destruct (ns_run prefixes mapping s' cs) as [s2 o2]. cbn [snd] in *. subst o2.
    unfold decls_at. rewrite H2. destruct c as [n a e|n|t]; cbn [with_prefixes flat_map]; rewrite app_nil_r; reflexivity.
  Qed.
End Ns.

Theorem namespacer_output prefixes mapping cs : (forall n a, ~ In (CStart n a true) cs) ->
  snd (ns_run prefixes mapping new_namespacer cs) =
  snd (raw_run (new_raw [] 0) (with_prefixes (declared prefixes) mapping cs)).
Proof. intros H. rewrite raw_plain by reflexivity. apply ns_run_text; auto. Qed.

Lemma with_nothing cs : with_prefixes [] [] cs = cs.
Proof.
  induction cs as [|[n a e|n|t] cs IH]; cbn [with_prefixes]; [reflexivity| | |]; rewrite ?IH; unfold prefixed; cbn [dict_get]; auto.
  f_equal. f_equal. unfold prefix_attrs, prefixed. cbn. rewrite <- (map_id a) at 2. apply map_ext. intros []; reflexivity.
Qed.

Theorem namespacer_plain cs : (forall n a, ~ In (CStart n a true) cs) ->
  snd (ns_run [] [] new_namespacer cs) = snd (raw_run (new_raw [] 0) cs).
Proof. intros H. rewrite namespacer_output by auto. cbn [declared map]. rewrite with_nothing. reflexivity. Qed.

(** ** C38 *)
Lemma times_blank s n : blank s -> blank (str_times s n).
Proof. intros H. unfold str_times. induction (Z.to_nat n); cbn [str_repeat]; auto using blank_nil, blank_app. Qed.
Lemma indent_text_blank s : blank (windent s) -> blank (indent_text s).
Proof.
  intros H. unfold indent_text, indent_writes. cbn [flat_map raw_write]. rewrite app_nil_r, (escape_blank (str_times _ _)) by (apply times_blank; auto).
  apply blank_app; [|apply times_blank; auto]. intros c [<-|[]]. reflexivity.
Qed.

Lemma raw_whites cs : forall s, blank (windent s) -> exists cs', whites cs cs' /\ snd (raw_run s cs) = flat_map call_text cs'.
Proof.
  induction cs as [|c cs IH]; intros s Hs; [exists []; split; [constructor|reflexivity]|].
  destruct (IH (fst (call_writes s c))) as (cs' & H1 & H2). { rewrite call_writes_indent; auto. }
  destruct (call_writes_text s c) as (w1 & w2 & E & Hw1 & Hw2).
  assert (B1 : blank w1). { destruct Hw1 as [->|[_ ->]]; auto using blank_nil, indent_text_blank. }
  assert (B2 : blank w2). { destruct Hw2 as [->|[_ [b ->]]]; auto using blank_nil. apply indent_text_blank. exact Hs. }
  exists (CText w1 :: c :: CText w2 :: cs'). split.
  - apply wh_add; auto. apply wh_same. apply wh_add; auto.
  - rewrite raw_run_cons. cbn [snd]. rewrite E, H2. cbn [flat_map call_text]. rewrite !escape_blank by auto. rewrite <- !app_assoc. reflexivity.
Qed.

Theorem indent_whites indent depth cs : blank indent ->
  exists cs', whites cs cs' /\ snd (raw_run (new_raw indent depth) cs) = snd (raw_run (new_raw [] 0) cs').
Proof.
  intros H. destruct (raw_whites cs (new_raw indent depth) H) as (cs' & H1 & H2). exists cs'. split; auto.
  rewrite (raw_plain cs' (new_raw [] 0)) by reflexivity. exact H2.
Qed.

Lemma raw_depth open cs open' : calls open cs open' -> forall s,
  (wdepth (fst (raw_run s cs)) = wdepth s + Z.of_nat (length open') - Z.of_nat (length open))%Z.
Proof.
  induction 1 as [open|open n a cs open' Hne H IH|open n cs open' H IH|open t cs open' Hne H IH]; intros s.
  - cbn. lia.
  - rewrite raw_run_cons. cbn [fst]. rewrite IH. cbn [call_writes]. unfold start_writes.
    destruct (wawait s && indenting s); cbn [fst wdepth length]; lia.
  - rewrite raw_run_cons. cbn [fst]. rewrite IH. cbn [call_writes end_writes fst wdepth length]. lia.
  - rewrite raw_run_cons. cbn [fst]. rewrite IH. reflexivity.
Qed.

Lemma calls_none cs open' : calls [] cs open' -> cs = [].
Proof. intros H. inversion H; subst; congruence. Qed.

Lemma whites_nil cs' : whites [] cs' -> exists ws, cs' = map CText ws /\ Forall blank ws.
Proof.
  remember (@nil wcall) as l. induction 1 as [|c cs cs' H IH|w cs cs' Hw H IH]; [exists []; auto|discriminate|].
  destruct (IH Heql) as (ws & -> & Hf). exists (w :: ws). split; auto.
Qed.

Lemma whites_calls cs cs' : whites cs cs' -> forall open, open <> [] -> calls open cs [] ->
  exists c1 ws, cs' = c1 ++ map CText ws /\ Forall blank ws /\ calls open c1 [] /\ whites cs c1.
Proof.
  induction 1 as [|c cs cs' H IH|w cs cs' Hw H IH]; intros open Ho Hc.
  - inversion Hc; subst. congruence.
  - inversion Hc as [|open0 n a cs0 o' Hne H0|open0 n cs0 o' H0|open0 s cs0 o' Hne H0]; subst.
    + destruct (IH (n :: open)) as (c1 & ws & -> & H1 & H2 & H3); [discriminate|auto|].
      exists (CStart n a false :: c1), ws. repeat split; auto; constructor; auto.
    + destruct open0 as [|o open0].
      * apply calls_none in H0 as ->. destruct (whites_nil _ H) as (ws & -> & Hf).
        exists [CEnd n], ws. repeat split; auto; constructor; auto; constructor.
      * destruct (IH (o :: open0)) as (c1 & ws & -> & H1 & H2 & H3); [discriminate|auto|].
        exists (CEnd n :: c1), ws. repeat split; auto; constructor; auto.
    + destruct (IH open) as (c1 & ws & -> & H1 & H2 & H3); [auto|auto|].
      exists (CText s :: c1), ws. repeat split; auto; constructor; auto.
  - destruct (IH open) as (c1 & ws & -> & H1 & H2 & H3); [auto|auto|].
    exists (CText w :: c1), ws. repeat split; auto; constructor; auto.
Qed.

Lemma whites_good cs cs' : whites cs cs' -> Forall good_call cs -> Forall good_call cs'.
Proof.
  induction 1; intros Hg; auto.
  - apply Forall_cons_iff in Hg as [Hg1 Hg]. constructor; auto.
  - constructor; auto. exact I.
Qed.

Lemma skeleton_cons_chars s evs : skeleton (cons_chars s evs) = map inr (filter visible s) ++ skeleton evs.
Proof.
  destruct s as [|c s]; [reflexivity|]. cbn [cons_chars]. unfold skeleton. destruct evs as [|[m b anc|m anc|t] evs]; cbn [flat_map skeleton1]; auto.
  rewrite filter_app, map_app, app_assoc. reflexivity.
Qed.
Lemma skeleton_whites cs cs' : whites cs cs' -> forall open,
  skeleton (coalesce (call_events open cs')) = skeleton (coalesce (call_events open cs)).
Proof.
  induction 1 as [|c cs cs' H IH|w cs cs' Hw H IH]; intros open; [reflexivity| |].
  - destruct c as [n a e|n|s]; cbn [call_events coalesce].
    + unfold skeleton in *. cbn [flat_map]. rewrite IH. reflexivity.
    + unfold skeleton in *. cbn [flat_map]. rewrite IH. reflexivity.
    + rewrite !skeleton_cons_chars, IH. reflexivity.
  - cbn [call_events coalesce]. rewrite skeleton_cons_chars, blank_invisible by (apply filter_blank; auto). apply IH.
Qed.

Lemma texts_blank ws : Forall blank ws -> blank (flat_map call_text (map CText ws)).
Proof.
  induction 1 as [|w ws Hw _ IH]; cbn [map flat_map call_text]; auto using blank_nil. rewrite escape_blank by auto. apply blank_app; auto.
Qed.

Theorem indent_parses indent depth cs : blank indent -> document_calls cs [] -> Forall good_call cs ->
  exists evs g, feed [snd (raw_run (new_raw indent depth) cs)] = (evs, Suspended g) /\ complete_document evs /\
    skeleton evs = skeleton (coalesce (call_events [] cs)).
Proof.
  intros Hb (n & a & cs' & -> & H) Hg. rewrite raw_run_cons. cbn [snd].
  assert (E : flat_map raw_write (snd (call_writes (new_raw indent depth) (CStart n a false))) = call_text (CStart n a false)).
  { cbn [call_writes]. unfold start_writes, new_raw. cbn [wawait andb snd app]. rewrite <- start_text. reflexivity. }
  rewrite E. clear E. set (s1 := fst (call_writes (new_raw indent depth) (CStart n a false))).
  destruct (raw_whites cs' s1) as (cs2 & Hw & ->). { unfold s1. rewrite call_writes_indent. exact Hb. }
  destruct (whites_calls _ _ Hw [n]) as (c1 & ws & -> & Hws & Hc1 & Hw1); [discriminate|auto|].
  apply Forall_cons_iff in Hg as [Hg1 Hg]. pose proof (whites_good _ _ Hw1 Hg) as Hg2.
  assert (HD : document_calls (CStart n a false :: c1) []) by (exists n, a, c1; auto).
  destruct (document_run _ _ HD (Forall_cons _ Hg1 Hg2)) as (p & evs & raw & v & E1 & H1 & _ & H3 & E2).
  destruct (H3 eq_refl) as [-> ->]. rewrite app_nil_r in E1. cbn [text_node forest_events flat_map] in E2. rewrite app_nil_r in E2.
  rewrite flat_map_app, app_assoc. change (call_text (CStart n a false) ++ flat_map call_text c1) with (flat_map call_text (CStart n a false :: c1)).
  rewrite E1. destruct (after_tag_feed_blank _ _ _ H1 (texts_blank _ Hws)) as (s & ->).
  exists evs, (GRun s). split; [reflexivity|]. rewrite <- E2. split; [apply document_nest; auto|].
  apply (skeleton_whites (CStart n a false :: cs') (CStart n a false :: c1)). constructor. exact Hw1.
Qed.

(** ** C80: output that the parser rejects *)

Lemma in_progress_markup cs open : in_progress cs open -> Forall good_call cs ->
  at_markup (flat_map call_text cs) (coalesce (call_events [] cs)) open.
Proof.
  intros [[-> ->]|[H Ho]] Hg; [apply (am_root []), blank_nil|].
  destruct (document_run _ _ H Hg) as (p & evs & raw & v & -> & H1 & H2 & _ & ->).
  destruct open as [|top open]; [congruence|]. apply am_text; auto.
Qed.

Theorem empty_rejected cs open n a more d : in_progress cs open -> Forall good_call cs -> good_call (CStart n a true) ->
  feed [snd (raw_run (new_raw [] d) (cs ++ CStart n a true :: more))] = (coalesce (call_events [] cs), Raised RtExpectedGt).
Proof.
  intros Hp Hg (H1 & H2 & H3). rewrite raw_plain by reflexivity. rewrite flat_map_app. cbn [flat_map call_text].
  cbn [app]. rewrite <- !app_assoc. cbn [lit app].
  apply (rejected_markup _ _ open [] n (concat (attr_bits a)) (norm_attrs a) []); auto using blank_nil.
  - apply in_progress_markup; auto.
  - right; auto.
  - apply (attrs_lenient a H3 H2 []). auto.
  - apply attrs_head.
  - do 3 (split; [reflexivity || discriminate|]). split; [|reflexivity]. intros ->. destruct H1 as (c & r & E & _). discriminate.
Qed.

Theorem prefix_rejected prefixes mapping cs open n a more u p : 
  (forall m b, ~ In (CStart m b true) (cs ++ CStart n a false :: more)) ->
  in_progress (with_prefixes (declared prefixes) mapping cs) open ->
  Forall good_call (with_prefixes (declared prefixes) mapping cs) ->
  dict_get mapping n = Some (u, p) -> name p ->
  feed [snd (ns_run prefixes mapping new_namespacer (cs ++ CStart n a false :: more))] =
    (coalesce (call_events [] (with_prefixes (declared prefixes) mapping cs)), Raised RtExpectedGt).
Proof.
  intros He Hp Hg Hm Hn. rewrite namespacer_output by auto. rewrite raw_plain by reflexivity.
  assert (E : exists ds, with_prefixes (declared prefixes) mapping (cs ++ CStart n a false :: more) =
    with_prefixes (declared prefixes) mapping cs ++ with_prefixes ds mapping (CStart n a false :: more)).
  { generalize (declared prefixes) as dd. clear. induction cs as [|[m b e|m|t] cs IH]; intros dd; cbn [app with_prefixes].
    - exists dd. reflexivity.
    - destruct (IH []) as (ds & ->). exists ds. reflexivity.
    - destruct (IH dd) as (ds & ->). exists ds. reflexivity.
    - destruct (IH dd) as (ds & ->). exists ds. reflexivity. }
  destruct E as (ds & ->). rewrite flat_map_app. cbn [with_prefixes flat_map call_text].
  destruct p as [|p0 p]; [destruct Hn as (? & ? & ? & _); discriminate|].
  assert (E : prefixed mapping n n = (p0 :: p) ++ 58%N :: n) by (unfold prefixed; rewrite Hm; reflexivity).
  rewrite E. set (T := concat _ ++ _).
  assert (E2 : (c_lt :: ((p0 :: p) ++ 58%N :: n) ++ T) ++ flat_map call_text (with_prefixes [] mapping more) =
    c_lt :: [] ++ (p0 :: p) ++ [] ++ [] ++ 58%N :: (n ++ T) ++ flat_map call_text (with_prefixes [] mapping more)).
  { cbn [app]. rewrite <- !app_assoc. cbn [app]. rewrite <- ?app_assoc. reflexivity. }
  rewrite E2.
  apply (rejected_markup _ _ open [] (p0 :: p) [] [] [] 58%N); auto using blank_nil.
  - apply in_progress_markup; auto.
  - right; auto.
  - constructor. apply blank_nil.
  - intros (c & r & H & _). discriminate.
  - do 3 (split; [reflexivity || discriminate|]). split; [discriminate|reflexivity].
Qed.

(** An attribute name followed by something else than an equals sign. *)
Lemma no_equals (t : str) evs open (w0 n attrs : str) d (w a w1 : str) c (k : str) :
  at_markup t evs open -> blank w0 -> name n -> lattrs attrs [] d -> ~ head_is is_namechar attrs -> blank w -> w <> [] ->
  name a -> blank w1 -> is_ws c = false -> is_namechar c = false -> c <> c_eq ->
  feed [t ++ c_lt :: w0 ++ n ++ attrs ++ w ++ a ++ w1 ++ c :: k] = (evs, Raised RtExpectedEq).
Proof.
  intros Ht Hw0 Hn Hat Hh Hw Hwne Ha Hw1 Hc1 Hc2 Hc3.
  assert (Hne : t ++ c_lt :: w0 ++ n ++ attrs ++ w ++ a ++ w1 ++ c :: k <> []) by (destruct t; discriminate).
  pose proof (feed_one _ Hne) as Hf.
  destruct (proj1 (beginnings false) _ _ _ Ht) as (g & pe & HM). rewrite HM in Hf.
  assert (HR : M false (mkS (w0 ++ n ++ attrs ++ w ++ a ++ w1 ++ c :: k) PreTagGi g pe open []) = LRaise RtExpectedEq []).
  { rewrite M_eq. unfold mstep, s_tag, s_tag_body; cbn [sc ParserS.rest w_pend].
    destruct Hn as (n0 & nr & -> & Hn0 & Hnr). cbn [app].
    rewrite blank_drop by (auto using namestart_ws).
    assert (Hs : (n0 =? c_slash)%N = false) by (apply N.eqb_neq; intros ->; discriminate).
    rewrite Hs. cbn [andb]. rewrite Hn0.
    assert (Hd0 : exists d0 y, attrs ++ w ++ a ++ w1 ++ c :: k = d0 :: y /\ is_namechar d0 = false).
    { destruct attrs as [|a0 attrs].
      - destruct w as [|x w]; [congruence|]. cbn. do 2 eexists; split; [reflexivity|]. apply namechar_ws, Hw. left; auto.
      - cbn. do 2 eexists; split; [reflexivity|]. destruct (is_namechar a0) eqn:E; auto. exfalso. apply Hh. exists a0, attrs; auto. }
    destruct Hd0 as (d0 & y & Hy & Hd0). rewrite Hy. rewrite dropw_stop, takew_stop by auto. red_s. rewrite lprepend_nil, <- Hy.
    destruct Ha as (a0 & nm & -> & Ha0 & Hnm).
    cbn [app]. rewrite (lattrs_prefix false attrs [] d Hat a0 nm (w1 ++ c :: k) w (n0 :: nr) open Hw Ha0).
    rewrite M_eq. unfold mstep, s_attribute; cbn [sc ParserS.rest].
    destruct (name_drop nm w1 c k Hnm Hw1 Hc2) as [-> _].
    destruct (w1 ++ c :: k) eqn:E; [destruct w1; discriminate|]. rewrite <- E. clear E.
    rewrite blank_drop by auto. apply N.eqb_neq in Hc3. rewrite Hc3. reflexivity. }
  rewrite HR in Hf. cbn [lprepend] in Hf. rewrite app_nil_r in Hf. exact Hf.
Qed.

(** The first declaration of a named prefix; the declarations before it are well formed. *)
Theorem declaration_rejected p1 k v p2 mapping n a more :
  (forall m b, ~ In (CStart m b true) (CStart n a false :: more)) ->
  name (prefixed mapping n n) -> NoDup (map fst p1) -> (forall k' v', In (k', v') p1 -> k' = [] /\ plain_value v') -> k <> [] ->
  feed [snd (ns_run (p1 ++ (k, v) :: p2) mapping new_namespacer (CStart n a false :: more))] = ([], Raised RtExpectedEq).
Proof.
  intros He Hn Hnd Hp1 Hk. rewrite namespacer_output by auto. rewrite raw_plain by reflexivity.
  cbn [with_prefixes flat_map call_text]. unfold declared. rewrite map_app. cbn [map fst snd]. fold (declared p1).
  destruct k as [|k0 k]; [congruence|].
  set (D2 := map _ p2). set (A := prefix_attrs mapping a). set (T := flat_map call_text _).
  assert (E : exists r, (c_lt :: prefixed mapping n n ++ concat (attr_bits ((declared p1 ++ (lit "xmlns:" ++ k0 :: k, v) :: D2) ++ A)) ++ [c_gt]) ++ T
    = [] ++ c_lt :: [] ++ prefixed mapping n n ++ concat (attr_bits (declared p1)) ++ [c_sp] ++ lit "xmlns" ++ [] ++ 58%N :: r).
  { eexists. unfold attr_bits. rewrite !flat_map_app, !concat_app. cbn [flat_map fst snd concat app lit].
    rewrite <- !app_assoc. cbn [app]. reflexivity. }
  destruct E as (r & ->).
  assert (Hin : forall k' v', In (k', v') (declared p1) -> k' = lit "xmlns" /\ plain_value v').
  { intros k' v' Hi. unfold declared in Hi. apply in_map_iff in Hi as ([k1 v1] & Hi1 & Hi2). inversion Hi1; subst.
    destruct (Hp1 _ _ Hi2) as [-> Hv]. auto. }
  assert (Hx : name (lit "xmlns")).
  { exists 120%N, (lit "mlns"). split; [reflexivity|]. split; [reflexivity|].
    intros x Hx. cbn in Hx. repeat (destruct Hx as [<-|Hx]; [reflexivity|]). destruct Hx. }
  apply (no_equals [] [] [] [] _ (concat (attr_bits (declared p1))) (norm_attrs (declared p1)) [c_sp] (lit "xmlns") [] 58%N); auto using blank_nil.
  - apply am_root, blank_nil.
  - apply (attrs_lenient (declared p1)); auto.
    + intros k' v' Hi. destruct (Hin _ _ Hi) as [-> Hv]. auto.
    + unfold declared. rewrite map_map. destruct p1 as [|[k1 v1] [|[k2 v2] p1]]; [constructor|repeat constructor; auto|].
      exfalso. destruct (Hp1 k1 v1) as [-> _]; [left; auto|]. destruct (Hp1 k2 v2) as [-> _]; [right; left; auto|].
      inversion Hnd as [|x l Hn1 Hn2]; subst. apply Hn1. left; auto.
  - apply attrs_head.
  - intros x [<-|[]]. reflexivity.
  - discriminate.
  - discriminate.
Qed.

(** ** The layout of indented output *)
Lemma raw_run_app s cs c : raw_run s (cs ++ [c]) =
  (fst (call_writes (fst (raw_run s cs)) c), snd (raw_run s cs) ++ flat_map raw_write (snd (call_writes (fst (raw_run s cs)) c))).
Proof.
  revert s. induction cs as [|c0 cs IH]; intros s.
  - cbn [app]. rewrite raw_run_cons. cbn [raw_run fst snd app]. rewrite app_nil_r. reflexivity.
  - cbn [app]. rewrite !raw_run_cons, IH. cbn [fst snd]. rewrite app_assoc. reflexivity.
Qed.

Lemma level_app d cs c : level d (cs ++ [c]) = match c with CStart _ _ false => level d cs + 1 | CEnd _ => level d cs - 1 | _ => level d cs end%Z.
Proof.
  revert d. induction cs as [|c0 cs IH]; intros d; [destruct c as [? ? []| |]; reflexivity|].
  cbn [app level]. destruct c0 as [? ? []| |]; apply IH.
Qed.

Lemma opened_snoc cs c : just_opened (cs ++ [c]) <->
  match c with CStart _ _ e => e = false | CEnd _ => False | CText _ => just_opened cs end.
Proof.
  split.
  - intros (pre & n & a & ts & E). destruct ts as [|t ts _] using rev_ind.
    + cbn [map] in E. apply app_inj_tail in E. destruct E as [_ ->]. reflexivity.
    + rewrite map_app in E. cbn [map] in E. rewrite app_comm_cons, app_assoc in E. apply app_inj_tail in E.
      destruct E as [-> ->]. exists pre, n, a, ts. reflexivity.
  - destruct c as [n a e|n|t]; intros H; [|contradiction|].
    + subst e. exists cs, n, a, []. reflexivity.
    + destruct H as (pre & n & a & ts & ->). exists pre, n, a, (ts ++ [t]). rewrite map_app, <- app_assoc. reflexivity.
Qed.

(** The state after the calls: [_depth] is the level, [_awaiting_indent] tells whether an element has just been opened. *)
Lemma raw_state indent d cs : indent <> [] ->
  windent (fst (raw_run (new_raw indent d) cs)) = indent /\
  wdepth (fst (raw_run (new_raw indent d) cs)) = level d cs /\
  (wawait (fst (raw_run (new_raw indent d) cs)) = true <-> just_opened cs).
Proof.
  intros Hi. induction cs as [|c cs IH] using rev_ind.
  - cbn [raw_run fst new_raw windent wdepth wawait level]. split; [reflexivity|]. split; [reflexivity|]. split; [discriminate|].
    intros (pre & n & a & ts & E). destruct pre; discriminate.
  - rewrite raw_run_app. cbn [fst]. destruct IH as (I1 & I2 & I3). set (s := fst (raw_run (new_raw indent d) cs)) in *.
    assert (Hin : indenting s = true) by (unfold indenting; rewrite I1; destruct indent; [contradiction|reflexivity]).
    split; [rewrite call_writes_indent; exact I1|]. rewrite level_app, opened_snoc.
    destruct c as [n a e|n|t]; cbn [call_writes].
    + unfold start_writes. rewrite Hin, andb_true_r. destruct (wawait s) eqn:Ea, e; cbn [fst windent wdepth wawait]; rewrite ?I2, ?Ea;
        (split; [reflexivity|split; congruence]).
    + unfold end_writes. cbn [fst windent wdepth wawait]. rewrite I2. split; [reflexivity|]. split; [discriminate|contradiction].
    + cbn [fst]. rewrite I2. split; [reflexivity|]. exact I3.
Qed.

Lemma repeat_concat s n : str_repeat s n = concat (repeat s n).
Proof. induction n as [|n IH]; [reflexivity|]. cbn [str_repeat repeat concat]. rewrite IH. reflexivity. Qed.

Lemma indent_new_line s : blank (windent s) -> indent_text s = new_line (windent s) (wdepth s).
Proof.
  intros H. unfold indent_text, indent_writes, new_line. cbn [flat_map raw_write]. rewrite app_nil_r, (escape_blank (str_times _ _)) by (apply times_blank; auto).
  unfold str_times. rewrite repeat_concat. reflexivity.
Qed.

Lemma writes_layout s c : indenting s = true -> blank (windent s) ->
  flat_map raw_write (snd (call_writes s c)) =
  match c with CStart _ _ _ => if wawait s then new_line (windent s) (wdepth s) else [] | _ => [] end
  ++ call_text c ++ match c with CStart _ _ true | CEnd _ => new_line (windent s) (wdepth s) | _ => [] end.
Proof.
  intros Hi Hb. rewrite <- (indent_new_line s Hb). destruct c as [n a e|n|t]; cbn [call_writes].
  - unfold start_writes. rewrite Hi, andb_true_r.
    assert (Hi' : indenting (mkW (windent s) (wdepth s) false) = true) by exact Hi.
    destruct (wawait s), e; cbn [snd]; rewrite ?Hi, ?Hi', ?flat_map_app;
      try change (indent_writes (mkW (windent s) (wdepth s) false)) with (indent_writes s); fold (indent_text s).
    + rewrite <- (start_text n a true). cbn [flat_map]. rewrite ?flat_map_app. cbn [flat_map]. rewrite ?app_nil_r, <- ?app_assoc. reflexivity.
    + rewrite <- (start_text n a false). cbn [flat_map]. rewrite ?flat_map_app. cbn [flat_map]. rewrite ?app_nil_r, <- ?app_assoc. reflexivity.
    + rewrite <- (start_text n a true). cbn [flat_map]. rewrite ?flat_map_app. cbn [flat_map]. rewrite ?app_nil_r, <- ?app_assoc. reflexivity.
    + rewrite <- (start_text n a false). cbn [flat_map]. rewrite ?flat_map_app. cbn [flat_map]. rewrite ?app_nil_r, <- ?app_assoc. reflexivity.
  - unfold end_writes. cbn [snd]. rewrite Hi, flat_map_app, end_text. reflexivity.
  - cbn. rewrite !app_nil_r. reflexivity.
Qed.

Theorem indent_layout indent d cs c : blank indent -> indent <> [] -> exists w : str,
  snd (raw_run (new_raw indent d) (cs ++ [c])) =
    snd (raw_run (new_raw indent d) cs) ++ w ++ snd (raw_run (new_raw [] 0) [c]) ++ break_after indent d cs c /\ break_before indent d cs c w.
Proof.
  intros Hb Hi. destruct (raw_state indent d cs Hi) as (S1 & S2 & S3).
  rewrite raw_run_app, (raw_plain [c]) by reflexivity. cbn [snd flat_map]. rewrite app_nil_r.
  set (s := fst (raw_run (new_raw indent d) cs)) in *.
  rewrite writes_layout; [|unfold indenting; rewrite S1; destruct indent; [contradiction|reflexivity]|rewrite S1; exact Hb].
  rewrite S1, S2. eexists. split; [f_equal|].
  destruct c as [n a e|n|t]; try reflexivity. cbn [break_before]. destruct (wawait s) eqn:Ea.
  - left. split; [apply S3; reflexivity|reflexivity].
  - right. split; [|reflexivity]. intros H. apply S3 in H. discriminate.
Qed.

(** The first child is one level deep, the others and the end tag two levels. *)
Theorem siblings_layout indent d n a n1 a1 n2 a2 : blank indent -> indent <> [] -> 
  snd (raw_run (new_raw indent d) (write_calls (XE n a [XE n1 a1 []; XE n2 a2 []]))) =
  snd (raw_run (new_raw [] 0) [CStart n a false]) ++ new_line indent (d + 1)
  ++ xml_encode (XE n1 a1 []) ++ new_line indent (d + 2) ++ xml_encode (XE n2 a2 [])
  ++ new_line indent (d + 2) ++ snd (raw_run (new_raw [] 0) [CEnd n]) ++ new_line indent (d + 1).
Proof.
  intros Hb Hi. rewrite <- !(writer_encode _ _ _ 0).
  rewrite !(raw_plain _ (new_raw [] 0)) by reflexivity. cbn [write_calls flat_map app].
  assert (L : forall s c cs, windent s = indent -> snd (raw_run s (c :: cs)) = flat_map raw_write (snd (call_writes s c)) ++ snd (raw_run (fst (call_writes s c)) cs)).
  { intros. rewrite raw_run_cons. reflexivity. }
  assert (I : forall s, windent s = indent -> indenting s = true) by (intros s E; unfold indenting; rewrite E; destruct indent; [contradiction|reflexivity]).
  assert (W : forall s c, windent s = indent -> flat_map raw_write (snd (call_writes s c)) =
  match c with CStart _ _ _ => if wawait s then new_line indent (wdepth s) else [] | _ => [] end
  ++ call_text c ++ match c with CStart _ _ true | CEnd _ => new_line indent (wdepth s) | _ => [] end).
  { intros s c E. rewrite writes_layout; rewrite ?E; auto. }
  assert (F : forall n a k b, fst (call_writes (mkW indent k b) (CStart n a false)) = mkW indent (k + 1) true).
  { intros. cbn [call_writes]. unfold start_writes. rewrite I by reflexivity. cbn [wawait]. destruct b; reflexivity. }
  assert (G : forall n k b, fst (call_writes (mkW indent k b) (CEnd n)) = mkW indent (k - 1) false) by reflexivity.
  unfold new_raw. rewrite !L, !W, ?F, ?G; rewrite ?call_writes_indent; try reflexivity.
  cbn [wawait wdepth raw_run snd flat_map app]. rewrite ?app_nil_r, <- ?app_assoc.
  replace (d + 1 + 1)%Z with (d + 2)%Z by lia. replace (d + 2 - 1 + 1)%Z with (d + 2)%Z by lia. replace (d + 2 - 1)%Z with (d + 1)%Z by lia.
  rewrite ?F, ?G. cbn [wdepth]. replace (d + 1 + 1)%Z with (d + 2)%Z by lia. replace (d + 2 - 1)%Z with (d + 1)%Z by lia. reflexivity.
Qed.
