(** Invariants of the parser over every input and chunking. *)
From Verif Require Import PyStr CharClass Parser ParserS ParserM ParserSpec ParserFrag.

Section Invariants.
  Variable I : list event -> sst -> Prop.
  Variable P : list event -> Prop.
  Hypothesis I_init : I [] (start_state []).
  Hypothesis I_ext : forall evs s f, I evs s -> I evs (ext s f).
  Hypothesis I_step : forall done evs s, I evs s ->
    match mstep done s with
    | Fall s' e | Again s' e | Need s' e | Break s' e => I (evs ++ e) s'
    | Raise x e => P (evs ++ e)
    end.
  Hypothesis I_P : forall evs s, I evs s -> P evs.

  Lemma M_inv done : forall k evs s, mu s <= k -> I evs s ->
    match M done s with
    | LStop s' e => I (evs ++ e) s'
    | LRaise x e => P (evs ++ e)
    | LHang e => P (evs ++ e)
    end.
  Proof.
    induction k as [k IHk] using lt_wf_ind. intros evs s Hk HI.
    pose proof (I_step done evs s HI) as Hst. rewrite M_eq.
    assert (Hgo : forall s' e, (mstep done s = Fall s' e \/ mstep done s = Again s' e) -> I (evs ++ e) s' ->
      match lprepend e (M done s') with
      | LStop s'' e' => I (evs ++ e') s''
      | LRaise x e' => P (evs ++ e')
      | LHang e' => P (evs ++ e')
      end).
    { intros s' e E HI'. destruct (mstep_decreasing done s s' e E) as [Hd|Hd].
      - pose proof (IHk (mu s') ltac:(lia) (evs ++ e) s' ltac:(lia) HI') as H.
        destruct (M done s'); cbn [lprepend]; rewrite app_assoc; exact H.
      - rewrite (M_stuck _ _ Hd). cbn [lprepend]. rewrite app_nil_r. eapply I_P; eauto. }
    destruct (mstep done s) as [s' e|s' e|s' e|s' e|x e] eqn:E; cbn [flow_run];
      try (apply Hgo; auto); exact Hst.
  Qed.

  Lemma sends_inv_from : forall l evs w s, ok_in w s -> I evs (abs s) ->
    P (evs ++ fst (sends (GRun s) l)) /\
    match snd (sends (GRun s) l) with
    | Suspended (GRun s') => I (evs ++ fst (sends (GRun s) l)) (abs s') /\ exists w', ok_in w' s'
    | _ => True
    end.
  Proof.
    assert (Hfin : forall l, fst (sends GFinal l) = [] /\ match snd (sends GFinal l) with Suspended (GRun _) => False | _ => True end).
    { intros l. destruct l as [|[f d] l]; cbn; auto. }
    induction l as [|[f d] l IH]; intros evs w s Hok HI.
    - cbn. rewrite app_nil_r. split; [eapply I_P; eauto|]. split; eauto.
    - rewrite sends_cons. destruct f as [|c f].
      + cbn [send]. destruct d.
        * destruct (Hfin l) as [H1 H2]. unfold add_events; cbn [fst snd app]. rewrite H1, app_nil_r.
          split; [eapply I_P; eauto|]. destruct (snd (sends GFinal l)) as [[]| |]; auto. contradiction.
        * unfold add_events; cbn [fst snd app]. eapply IH; eauto.
      + set (F := c :: f). pose proof (send_M w s F d Hok ltac:(discriminate)) as Hs.
        pose proof (M_inv d (mu (ext (abs s) F)) evs (ext (abs s) F) (le_n _) (I_ext _ _ F HI)) as Hm.
        destruct (M d (ext (abs s) F)) as [t e|x e|e].
        * destruct Hs as (g & -> & Hg). unfold add_events; cbn [fst snd]. rewrite app_assoc. destruct d.
          -- subst g. destruct (Hfin l) as [H1 H2]. rewrite H1, app_nil_r.
             split; [eapply I_P; eauto|]. destruct (snd (sends GFinal l)) as [[]| |]; auto. contradiction.
          -- destruct Hg as (s' & -> & Hok' & <-). eapply IH; eauto.
        * rewrite Hs. cbn. auto.
        * rewrite Hs. cbn. auto.
  Qed.

  Lemma sends_inv l :
    P (fst (sends new_parser l)) /\
    match snd (sends new_parser l) with
    | Suspended (GRun s') => I (fst (sends new_parser l)) (abs s')
    | _ => True
    end.
  Proof.
    destruct (sends_inv_from l [] [] init_pst ok_init I_init) as [H1 H2]. split; [exact H1|].
    change new_parser with (GRun init_pst). destruct (snd (sends (GRun init_pst) l)) as [[]| |]; auto.
    destruct H2 as [H2 _]; exact H2.
  Qed.
End Invariants.

(** ** Inversion of one step *)

(** A readable form of the possible steps; events appear only in three of them.
    [same_but s s' ] records what a step leaves alone. *)
Inductive step_kind (done : bool) (s : sst) : sst -> list event -> Prop :=
| sk_quiet s' : (* no event, stack unchanged *)
    sstk s' = sstk s -> satt s' = satt s ->
    (sgi s' = sgi s \/ sgi s' = [] \/
       (exists c r, sgi s' = c :: takew is_namechar r /\ is_namestart c = true)) ->
    match sc s with
    | PreElement => sc s' = PreElement \/ sc s' = PreTagGi
    | PreTagGi | PreCompleteTagGi | CompleteTag | Attribute =>
        sc s' = PreTagGi \/ sc s' = PreCompleteTagGi \/ sc s' = CompleteTag \/ sc s' = Attribute
    | InElement => sc s' = InElement \/ sc s' = PreTagGi
    | CompleteDoc => sc s' = CompleteDoc
    end ->
    step_kind done s s' []
| sk_attr s' name v : 
    sc s = Attribute -> sc s' = CompleteTag -> sstk s' = sstk s -> sgi s' = sgi s ->
    (exists q r x, is_quote q = true /\ s_cdata (attr_pat q) [q] r = SCDone v x) ->
    satt s' = dict_set (satt s) name v ->
    step_kind done s s' []
| sk_text s' t r x :
    sc s = InElement -> sc s' = PreTagGi -> sstk s' = sstk s -> sgi s' = sgi s -> satt s' = satt s ->
    s_cdata is_datachar [c_lt] r = SCDone t x -> t <> [] ->
    step_kind done s s' [EvChars t]
| sk_start s' :
    sc s = CompleteTag -> sc s' = InElement -> sstk s' = sgi s :: sstk s -> satt s' = [] -> sgi s' = sgi s ->
    step_kind done s s' [EvStart (sgi s) (satt s) (rev (sstk s))]
| sk_end s' :
    sc s = CompleteTag -> sstk s = sgi s :: sstk s' -> satt s' = [] -> sgi s' = sgi s ->
    sc s' = match sstk s' with [] => CompleteDoc | _ => InElement end ->
    step_kind done s s' [EvEnd (sgi s) (rev (sstk s'))].

Lemma str_eqb_eq s t : str_eqb s t = true <-> s = t.
Proof.
  revert t; induction s as [|a s IH]; intros [|b t]; cbn; split; try discriminate; auto.
  - intros H. apply andb_true_iff in H as [H1 H2]. apply N.eqb_eq in H1. apply IH in H2. congruence.
  - intros H; inversion H; subst. rewrite N.eqb_refl. apply IH. reflexivity.
Qed.
Lemma str_eqb_refl s : str_eqb s s = true.
Proof. apply str_eqb_eq. reflexivity. Qed.

Lemma mstep_kind done s :
  match mstep done s with
  | Fall s' e | Again s' e | Need s' e | Break s' e => step_kind done s s' e
  | Raise x e => e = []
  end.
Proof.
  destruct s as [r c g pe st at0]. unfold mstep; cbn [sc]. destruct c.
  - unfold s_pre_element; cbn [sc rest]. destruct (dropw is_ws r) as [|c x].
    + unfold s_noa. destruct done; apply sk_quiet; cbn; auto.
    + destruct (c =? c_lt)%N; apply sk_quiet; cbn; auto.
  - unfold s_in_element; cbn [sc rest]. destruct (s_cdata is_datachar [c_lt] r) as [d x| |x] eqn:E; auto.
    + destruct d as [|d0 d].
      * apply sk_quiet; cbn; auto.
      * eapply sk_text; cbn; eauto. discriminate.
    + unfold s_noa. destruct done; apply sk_quiet; cbn; auto.
  - unfold s_tag, s_tag_body; cbn [sc rest w_pend]. destruct (dropw is_ws r) as [|c x].
    { unfold s_noa. destruct done; apply sk_quiet; cbn; auto. }
    destruct (true && (c =? c_slash)%N); [apply sk_quiet; cbn; auto|].
    destruct (is_namestart c) eqn:En; [|apply sk_quiet; cbn; auto 6].
    destruct (dropw is_namechar x) as [|c2 x2].
    + unfold s_noa. destruct done; apply sk_quiet; cbn; auto.
    + apply sk_quiet; cbn; auto 6. right; right. eauto.
  - unfold s_tag, s_tag_body; cbn [sc rest w_pend]. destruct (dropw is_ws r) as [|c x].
    { unfold s_noa. destruct done; apply sk_quiet; cbn; auto. }
    destruct (false && (c =? c_slash)%N); [apply sk_quiet; cbn; auto|].
    destruct (is_namestart c) eqn:En; [|apply sk_quiet; cbn; auto 6].
    destruct (dropw is_namechar x) as [|c2 x2].
    + unfold s_noa. destruct done; apply sk_quiet; cbn; auto.
    + apply sk_quiet; cbn; auto 6. right; right. eauto.
  - unfold s_complete_tag, s_after_gt; cbn [sc rest spend sgi sstk satt]. destruct (dropw is_ws r) as [|c x].
    { unfold s_noa. destruct done; apply sk_quiet; cbn; auto 6. }
    destruct (match pe with PendStart => true | PendEnd => false end && is_namestart c);
      [apply sk_quiet; cbn; auto 6|].
    destruct (c =? c_gt)%N; [|reflexivity].
    destruct pe.
    + destruct x; [destruct done|]; match goal with |- step_kind ?d ?s ?s' _ => apply (sk_start d s s'); reflexivity end.
    + destruct st as [|o st]; [reflexivity|]. destruct (str_eqb o g) eqn:Eo; [|reflexivity].
      apply str_eqb_eq in Eo; subst o.
      destruct x; [destruct done|];
      match goal with |- step_kind ?d ?s ?s' _ => apply (sk_end d s s'); reflexivity end.
  - unfold s_complete_doc; cbn [sc rest]. destruct r as [|c0 r0]; [apply sk_quiet; cbn; auto|].
    destruct (dropw is_ws (c0 :: r0)); [|reflexivity].
    unfold s_noa. destruct done; apply sk_quiet; cbn; auto.
  - unfold s_attribute; cbn [sc rest].
    assert (Hq : forall s', sstk s' = st -> satt s' = at0 -> sgi s' = g -> sc s' = Attribute ->
        step_kind done (mkS r Attribute g pe st at0) s' []).
    { intros s' H1 H2 H3 H4. apply sk_quiet; cbn; auto 6. }
    destruct r as [|c0 r0]; [unfold s_noa; destruct done; apply Hq; reflexivity|].
    destruct (dropw is_namechar r0) as [|c1 r1]; [unfold s_noa; destruct done; apply Hq; reflexivity|].
    destruct (dropw is_ws (c1 :: r1)) as [|c r2]; [unfold s_noa; destruct done; apply Hq; reflexivity|].
    destruct (c =? c_eq)%N; [|reflexivity].
    destruct r2 as [|q r3]; [destruct done; [reflexivity|apply Hq; reflexivity]|].
    destruct (is_quote q) eqn:Eq; [|apply Hq; reflexivity].
    destruct (s_cdata (attr_pat q) [q] r3) as [d x| |x] eqn:E; [| |reflexivity].
    + eapply sk_attr; try reflexivity. eauto.
    + unfold s_noa; destruct done; apply Hq; reflexivity.
Qed.

(** ** Nesting *)
Lemma nest_app a evs b evs' c : nest a evs b -> nest b evs' c -> nest a (evs ++ evs') c.
Proof. induction 1; cbn; auto; intros; constructor; auto. Qed.

Lemma nest_nil_open evs c : nest [] evs c -> evs = [] /\ c = [].
Proof. inversion 1; subst; auto; congruence. Qed.

Definition inv_nest (evs : list event) (s : sst) : Prop :=
  match sc s with
  | PreElement => evs = [] /\ sstk s = []
  | InElement => document_events evs (sstk s) /\ sstk s <> []
  | CompleteDoc => document_events evs [] /\ sstk s = []
  | _ => (evs = [] /\ sstk s = []) \/ (document_events evs (sstk s) /\ sstk s <> [])
  end.

Lemma document_events_app evs st e st' : document_events evs st -> nest st e st' -> document_events (evs ++ e) st'.
Proof.
  intros (n & at0 & evs' & -> & H1) H2. exists n, at0, (evs' ++ e). split; [reflexivity|].
  eapply nest_app; eauto.
Qed.

Lemma inv_nest_step done evs s : inv_nest evs s ->
  match mstep done s with
  | Fall s' e | Again s' e | Need s' e | Break s' e => inv_nest (evs ++ e) s'
  | Raise x e => well_nested_prefix (evs ++ e)
  end.
Proof.
  intros HI. pose proof (mstep_kind done s) as Hk.
  assert (Hgo : forall s' e, step_kind done s s' e -> inv_nest (evs ++ e) s').
  { intros s' e Hs. unfold inv_nest in *. inversion Hs; subst; clear Hs.
    - rewrite app_nil_r, H. destruct (sc s) eqn:Es; repeat (destruct H2 as [H2|H2]); rewrite H2; auto;
        destruct HI; auto.
    - rewrite app_nil_r, H1, H0. rewrite H in HI. exact HI.
    - rewrite H in HI. rewrite H0, H1. destruct HI as [HI1 HI2]. right. split; auto.
      eapply document_events_app; eauto. constructor; auto. constructor.
    - rewrite H in HI. rewrite H0, H1. split; [|congruence].
      destruct HI as [[-> Hst]|[HI1 HI2]].
      + rewrite Hst. cbn. exists (sgi s), (satt s), []. split; [reflexivity|constructor].
      + eapply document_events_app; eauto. constructor; auto. constructor.
    - rewrite H in HI. rewrite H3.
      destruct HI as [[-> Hst]|[HI1 HI2]]; [rewrite Hst in H0; discriminate|].
      assert (Hd : document_events (evs ++ [EvEnd (sgi s) (rev (sstk s'))]) (sstk s')).
      { eapply document_events_app; eauto. rewrite H0. constructor. constructor. }
      destruct (sstk s') eqn:E; split; auto; congruence. }
  assert (Hp : well_nested_prefix evs).
  { unfold well_nested_prefix, inv_nest in *. destruct (sc s).
    all: try (destruct HI as [HI1 HI2]; first [left; exact HI1 | right; eauto]).
    all: destruct HI as [[HI1 HI2]|[HI1 HI2]]; [left; exact HI1 | right; eauto]. }
  destruct (mstep done s); auto. subst evs0. rewrite app_nil_r. exact Hp.
Qed.

Lemma inv_nest_prefix evs s : inv_nest evs s -> well_nested_prefix evs.
Proof.
  unfold well_nested_prefix, inv_nest. destruct (sc s).
  all: try (intros [HI1 HI2]; first [left; exact HI1 | right; eauto]; fail).
  all: intros [[HI1 HI2]|[HI1 HI2]]; [left; exact HI1 | right; eauto].
Qed.

Theorem sends_nested l : well_nested_prefix (fst (sends new_parser l)).
Proof.
  apply (sends_inv inv_nest well_nested_prefix).
  - split; reflexivity.
  - intros evs s f H. exact H.
  - intros. apply inv_nest_step; auto.
  - apply inv_nest_prefix.
Qed.

(** ** Legal content *)
Lemma s_charcheck_legal n r c x : s_charcheck n r = SROk c x -> is_character c = true.
Proof.
  unfold s_charcheck. destruct (_ <=? n)%N; [discriminate|]. destruct (_ <=? n)%N; [discriminate|].
  destruct (is_character n) eqn:E; [|discriminate]. intros H; inversion H; subst; auto.
Qed.
Lemma lookup_charname_legal n c : lookup_charname charnames n = Some c -> is_character c = true.
Proof.
  cbn. repeat (destruct (str_eqb n _); [intros H; inversion H; reflexivity|]). discriminate.
Qed.
Lemma s_ref_legal r c x : s_ref r = SROk c x -> is_character c = true.
Proof.
  assert (Hn : forall r, s_namedref r = SROk c x -> is_character c = true).
  { intros r0. unfold s_namedref. destruct (dropw is_alnum r0) as [|d y]; [discriminate|].
    destruct (d =? c_semi)%N; [|discriminate]. destruct (lookup_charname _ _) eqn:E; [|discriminate].
    intros H; inversion H; subst. eapply lookup_charname_legal; eauto. }
  unfold s_ref. destruct r as [|d r]; [discriminate|].
  destruct (d =? c_hash)%N; [|apply Hn]. destruct r as [|d2 r]; [discriminate|].
  destruct (d2 =? c_x)%N; [|apply Hn].
  unfold s_hexref. destruct (dropw is_hex r) as [|d3 y]; [discriminate|].
  destruct (d3 =? c_semi)%N; [|discriminate]. destruct (int16 _); [|discriminate].
  apply s_charcheck_legal.
Qed.

Lemma s_cdata_legal p stop : (forall c, p c = true -> is_character c = true) ->
  forall n s d x, length s <= n -> s_cdata p stop s = SCDone d x -> legal_text d.
Proof.
  intros Hp. unfold legal_text. induction n as [|n IH]; intros s d x Hn H; rewrite s_cdata_eq in H;
    (destruct s as [|c s]; [discriminate|]); cbn [length] in Hn; [lia|].
  destruct (p c) eqn:Ep.
  - destruct (s_cdata p stop s) as [d' x'| |] eqn:E; cbn in H; inversion H; subst.
    intros y [<-|Hy]; auto. eapply IH; eauto; lia.
  - destruct (char_in c stop). { inversion H; subst. intros y []. }
    destruct (c =? c_amp)%N.
    + destruct (s_ref s) as [r y| |] eqn:Er; try discriminate. pose proof (s_ref_length _ _ _ Er).
      destruct (s_cdata p stop y) as [d' x'| |] eqn:E; cbn in H; inversion H; subst.
      intros z [<-|Hz]; [eapply s_ref_legal; eauto|]. eapply IH; eauto; lia.
    + eapply IH; eauto; lia.
Qed.

Lemma datachar_character c : is_datachar c = true -> is_character c = true.
Proof.
  unfold is_datachar, is_character, in_range.
  destruct (high_char c); rewrite ?orb_true_r, ?orb_false_r; auto.
  rewrite !orb_true_iff, !andb_true_iff, !N.leb_le, !N.eqb_eq. lia.
Qed.
Lemma attr_pat_character q c : attr_pat q c = true -> is_character c = true.
Proof.
  unfold attr_pat. destruct (q =? c_sq)%N; unfold is_attr_sgl, is_attr_dbl, is_character, in_range;
  destruct (high_char c); rewrite ?orb_true_r, ?orb_false_r; auto;
  rewrite !orb_true_iff, !andb_true_iff, !N.leb_le, ?N.eqb_eq; lia.
Qed.

Lemma dict_set_keys {A} (d : dict A) k v : 
  map fst (dict_set d k v) = if existsb (fun k' => str_eqb k' k) (map fst d) then map fst d else map fst d ++ [k].
Proof.
  induction d as [|[k' v'] d IH]; cbn; auto.
  destruct (str_eqb k' k) eqn:E; cbn; auto. rewrite IH. destruct (existsb _ _); reflexivity.
Qed.
Lemma dict_set_nodup {A} (d : dict A) k v : NoDup (map fst d) -> NoDup (map fst (dict_set d k v)).
Proof.
  intros H. rewrite dict_set_keys. destruct (existsb _ _) eqn:E; auto.
  assert (Hn : ~ In k (map fst d)).
  { intros Hi. assert (existsb (fun k' => str_eqb k' k) (map fst d) = true); [|congruence].
    apply existsb_exists. exists k. split; auto. apply str_eqb_refl. }
  clear E. induction (map fst d) as [|a l IH]; cbn; [constructor; auto; constructor|].
  inversion H; subst. constructor.
  - intros Hi. apply in_app_or in Hi as [Hi|[->|[]]]; auto. apply Hn; left; auto.
  - apply IH; auto. intros Hi; apply Hn; right; auto.
Qed.
Lemma dict_set_in {A} (d : dict A) k v k' v' : In (k', v') (dict_set d k v) -> In (k', v') d \/ v' = v.
Proof.
  induction d as [|[a b] d IH]; cbn.
  - intros [H|[]]; inversion H; auto.
  - destruct (str_eqb a k); cbn; intros [H|H]; try (inversion H; subst; auto; fail); auto.
    apply IH in H as [H|H]; auto.
Qed.

Definition good_attrs (d : dict str) : Prop :=
  (forall k v, In (k, v) d -> legal_text v) /\ NoDup (map fst d).

Definition inv_legal (evs : list event) (s : sst) : Prop :=
  Forall legal_event evs /\ Forall name_or_empty (sstk s) /\ name_or_empty (sgi s) /\ good_attrs (satt s).

Lemma takew_In p s x : In x (takew p s) -> p x = true.
Proof. intros H. pose proof (takew_all p s) as Ha. rewrite forallb_forall in Ha. auto. Qed.

Lemma inv_legal_step done evs s : inv_legal evs s ->
  match mstep done s with
  | Fall s' e | Again s' e | Need s' e | Break s' e => inv_legal (evs ++ e) s'
  | Raise x e => Forall legal_event (evs ++ e)
  end.
Proof.
  intros (H1 & H2 & H3 & H4). pose proof (mstep_kind done s) as Hk.
  assert (Hgo : forall s' e, step_kind done s s' e -> inv_legal (evs ++ e) s').
  { intros s' e Hs. unfold inv_legal. inversion Hs; subst; clear Hs.
    - rewrite app_nil_r, H, H0. repeat split; auto; try apply H4.
      destruct H5 as [->|[->|(c & r & -> & Hc)]]; [auto|left; auto|right].
      exists c, (takew is_namechar r). repeat split; auto. intros x; apply takew_In.
    - rewrite app_nil_r, H5, H6, H8. destruct H7 as (q & r & x & Hq & Hcd). destruct H4 as [Ha Hb].
      repeat split; auto.
      + intros k w Hi. apply dict_set_in in Hi as [Hi|Hi]; [eauto|subst].
        eapply s_cdata_legal; [apply attr_pat_character| |exact Hcd]; eauto.
      + apply dict_set_nodup; auto.
    - rewrite H5, H6, H7. repeat split; auto; try apply H4. apply Forall_app; split; auto.
      constructor; [|constructor]. split; auto. eapply s_cdata_legal; [apply datachar_character| |eauto]; eauto.
    - rewrite H5, H6, H7. repeat split; auto; try (constructor; auto; fail).
      + apply Forall_app; split; auto. constructor; [|constructor]. destruct H4 as [Ha Hb].
        repeat split; auto. apply Forall_rev; auto.
      + intros k v [].
    - rewrite H5, H6. rewrite H0 in H2. inversion H2; subst. repeat split; auto; try (constructor; auto; fail).
      + apply Forall_app; split; auto. constructor; [|constructor]. split; auto. apply Forall_rev; auto.
      + intros k v []. }
  destruct (mstep done s); auto. subst evs0. rewrite app_nil_r. exact H1.
Qed.

Theorem sends_legal l : Forall legal_event (fst (sends new_parser l)).
Proof.
  apply (sends_inv inv_legal (Forall legal_event)).
  - repeat split; try constructor; auto. intros k v [].
  - intros evs s f H. exact H.
  - intros. apply inv_legal_step; auto.
  - intros evs s H; apply H.
Qed.

(** ** Coalesced text *)
Definition ends_in_text (evs : list event) : Prop := exists a t, evs = a ++ [EvChars t].
Definition inv_text (evs : list event) (s : sst) : Prop :=
  text_coalesced evs /\
  match sc s with PreElement | InElement | CompleteDoc => ~ ends_in_text evs | _ => True end.

Lemma coalesced_snoc evs e : text_coalesced evs ->
  (match e with EvChars _ => ~ ends_in_text evs | _ => True end) -> text_coalesced (evs ++ [e]).
Proof.
  intros H He a t1 t2 b Heq. destruct (rev b) as [|z b'] eqn:Eb.
  - assert (b = []) by (apply (f_equal (@rev _)) in Eb; rewrite rev_involutive in Eb; exact Eb). subst b.
    replace (a ++ [EvChars t1; EvChars t2]) with ((a ++ [EvChars t1]) ++ [EvChars t2]) in Heq by (rewrite <- app_assoc; reflexivity).
    apply app_inj_tail in Heq as [-> ->]. apply He. exists a, t1. reflexivity.
  - assert (Hb : b = rev b' ++ [z]).
    { apply (f_equal (@rev _)) in Eb. rewrite rev_involutive in Eb. cbn in Eb. exact Eb. }
    subst b. replace (a ++ EvChars t1 :: EvChars t2 :: rev b' ++ [z])
      with ((a ++ EvChars t1 :: EvChars t2 :: rev b') ++ [z]) in Heq by (rewrite <- app_assoc; reflexivity).
    apply app_inj_tail in Heq as [-> ->]. eapply H; reflexivity.
Qed.

Lemma inv_text_step done evs s : inv_text evs s ->
  match mstep done s with
  | Fall s' e | Again s' e | Need s' e | Break s' e => inv_text (evs ++ e) s'
  | Raise x e => text_coalesced (evs ++ e)
  end.
Proof.
  intros (H1 & H2). pose proof (mstep_kind done s) as Hk.
  assert (Hsn : forall e, (match e with EvChars _ => False | _ => True end) -> ~ ends_in_text (evs ++ [e])).
  { intros e He (a & t & Heq). apply app_inj_tail in Heq as [_ ->]. exact He. }
  assert (Hgo : forall s' e, step_kind done s s' e -> inv_text (evs ++ e) s').
  { intros s' e Hs. unfold inv_text. inversion Hs; subst; clear Hs.
    - rewrite app_nil_r. split; auto.
      destruct (sc s) eqn:Es; repeat (destruct H4 as [H4|H4]); rewrite H4; auto.
    - rewrite app_nil_r, H0. auto.
    - rewrite H in H2. split; [apply coalesced_snoc; auto|rewrite H0; auto].
    - split; [apply coalesced_snoc; auto|rewrite H0; auto].
    - split; [apply coalesced_snoc; auto|]. rewrite H5. destruct (sstk s'); auto. }
  destruct (mstep done s); auto. subst evs0. rewrite app_nil_r. exact H1.
Qed.

Theorem sends_coalesced l : text_coalesced (fst (sends new_parser l)).
Proof.
  apply (sends_inv inv_text text_coalesced).
  - split; [|intros (a & t & H); destruct a; discriminate]. intros a t1 t2 b H; destruct a; discriminate.
  - intros evs s f H. exact H.
  - intros. apply inv_text_step; auto.
  - intros evs s H; apply H.
Qed.

(** ** Streaming: more input only adds events *)
Definition lev {A} (r : lres A) : list event := match r with LStop _ e => e | LRaise _ e => e | LHang e => e end.
Lemma lev_prepend {A} e (r : lres A) : lev (lprepend e r) = e ++ lev r.
Proof. destruct r; reflexivity. Qed.

Lemma M_ext_stuck f s : stuck (mstep false) s -> M false (ext s f) = LHang [].
Proof.
  intros Hs. apply M_stuck. destruct Hs as [Hs|Hs].
  - left. rewrite (mstep_ext s s [] f) by auto. rewrite Hs. reflexivity.
  - right. rewrite (mstep_ext s s [] f) by auto. rewrite Hs. reflexivity.
Qed.

Lemma need_first_events s s' e : mstep false s = Need s' e \/ mstep false s = Break s' e -> e <> [] ->
  ~ value_incomplete s.
Proof.
  intros H He (Hsc & _). unfold mstep in H. rewrite Hsc in H. unfold s_attribute in H. rewrite Hsc in H.
  unfold s_noa in H.
  repeat match type of H with
  | (match ?x with _ => _ end) = _ \/ _ => destruct x; try (destruct H as [H|H]; inversion H; subst; congruence)
  end.
Qed.

Lemma M_prefix f : f <> [] -> forall k s, mu s <= k ->
  exists e2, lev (M false (ext s f)) = lev (M false s) ++ e2.
Proof.
  intros Hf. induction k as [k IHk] using lt_wf_ind. intros s Hk.
  destruct (mstep false s) as [s' e|s' e|s' e|s' e|x e] eqn:E.
  - rewrite (M_eq false (ext s f)), (M_eq false s), (mstep_ext s s' e f (or_introl E)), E.
    cbn [flow_ext flow_map flow_run]. rewrite !lev_prepend.
    destruct (mstep_decreasing false s s' e (or_introl E)) as [Hd|Hd].
    + destruct (IHk (mu s') ltac:(lia) s' ltac:(lia)) as (e2 & ->). exists e2. apply app_assoc.
    + rewrite (M_ext_stuck f s' Hd), (M_stuck _ _ Hd). exists []. cbn. rewrite !app_nil_r. reflexivity.
  - rewrite (M_eq false (ext s f)), (M_eq false s), (mstep_ext s s' e f (or_intror E)), E.
    cbn [flow_ext flow_map flow_run]. rewrite !lev_prepend.
    destruct (mstep_decreasing false s s' e (or_intror E)) as [Hd|Hd].
    + destruct (IHk (mu s') ltac:(lia) s' ltac:(lia)) as (e2 & ->). exists e2. apply app_assoc.
    + rewrite (M_ext_stuck f s' Hd), (M_stuck _ _ Hd). exists []. cbn. rewrite !app_nil_r. reflexivity.
  - rewrite (M_eq false s), E. cbn [flow_run lev].
    destruct e as [|e0 e]; [eexists; reflexivity|].
    destruct (mstep_ext_need s s' (e0 :: e) f Hf (or_introl E)) as [H|H].
    + rewrite H, lev_prepend. eexists; reflexivity.
    + exfalso. eapply need_first_events; eauto. discriminate.
  - rewrite (M_eq false s), E. cbn [flow_run lev].
    destruct e as [|e0 e]; [eexists; reflexivity|].
    destruct (mstep_ext_need s s' (e0 :: e) f Hf (or_intror E)) as [H|H].
    + rewrite H, lev_prepend. eexists; reflexivity.
    + exfalso. eapply need_first_events; eauto. discriminate.
  - rewrite (M_eq false (ext s f)), (M_eq false s), (mstep_ext_raise _ _ _ f E), E.
    exists []. rewrite app_nil_r. reflexivity.
Qed.

(** Feeding one piece. *)
Lemma feed_one_events (text : str) : text <> [] -> fst (feed [text]) = lev (M false (start_state text)).
Proof.
  intros Ht. unfold feed; cbn [map]. rewrite sends_cons.
  pose proof (send_M [] init_pst text false ok_init Ht) as Hs. rewrite abs_init in Hs.
  change new_parser with (GRun init_pst).
  destruct (M false (start_state text)) as [t e|x e|e].
  - destruct Hs as (g & -> & _). cbn. apply app_nil_r.
  - rewrite Hs. reflexivity.
  - rewrite Hs. reflexivity.
Qed.

Theorem feed_streaming (text more : str) : exists later, fst (feed [text ++ more]) = fst (feed [text]) ++ later.
Proof.
  destruct more as [|m more]; [exists []; rewrite !app_nil_r; reflexivity|].
  destruct text as [|c text]; [eexists; cbn; reflexivity|].
  rewrite !feed_one_events by discriminate.
  destruct (M_prefix (m :: more) ltac:(discriminate) _ (start_state (c :: text)) (le_n _)) as (e2 & H).
  exists e2. exact H.
Qed.

