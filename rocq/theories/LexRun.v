(** Whole runs, documents, and runs that get in each other's way. *)
From Verif Require Import PyStr CharClass TreeUtil XTree Grammar Lex LexSpec LexFacts LexScan.
Local Open Scope N_scope.

Lemma lexeme_nonempty st t v raw rest st' : lexeme st t v raw rest st' -> raw <> [].
Proof.
  intros H. inversion H; subst; try discriminate;
  match goal with
  | K : run_of _ _ _ |- _ => destruct K as (K & _); exact K
  | K : entity _ _ _ |- _ => unfold entity in K; cbn [In] in K; repeat destruct K as [K|K]; try contradiction; inversion K; subst; discriminate
  | K : name _ |- _ => destruct K as (? & ? & -> & _); discriminate
  end.
Qed.
Lemma lexeme_fun st t v raw rest st1 t' v' raw' rest' st1' : lexeme st t v raw rest st1 -> lexeme st t' v' raw' rest' st1' -> raw ++ rest = raw' ++ rest' ->
  t = t' /\ v = v' /\ raw = raw' /\ rest = rest' /\ st1 = st1'.
Proof.
  intros H H' E. apply step_complete in H as (H1 & H2 & H3). apply step_complete in H' as (H1' & H2' & H3'). rewrite E in H1. rewrite H1 in H1'. inversion H1'; subst t' rest'.
  assert (Er : raw = raw') by (eapply app_inv_tail; exact E). subst raw'. repeat split; congruence.
Qed.
Lemma no_lexeme st s : first_match (rules st) s = None <-> (forall t v raw rest st1, s = raw ++ rest -> ~ lexeme st t v raw rest st1).
Proof.
  split.
  - intros H t v raw rest st1 -> Hl. apply step_complete in Hl as (H1 & _). congruence.
  - intros H. destruct (first_match (rules st) s) as [(t & rest)|] eqn:E; [|reflexivity]. apply step_sound in E as (raw & E & Hl). exfalso. eapply H; eauto.
Qed.
Lemma scans_inv st p s o st' : scans st p s o st' ->
  (s = [] /\ o = [] /\ st' = st) \/
  (exists t v raw rest st1 out, s = raw ++ rest /\ o = Tok (mkTok t v p) :: out /\ lexeme st t v raw rest st1 /\ scans st1 (p + length raw) rest out st') \/
  (exists c r out, s = c :: r /\ o = Bad c :: out /\ (forall t v raw rest st1, c :: r = raw ++ rest -> ~ lexeme st t v raw rest st1) /\ scans st (S p) r out st').
Proof. intros H. destruct H; [left; auto|right; left|right; right]; repeat eexists; eauto. Qed.
Lemma scans_fun st p s o st' : scans st p s o st' -> forall o2 st2, scans st p s o2 st2 -> o = o2 /\ st' = st2.
Proof.
  induction 1 as [st p|st t v raw rest st1 p out st2 Hl Hs IH|st c r p out st2 Hn Hs IH]; intros o' st' H';
  apply scans_inv in H' as [(E & E2 & E3)|[(t' & v' & raw' & rest' & st1' & out' & E & -> & Hl' & Hs')|(c' & r' & out' & E & -> & Hn' & Hs')]].
  - auto.
  - apply lexeme_nonempty in Hl'. destruct raw'; [congruence|discriminate].
  - discriminate.
  - apply lexeme_nonempty in Hl. destruct raw; [congruence|discriminate].
  - destruct (lexeme_fun _ _ _ _ _ _ _ _ _ _ _ Hl Hl' E) as (<- & <- & <- & <- & <-). destruct (IH _ _ Hs') as (<- & <-). auto.
  - exfalso. eapply Hn'; [symmetry; exact E|exact Hl].
  - discriminate.
  - exfalso. eapply Hn; [exact E|exact Hl'].
  - inversion E; subst c' r'. destruct (IH _ _ Hs') as (<- & <-). auto.
Qed.

(** ** token and run *)
Lemma token_f_spec fuel : forall st s p bad ot l', (length s < fuel)%nat -> token_f fuel (mkLex st s p) = (bad, ot, l') ->
  match ot with
  | None => l' = mkLex st [] (p + length s) /\ scans st p s (map Bad bad) st
  | Some t => (length (l_rest l') < length s)%nat /\ (l_pos l' + length (l_rest l') = p + length s)%nat /\
      forall out st', scans (l_state l') (l_pos l') (l_rest l') out st' -> scans st p s (map Bad bad ++ Tok t :: out) st'
  end.
Proof.
  induction fuel as [|fuel IH]; intros st s p bad ot l' Hf H; [lia|]. cbn [token_f l_rest l_state l_pos] in H. destruct s as [|c r].
  - inversion H; subst. cbn [length map]. rewrite Nat.add_0_r. split; [reflexivity|constructor].
  - destruct (first_match (rules st) (c :: r)) as [(t & rest)|] eqn:E.
    + destruct (step_sound _ _ _ _ E) as (raw & Eraw & Hl). inversion H; subst bad ot l'. cbn [l_rest l_pos l_state]. rewrite Eraw, taken_app.
      pose proof (lexeme_nonempty _ _ _ _ _ _ Hl) as Hne. rewrite app_length. split; [destruct raw; [congruence|cbn [length]; lia]|]. split; [lia|].
      intros out st' Hs. cbn [map app]. eapply sc_tok; eassumption.
    + destruct (token_f fuel (mkLex st r (S p))) as ((bad' & ot') & l2) eqn:Et. inversion H; subst bad ot l'. apply IH in Et; [|cbn [length] in Hf; lia].
      pose proof (proj1 (no_lexeme _ _) E) as Hn. destruct ot' as [t|].
      * destruct Et as (E1 & E2 & E3). split; [cbn [length]; lia|]. split; [cbn [length]; lia|]. intros out st' Hs. cbn [map app]. apply sc_bad; [exact Hn|]. apply E3. exact Hs.
      * destruct Et as (E1 & E2). split; [rewrite E1; f_equal; cbn [length]; lia|]. cbn [map]. apply sc_bad; assumption.
Qed.
Lemma drain_spec n : forall fuel st s p, (length s <= n)%nat -> (length s < fuel)%nat ->
  exists out st', drain fuel GOn (mkLex st s p) = (out, mkLex st' [] (p + length s)) /\ scans st p s out st'.
Proof.
  induction n as [|n IH]; intros fuel st s p Hn Hf; (destruct fuel as [|fuel]; [lia|]); cbn [drain gnext]; unfold gresume, token; cbn [l_rest].
  - destruct (token_f (S (length s)) (mkLex st s p)) as ((bad & ot) & l') eqn:E. apply token_f_spec in E; [|lia]. destruct ot as [t|].
    + destruct E as (E & _). lia.
    + destruct E as (-> & E). eauto.
  - destruct (token_f (S (length s)) (mkLex st s p)) as ((bad & ot) & l') eqn:E. apply token_f_spec in E; [|lia]. destruct ot as [t|].
    + destruct E as (E1 & E2 & E3). destruct l' as [st1 r1 p1]. cbn [l_rest l_pos l_state] in *. destruct (IH fuel st1 r1 p1) as (out & st' & Ed & Hs); [lia|lia|]. rewrite Ed, E2.
      eexists. eexists. split; [reflexivity|]. apply E3. exact Hs.
    + destruct E as (-> & E). eauto.
Qed.
Lemma drain_new fuel l s : drain (S fuel) (GNew s) l = drain (S fuel) GOn (input l (normalise s)).
Proof. reflexivity. Qed.
Lemma run_exists l s : exists out st', run l s = (out, mkLex st' [] (length (normalise s))) /\ scans (l_state l) 0 (normalise s) out st'.
Proof. unfold run. rewrite drain_new. unfold input. destruct (drain_spec (length (normalise s)) (S (length (normalise s))) (l_state l) (normalise s) 0) as (out & st' & E & H); [lia|lia|]. exists out, st'. auto. Qed.
Lemma run_scans l s out l' : run l s = (out, l') <-> exists st', l' = mkLex st' [] (length (normalise s)) /\ scans (l_state l) 0 (normalise s) out st'.
Proof.
  destruct (run_exists l s) as (o & st & E & H). rewrite E. split.
  - intros H'. inversion H'; subst. eauto.
  - intros (st' & -> & H'). destruct (scans_fun _ _ _ _ _ H _ _ H') as (-> & ->). reflexivity.
Qed.
Lemma scans_text st p s out st' : scans st p s out st' -> exists raws, length raws = length out /\ s = concat raws /\
  forall k i, nth_error out k = Some i -> exists raw, nth_error raws k = Some raw /\
    match i with
    | Tok t => t_pos t = (p + length (concat (firstn k raws)))%nat /\ raw <> [] /\ exists sk st1, lexeme sk (t_type t) (t_value t) raw (concat (skipn (S k) raws)) st1
    | Bad c => raw = [c]
    end.
Proof.
  induction 1 as [st p|st t v raw rest st1 p out st2 Hl Hs (raws & E1 & E2 & IH)|st c r p out st2 Hn Hs (raws & E1 & E2 & IH)].
  - exists []. split; [reflexivity|]. split; [reflexivity|]. intros [|k] i H; discriminate.
  - exists (raw :: raws). split; [cbn [length]; lia|]. split; [cbn [concat]; congruence|]. intros [|k] i H; cbn [nth_error] in H.
    + inversion H; subst i. exists raw. split; [reflexivity|]. cbn [t_pos t_type t_value firstn concat length skipn]. split; [lia|]. split; [eapply lexeme_nonempty; exact Hl|]. exists st, st1. rewrite <- E2. exact Hl.
    + destruct (IH k i H) as (raw' & Hr & Hi). exists raw'. split; [exact Hr|]. destruct i as [t'|c]; [|exact Hi]. destruct Hi as (Hp & Hx). split; [rewrite Hp; cbn [firstn concat]; rewrite app_length; lia|exact Hx].
  - exists ([c] :: raws). split; [cbn [length]; lia|]. split; [cbn [concat app]; congruence|]. intros [|k] i H; cbn [nth_error] in H.
    + inversion H; subst i. exists [c]. auto.
    + destruct (IH k i H) as (raw' & Hr & Hi). exists raw'. split; [exact Hr|]. destruct i as [t'|d]; [|exact Hi]. destruct Hi as (Hp & Hx). split; [rewrite Hp; cbn [firstn concat app length]; lia|exact Hx].
Qed.

(** ** Documents *)
Definition passes (st : lstate) (s rest : str) (toks : list (ttype * str)) (st' : lstate) : Prop :=
  forall p out st2, scans st' (p + length s) rest out st2 -> exists o, scans st p (s ++ rest) (o ++ out) st2 /\ tokens o = toks /\ wsp (illegal o).
Lemma passes_nil st rest : passes st [] rest [] st.
Proof. intros p out st2 H. cbn [length] in H. rewrite Nat.add_0_r in H. exists []. split; [exact H|]. split; [reflexivity|constructor]. Qed.
Lemma passes_app st1 s1 s2 rest t1 t2 st2 st3 : passes st1 s1 (s2 ++ rest) t1 st2 -> passes st2 s2 rest t2 st3 -> passes st1 (s1 ++ s2) rest (t1 ++ t2) st3.
Proof.
  intros H1 H2 p out st4 Hs. rewrite app_length, Nat.add_assoc in Hs. destruct (H2 _ _ _ Hs) as (o2 & Hs2 & Ht2 & Hw2). destruct (H1 _ _ _ Hs2) as (o1 & Hs1 & Ht1 & Hw1).
  exists (o1 ++ o2). split; [rewrite <- !app_assoc; exact Hs1|]. unfold tokens, illegal in *. rewrite !flat_map_app. split; [congruence|]. apply Forall_app. auto.
Qed.
Lemma passes_tok st t v raw rest st1 : lexeme st t v raw rest st1 -> passes st raw rest [(t, v)] st1.
Proof. intros H p out st2 Hs. exists [Tok (mkTok t v p)]. split; [cbn [app]; eapply sc_tok; eassumption|]. split; [reflexivity|constructor]. Qed.
(** White space in a tag *)
Lemma passes_ws w rest : wsp w -> passes STag w rest [] STag.
Proof.
  induction w as [|c w IH]; intros H; [apply passes_nil|]. inversion H; subst. intros p out st2 Hs. destruct (IH H3 (S p) out st2) as (o & Ho & Ht & Hw); [cbn [length] in Hs; rewrite Nat.add_succ_comm; exact Hs|].
  exists (Bad c :: o). split; [|split; [exact Ht|cbn [illegal flat_map app]; constructor; assumption]]. cbn [app]. apply sc_bad; [|exact Ho]. apply no_lexeme.
  cbn in H2. repeat destruct H2 as [<- | H2]; [reflexivity..|destruct H2].
Qed.

Definition char_state (f : chr -> bool) (st : lstate) : Prop :=
  (f = is_datachar /\ st = SData) \/ (f = is_attr_sgl /\ st = SSgl) \/ (f = is_attr_dbl /\ st = SDbl).
Lemma char_state_run f st s rest : char_state f st -> run_of f s rest -> lexeme st CHARDATA s s rest st.
Proof. intros [(-> & ->)|[(-> & ->)|(-> & ->)]] H; [apply lx_data|apply lx_sgl|apply lx_dbl]; exact H. Qed.
Lemma char_state_amp f st : char_state f st -> f c_amp = false /\ st <> STag.
Proof. intros [(-> & ->)|[(-> & ->)|(-> & ->)]]; (split; [reflexivity|discriminate]). Qed.
Lemma passes_cdata f st raw v : char_state f st -> cdata no_drop f raw v -> forall rest pre, ~ head_is f rest -> (forall c, In c pre -> f c = true) ->
  exists toks, passes st (pre ++ raw) rest toks st /\ text_of toks (pre ++ v).
Proof.
  intros Hf H. destruct (char_state_amp _ _ Hf) as (Hamp & Hst).
  assert (Hpre : forall pre rest, ~ head_is f rest -> (forall c, In c pre -> f c = true) -> exists toks, passes st pre rest toks st /\ forall l v, text_of l v -> text_of (toks ++ l) (pre ++ v)).
  { intros pre rest Hr Hp. destruct pre as [|c pre]; [exists []; split; [apply passes_nil|intros l v0 Hl; exact Hl]|]. exists [(CHARDATA, c :: pre)]. split.
    - apply passes_tok. apply (char_state_run f); [exact Hf|]. split; [discriminate|]. auto.
    - intros l v0 Hl. cbn [app]. apply (to_data (c :: pre)). exact Hl. }
  induction H as [|c raw v Hc H IH|body c raw v Hb H IH|c raw v Hd Hc H IH]; intros rest pre Hr Hp.
  - destruct (Hpre pre rest Hr Hp) as (toks & H1 & H2). exists toks. rewrite app_nil_r. split; [exact H1|]. specialize (H2 [] [] to_nil). rewrite !app_nil_r in H2. exact H2.
  - destruct (IH rest (pre ++ [c]) Hr) as (toks & H1 & H2); [intros d Hd; apply in_app_or in Hd as [Hd|[<- |[]]]; auto|]. rewrite <- !app_assoc in H1, H2. exists toks. split; assumption.
  - assert (Hh : forall r, ~ head_is f (c_amp :: r)) by (intros r (x & y & E & Hx); inversion E; subst; congruence).
    destruct (Hpre pre ((c_amp :: body ++ c_semi :: raw) ++ rest) (Hh _) Hp) as (t0 & H1 & H2). destruct (IH rest [] Hr) as (t1 & H3 & H4); [intros ? []|]. cbn [app] in H3, H4.
    assert (Hent : exists t2 v2, lexeme st t2 v2 (c_amp :: body ++ [c_semi]) (raw ++ rest) st /\ forall l u, text_of l u -> text_of ((t2, v2) :: l) (c :: u)).
    { destruct Hb as [| | | | |ds Hn Hd Hch].
      - exists LT_ENT, (lit "&lt;"). split; [apply (lx_ent st LT_ENT _ c_lt); [exact Hst|cbn; tauto]|]. intros l u Hl. apply to_ent; [cbn; tauto|exact Hl].
      - exists GT_ENT, (lit "&gt;"). split; [apply (lx_ent st GT_ENT _ c_gt); [exact Hst|cbn; tauto]|]. intros l u Hl. apply to_ent; [cbn; tauto|exact Hl].
      - exists AMP_ENT, (lit "&amp;"). split; [apply (lx_ent st AMP_ENT _ c_amp); [exact Hst|cbn; tauto]|]. intros l u Hl. apply to_ent; [cbn; tauto|exact Hl].
      - exists QUOT_ENT, (lit "&quot;"). split; [apply (lx_ent st QUOT_ENT _ c_dq); [exact Hst|cbn; tauto]|]. intros l u Hl. apply to_ent; [cbn; tauto|exact Hl].
      - exists APOS_ENT, (lit "&apos;"). split; [apply (lx_ent st APOS_ENT _ c_sq); [exact Hst|cbn; tauto]|]. intros l u Hl. apply to_ent; [cbn; tauto|exact Hl].
      - exists NUM_ENT, ds. split; [apply (lx_num st ds); assumption|]. intros l u Hl. apply to_num. exact Hl. }
    destruct Hent as (t2 & v2 & Hl & Htx). exists (t0 ++ (t2, v2) :: t1). split.
    + apply passes_app with st; [exact H1|]. change ((t2, v2) :: t1) with ([(t2, v2)] ++ t1). change (c_amp :: body ++ c_semi :: raw) with ((c_amp :: body) ++ [c_semi] ++ raw). rewrite app_assoc.
      apply passes_app with st; [|exact H3]. apply passes_tok. exact Hl.
    + apply H2. apply Htx. exact H4.
  - destruct Hd.
Qed.
Lemma blank_wsp w : blank w -> ~ In c_cr w -> wsp w.
Proof.
  intros H Hc. apply wsp_spec. intros c Hin. specialize (H c Hin). unfold is_ws, lex_ws, char_in in *. cbn [existsb] in *. rewrite !orb_true_iff, !N.eqb_eq in *.
  destruct H as [H|[H|[H|[H|H]]]]; auto; try discriminate. subst c. contradiction.
Qed.
Lemma not_in_app (c : chr) a b : ~ In c (a ++ b) -> ~ In c a /\ ~ In c b.
Proof. intros H. split; intros K; apply H; apply in_or_app; auto. Qed.
Lemma quote_state q : is_quote q = true -> exists t st, quote_of t [q] /\ (forall rest, lexeme STag t [q] [q] rest st) /\ (forall rest, lexeme st t [q] [q] rest STag) /\
  char_state (value_char q) st /\ forall rest, ~ head_is (value_char q) (q :: rest).
Proof.
  intros H. unfold is_quote, char_in in H. cbn [existsb] in H. rewrite !orb_true_iff, !N.eqb_eq in H. destruct H as [-> | [-> | H]]; [| |discriminate].
  - exists DBL_QUOTE, SDbl. split; [right; auto|]. split; [intros; apply lx_open_dbl|]. split; [intros; apply lx_close_dbl|]. split; [right; right; auto|]. intros rest (c & r & E & Hc). inversion E; subst. discriminate.
  - exists SGL_QUOTE, SSgl. split; [left; auto|]. split; [intros; apply lx_open_sgl|]. split; [intros; apply lx_close_sgl|]. split; [right; left; auto|]. intros rest (c & r & E & Hc). inversion E; subst. discriminate.
Qed.
Lemma passes_attrs s d : strict_attrs s d -> ~ In c_cr s -> forall rest, exists w s' toks, s = w ++ s' /\ wsp w /\ (s' = [] \/ (head_is is_namestart s' /\ w <> [])) /\
  passes STag s' rest toks STag /\ attrs_of toks d.
Proof.
  induction 1 as [w Hw|w n w1 q raw v r d Hw Hwn Hn Hw1 Hq Hraw Hr IH Hnd]; intros Hc rest.
  - exists w, [], []. rewrite app_nil_r. split; [reflexivity|]. split; [apply blank_wsp; assumption|]. split; [left; reflexivity|]. split; [apply passes_nil|constructor].
  - apply not_in_app in Hc as (Hc1 & Hc). apply not_in_app in Hc as (Hc2 & Hc). apply not_in_app in Hc as (Hc3 & Hc). assert (Hc4 : ~ In c_cr r).
    { intros K. apply Hc. right. right. apply in_or_app. right. right. exact K. }
    destruct (IH Hc4 rest) as (w2 & s2 & t2 & -> & Hw2 & Hs2 & Hp2 & Ha2). destruct (quote_state q Hq) as (tq & sq & Hqo & Hopen & Hclose & Hcs & Hqh).
    destruct (passes_cdata (value_char q) sq raw v Hcs Hraw (q :: (w2 ++ s2) ++ rest) [] (Hqh _)) as (t1 & Hp1 & Ht1); [intros ? []|]. cbn [app] in Hp1, Ht1.
    exists w, (n ++ w1 ++ c_eq :: q :: raw ++ q :: w2 ++ s2), ((NAME, n) :: (EQ, lit "=") :: (tq, [q]) :: t1 ++ (tq, [q]) :: t2).
    split; [reflexivity|]. split; [apply blank_wsp; assumption|]. split; [right; split; [|exact Hwn]; destruct Hn as (c & nr & -> & Hcn & _); exists c; eexists; split; [reflexivity|exact Hcn]|].
    split; [|apply ao_cons; assumption].
    assert (Hw1' : wsp w1) by (apply blank_wsp; assumption).
    change ((NAME, n) :: (EQ, lit "=") :: (tq, [q]) :: t1 ++ (tq, [q]) :: t2) with ([(NAME, n)] ++ [] ++ [(EQ, lit "=")] ++ [(tq, [q])] ++ t1 ++ [(tq, [q])] ++ [] ++ t2).
    change (n ++ w1 ++ c_eq :: q :: raw ++ q :: w2 ++ s2) with (n ++ w1 ++ [c_eq] ++ [q] ++ raw ++ [q] ++ w2 ++ s2).
    apply passes_app with STag.
    { apply passes_tok. apply lx_name; [exact Hn|]. rewrite <- !app_assoc. apply (not_head_app lex_ws); [apply wsp_spec; exact Hw1'|exact ws_not_name|]. intros (c & x & E & Hx). inversion E; subst. discriminate. }
    apply passes_app with STag; [apply passes_ws; exact Hw1'|]. apply passes_app with STag; [apply passes_tok; apply lx_eq|]. apply passes_app with sq; [apply passes_tok; apply Hopen|].
    apply passes_app with sq; [rewrite <- app_assoc; exact Hp1|]. apply passes_app with STag; [apply passes_tok; apply Hclose|]. apply passes_app with STag; [apply passes_ws; exact Hw2|exact Hp2].
Qed.
Lemma not_data_lt r : ~ head_is is_datachar (c_lt :: r).
Proof. intros (c & x & E & Hx). inversion E; subst. discriminate. Qed.
Lemma elem_starts e t : strict_elem e t -> exists r, e = c_lt :: r.
Proof. intros H. destruct H. eexists. reflexivity. Qed.
Lemma passes_elem e t : strict_elem e t -> ~ In c_cr e -> ~ In ogham e -> forall rest, exists toks, passes SData e rest toks SData /\ elem_of toks t.
Proof.
  revert e t. apply (strict_elem_mut
    (fun e t => ~ In c_cr e -> ~ In ogham e -> forall rest, exists toks, passes SData e rest toks SData /\ elem_of toks t)
    (fun c ks => ~ In c_cr c -> ~ In ogham c -> forall rest, exists toks, passes SData c (c_lt :: rest) toks SData /\ content_of toks ks)).
  - intros n attrs d content kids w Hn Hattrs _ IH Hw Hcr Hog rest.
    change (c_lt :: n ++ attrs ++ c_gt :: content ++ c_lt :: c_slash :: n ++ w ++ [c_gt]) with ([c_lt] ++ n ++ attrs ++ [c_gt] ++ content ++ [c_lt; c_slash] ++ n ++ w ++ [c_gt]) in *.
    apply not_in_app in Hcr as (_ & Hcr). apply not_in_app in Hcr as (_ & Hcr). apply not_in_app in Hcr as (Hc1 & Hcr). apply not_in_app in Hcr as (_ & Hcr). apply not_in_app in Hcr as (Hc2 & Hcr).
    apply not_in_app in Hcr as (_ & Hcr). apply not_in_app in Hcr as (_ & Hcr). apply not_in_app in Hcr as (Hc3 & _).
    apply not_in_app in Hog as (_ & Hog). apply not_in_app in Hog as (Ho1 & Hog). apply not_in_app in Hog as (_ & Hog). apply not_in_app in Hog as (_ & Hog). apply not_in_app in Hog as (Ho2 & _).
    destruct (passes_attrs attrs d Hattrs Hc1 ([c_gt] ++ content ++ [c_lt; c_slash] ++ n ++ w ++ [c_gt] ++ rest)) as (w1 & s' & ta & -> & Hw1 & Hs' & Hpa & Ha).
    destruct (IH Hc2 Ho2 ([c_slash] ++ n ++ w ++ [c_gt] ++ rest)) as (tc & Hpc & Hcc).
    exists ((STARTTAG, n) :: ta ++ (GT, lit ">") :: tc ++ [(ENDTAG, n)]). split; [|apply eo; assumption].
    assert (Htr : trimmed n n) by (apply trimmed_plain; [exact Ho1|destruct Hn as (c & r & -> & _); discriminate]).
    replace ([c_lt] ++ n ++ (w1 ++ s') ++ [c_gt] ++ content ++ [c_lt; c_slash] ++ n ++ w ++ [c_gt]) with ((lit "<" ++ [] ++ n ++ w1) ++ s' ++ [c_gt] ++ content ++ (lit "</" ++ [] ++ n ++ w ++ lit ">")) by assoc.
    change ((STARTTAG, n) :: ta ++ (GT, lit ">") :: tc ++ [(ENDTAG, n)]) with ([(STARTTAG, n)] ++ ta ++ [(GT, lit ">")] ++ tc ++ [(ENDTAG, n)]).
    apply passes_app with STag.
    { apply passes_tok. apply lx_start; [constructor|exact Hn|exact Htr|exact Hw1| |].
      - destruct Hs' as [-> |(_ & Hne)].
        + apply (not_head_app lex_ws); [apply wsp_spec; exact Hw1|exact ws_not_name|]. intros (c & x & E & Hx). inversion E; subst. discriminate.
        + destruct w1 as [|c w1]; [congruence|]. intros (c' & x & E & Hx). inversion E; subst c'. rewrite ws_not_name in Hx; [discriminate|]. apply (proj1 (wsp_spec _) Hw1). left. reflexivity.
      - destruct Hs' as [-> |((c & x & -> & Hx) & _)]; intros (c' & y & E & Hy); inversion E; subst c'; [discriminate|]. rewrite (ws_not_start _ Hy) in Hx. discriminate. }
    apply passes_app with STag.
    { replace (([c_gt] ++ content ++ lit "</" ++ [] ++ n ++ w ++ lit ">") ++ rest) with ([c_gt] ++ content ++ [c_lt; c_slash] ++ n ++ w ++ [c_gt] ++ rest) by assoc. exact Hpa. }
    apply passes_app with SData; [apply passes_tok; apply lx_close|]. apply passes_app with SData.
    { replace ((lit "</" ++ [] ++ n ++ w ++ lit ">") ++ rest) with (c_lt :: [c_slash] ++ n ++ w ++ [c_gt] ++ rest) by assoc. exact Hpc. }
    apply passes_tok. apply lx_end; [constructor|exact Hn|exact Htr|]. apply blank_wsp; assumption.
  - intros raw v Hraw Hcr Hog rest. destruct (passes_cdata is_datachar SData raw v (or_introl (conj eq_refl eq_refl)) Hraw (c_lt :: rest) [] (not_data_lt _)) as (toks & Hp & Ht); [intros ? []|].
    exists toks. split; [exact Hp|]. apply co_last. exact Ht.
  - intros raw v e t r ks Hraw He IHe _ IHr Hcr Hog rest.
    apply not_in_app in Hcr as (Hc1 & Hcr). apply not_in_app in Hcr as (Hc2 & Hc3). apply not_in_app in Hog as (Ho1 & Hog). apply not_in_app in Hog as (Ho2 & Ho3).
    destruct (IHr Hc3 Ho3 rest) as (tr & Hpr & Hcr). destruct (IHe Hc2 Ho2 (r ++ c_lt :: rest)) as (te & Hpe & Hee). destruct (elem_starts e t He) as (e' & Ee).
    destruct (passes_cdata is_datachar SData raw v (or_introl (conj eq_refl eq_refl)) Hraw ((e ++ r) ++ c_lt :: rest) []) as (tt & Hpt & Htt); [rewrite Ee; apply not_data_lt|intros ? []|].
    exists (tt ++ te ++ tr). split; [|apply co_elem; assumption]. apply passes_app with SData; [exact Hpt|]. apply passes_app with SData; [exact Hpe|exact Hpr].
Qed.
Lemma passes_blank w rest : wsp w -> ~ head_is is_datachar rest -> passes SData w rest (match w with [] => [] | _ => [(CHARDATA, w)] end) SData.
Proof.
  intros Hw Hr. destruct w as [|c w]; [apply passes_nil|]. apply passes_tok. apply lx_data. split; [discriminate|]. split; [|exact Hr]. intros d Hd. apply ws_data. apply (proj1 (wsp_spec _) Hw). exact Hd.
Qed.
Lemma run_strict l s t : l_state l = SData -> strict_doc (normalise s) t -> ~ In ogham (normalise s) -> exists out l' w1 e w2, run l s = (out, l') /\ l_state l' = SData /\ tokens out = blank_token w1 ++ e ++ blank_token w2 /\ wsp w1 /\ wsp w2 /\ elem_of e t /\ wsp (illegal out).
Proof.
  intros Hl (w1 & e & w2 & E & Hw1 & Hw2 & He) Ho. assert (Hcr : ~ In c_cr (normalise s)) by (apply (lines_no_cr s); apply normalise_lines; reflexivity).
  rewrite E in Ho, Hcr. apply not_in_app in Ho as (_ & Ho). apply not_in_app in Ho as (Ho & _). apply not_in_app in Hcr as (Hc1 & Hcr). apply not_in_app in Hcr as (Hc2 & Hc3).
  assert (Hs1 := blank_wsp w1 Hw1 Hc1). assert (Hs2 := blank_wsp w2 Hw2 Hc3).
  destruct (passes_elem e t He Hc2 Ho (w2 ++ [])) as (te & Hpe & Hee). destruct (elem_starts e t He) as (e' & Ee).
  assert (Hp : passes SData (w1 ++ e ++ w2) [] (blank_token w1 ++ te ++ blank_token w2) SData).
  { apply passes_app with SData; [apply passes_blank; [exact Hs1|rewrite Ee; apply not_data_lt]|]. apply passes_app with SData; [exact Hpe|]. apply passes_blank; [exact Hs2|]. intros (c & x & Ex & _). discriminate. }
  destruct (Hp 0%nat [] SData (sc_end _ _)) as (o & Hs & Ht & Hi). rewrite !app_nil_r in Hs. rewrite <- E in Hs.
  exists o, (mkLex SData [] (length (normalise s))), w1, te, w2. split; [apply run_scans; rewrite Hl; exists SData; split; [reflexivity|exact Hs]|]. auto 10.
Qed.

(** ** What it does not know *)
Lemma first_bad st p c r out st' : first_match (rules st) (c :: r) = None -> scans st p (c :: r) out st' -> exists out', out = Bad c :: out' /\ scans st (S p) r out' st'.
Proof.
  intros H Hs. apply scans_inv in Hs as [(E & _)|[(t & v & raw & rest & st1 & out' & E & _ & Hl & _)|(c' & r' & out' & E & -> & _ & Hs)]]; [discriminate| |].
  - exfalso. apply (proj1 (no_lexeme _ _) H) with (1 := E) (2 := Hl).
  - inversion E; subst. eauto.
Qed.
Lemma first_tok st t v raw rest st1 p out st' : lexeme st t v raw rest st1 -> scans st p (raw ++ rest) out st' ->
  exists out', out = Tok (mkTok t v p) :: out' /\ scans st1 (p + length raw) rest out' st'.
Proof.
  intros Hl Hs. apply scans_inv in Hs as [(E & _)|[(t' & v' & raw' & rest' & st1' & out' & E & -> & Hl' & Hs)|(c & r & out' & E & _ & Hn & _)]].
  - apply lexeme_nonempty in Hl. destruct raw; [congruence|discriminate].
  - destruct (lexeme_fun _ _ _ _ _ _ _ _ _ _ _ Hl Hl' E) as (<- & <- & <- & <- & <-). eauto.
  - exfalso. eapply Hn; [symmetry; exact E|exact Hl].
Qed.
Lemma empty_tag n rest p out st' : name n -> ~ In ogham n -> scans SData p (lit "<" ++ n ++ lit "/>" ++ rest) out st' ->
  exists out', out = Tok (mkTok STARTTAG n p) :: Bad c_slash :: Tok (mkTok GT (lit ">") (p + length n + 2)) :: out' /\ scans SData (p + length n + 3) rest out' st'.
Proof.
  intros Hn Ho Hs. replace (lit "<" ++ n ++ lit "/>" ++ rest) with ((lit "<" ++ [] ++ n ++ []) ++ lit "/>" ++ rest) in Hs by (rewrite app_nil_r; assoc).
  apply (first_tok SData STARTTAG n _ _ STag) in Hs as (o1 & -> & Hs).
  - cbn [lit app] in Hs. apply first_bad in Hs as (o2 & -> & Hs); [|reflexivity]. change (N_of_ascii ">" :: rest) with (lit ">" ++ rest) in Hs. apply (first_tok STag GT (lit ">") (lit ">") rest SData) in Hs as (o3 & -> & Hs); [|apply lx_close].
    exists o3. rewrite app_nil_r in *. cbn [length] in *. split; [repeat f_equal; lia|]. replace (p + length n + 3)%nat with (S (p + S (length n)) + 1)%nat by lia. exact Hs.
  - apply lx_start; [constructor|exact Hn|apply trimmed_plain; [exact Ho|destruct Hn as (? & ? & -> & _); discriminate]|constructor| |]; intros (c & x & E & Hx); inversion E; subst; discriminate.
Qed.
Lemma bad_comment b c r p out st' : (forall x, In x b -> is_datachar x = true) -> c = c_lt \/ c = c_amp -> scans SData p (lit "<!--" ++ b ++ c :: r) out st' ->
  exists out', out = Bad c_lt :: Tok (mkTok CHARDATA (lit "!--" ++ b) (S p)) :: out' /\ scans SData (S p + length (lit "!--" ++ b)) (c :: r) out' st'.
Proof.
  intros Hb Hc Hs. cbn [lit app] in Hs. assert (Hcd : is_datachar c = false) by (destruct Hc as [-> | ->]; reflexivity).
  apply first_bad in Hs as (o1 & -> & Hs).
  - change (N_of_ascii "!" :: N_of_ascii "-" :: N_of_ascii "-" :: b ++ c :: r) with ((lit "!--" ++ b) ++ c :: r) in Hs.
    apply (first_tok SData CHARDATA (lit "!--" ++ b) (lit "!--" ++ b) (c :: r) SData) in Hs as (o2 & -> & Hs); [exists o2; auto|]. apply lx_data. split; [discriminate|]. split.
    + intros x Hx. apply in_app_or in Hx as [[<- |[<- |[<- |[]]]]|Hx]; [reflexivity..|auto].
    + intros (x & y & E & Hx). inversion E; subst. congruence.
  - apply no_lexeme. intros t v raw rest st1 E Hl. inversion Hl; subst;
      try (destruct st; [|congruence|discriminate|discriminate]); try discriminate.
    + cbn [lit app] in E. inversion E as [[E1]]. destruct w1 as [|x w1]; cbn [app] in E1.
      * destruct H0 as (y & z & -> & Hy & _). inversion E1; subst. discriminate.
      * inversion E1; subst. pose proof (Forall_inv H) as Hx. cbn in Hx. repeat destruct Hx as [Hx|Hx]; try discriminate. contradiction.
    + cbn [lit app] in E. inversion E as [[E1]]. assert (F : forall a1 a2 r1 r2 x y, (forall d, In d a1 -> is_datachar d = true) -> (forall d, In d a2 -> is_datachar d = true) -> is_datachar x = false -> is_datachar y = false ->
        a1 ++ x :: r1 = a2 ++ y :: r2 -> x = y).
      { clear. induction a1 as [|u a1 IH]; intros [|w a2] r1 r2 x y H1 H2 Hx Hy E; cbn [app] in E; inversion E; subst; auto.
        - rewrite H2 in Hx by (left; reflexivity). discriminate.
        - rewrite H1 in Hy by (left; reflexivity). discriminate.
        - apply (IH a2 r1 r2 x y); [intros d Hd; apply H1; right; exact Hd|intros d Hd; apply H2; right; exact Hd|assumption|assumption|assumption]. }
      assert (Ec : c = 62). { apply (F b (v ++ lit "--") r rest c 62); auto; [|rewrite E1; cbn [lit]; assoc]. intros d Hd. apply in_app_or in Hd as [Hd|[<- |[<- |[]]]]; auto. }
      subst c. destruct Hc; discriminate.
    + destruct (run_head _ _ _ H) as (x & y & -> & Hx). inversion E; subst. discriminate.
    + unfold entity in H0. cbn [In] in H0. repeat destruct H0 as [H0|H0]; try contradiction; inversion H0; subst; discriminate.
Qed.
Lemma mark_is_data r p out st' : scans SData p (0xFEFF :: r) out st' -> exists v out', out = Tok (mkTok CHARDATA (0xFEFF :: v) p) :: out'.
Proof.
  intros Hs. rewrite (take_drop is_datachar r) in Hs. apply (first_tok SData CHARDATA (0xFEFF :: takew is_datachar r) (0xFEFF :: takew is_datachar r) (dropw is_datachar r) SData) in Hs as (o & -> & _); [eauto|].
  apply lx_data. split; [discriminate|]. split; [|apply dropw_head]. intros c [<- |Hc]; [reflexivity|exact (takew_all _ _ _ Hc)].
Qed.
Lemma value_ws st c r p out st' : st = SSgl \/ st = SDbl -> c = c_tab \/ c = c_nl -> scans st p (c :: r) out st' -> exists out', out = Bad c :: out' /\ scans st (S p) r out' st'.
Proof. intros [-> | ->] [-> | ->] Hs; apply first_bad; auto. Qed.
Lemma decimal_ref st d r p out st' : st <> STag -> d <> c_x -> scans st p (lit "&#" ++ d :: r) out st' -> exists out', out = Bad c_amp :: out' /\ scans st (S p) (c_hash :: d :: r) out' st'.
Proof.
  intros Hst Hd Hs. apply first_bad; [|exact Hs]. assert (E : (120 =? d) = false) by (apply N.eqb_neq; intros <-; apply Hd; reflexivity).
  cbn in E. destruct st; [|congruence| |]; cbn; rewrite E; reflexivity.
Qed.
Lemma name_stops n c r p out st' : name n -> ~ In ogham n -> 0xC1 <= c <= 0xD5 -> scans SData p (lit "<" ++ n ++ c :: r) out st' ->
  exists m out', out = Tok (mkTok STARTTAG n p) :: Tok (mkTok NAME (c :: m) (p + S (length n))) :: out'.
Proof.
  intros Hn Ho Hc Hs. assert (Hst : is_namestart c = true).
  { unfold is_namestart, CharClass.in_range. rewrite !orb_true_iff, !andb_true_iff, !N.leb_le. left. left. left. left. left. left. left. left. left. left. left. right. lia. }
  assert (Hnc : is_namechar c = false).
  { unfold is_namechar, CharClass.in_range. rewrite !orb_false_iff, !andb_false_iff, !N.leb_gt, !N.eqb_neq. lia. }
  replace (lit "<" ++ n ++ c :: r) with ((lit "<" ++ [] ++ n ++ []) ++ c :: r) in Hs by (rewrite app_nil_r; assoc). apply (first_tok SData STARTTAG n _ _ STag) in Hs as (o1 & -> & Hs).
  - rewrite (take_drop is_namechar r) in Hs. apply (first_tok STag NAME (c :: takew is_namechar r) (c :: takew is_namechar r) (dropw is_namechar r) STag) in Hs as (o2 & -> & _).
    + rewrite app_nil_r. cbn [lit app length]. eauto.
    + apply lx_name; [apply name_split; exact Hst|apply dropw_head].
  - apply lx_start; [constructor|exact Hn|apply trimmed_plain; [exact Ho|destruct Hn as (? & ? & -> & _); discriminate]|constructor| |]; intros (d & x & E & Hx); inversion E; subst; try congruence.
    destruct (ws_cases _ Hx) as [-> | [-> | ->]]; lia.
Qed.

(** ** One lexer for all *)
Lemma run_state l l' s : l_state l = l_state l' -> run l s = run l' s.
Proof. intros E. unfold run. rewrite !drain_new. unfold input. rewrite E. reflexivity. Qed.
Lemma scans_total l : exists out st', scans (l_state l) (l_pos l) (l_rest l) out st'.
Proof. destruct (drain_spec (length (l_rest l)) (S (length (l_rest l))) (l_state l) (l_rest l) (l_pos l)) as (out & st' & _ & H); [lia|lia|eauto]. Qed.
Lemma resume_prefix l bad t g l' out st' : scans (l_state l) (l_pos l) (l_rest l) out st' -> gresume l = (bad, t, g, l') ->
  exists out', out = out_items bad t ++ out' /\ scans (l_state l') (l_pos l') (l_rest l') out' st' /\ g <> GNew [] /\ (forall s, g <> GNew s).
Proof.
  unfold gresume, token. destruct l as [st s p]. cbn [l_state l_pos l_rest]. intros Hs H. destruct (token_f (S (length s)) (mkLex st s p)) as ((bad0 & ot) & l0) eqn:E. apply token_f_spec in E; [|lia].
  inversion H; subst bad0 ot g l0. destruct t as [t|]; unfold out_items.
  - destruct E as (_ & _ & E). destruct (scans_total l') as (o & st2 & Ho). specialize (E o st2 Ho). destruct (scans_fun _ _ _ _ _ Hs _ _ E) as (-> & ->). exists o. rewrite <- app_assoc. repeat split; auto; discriminate.
  - destruct E as (-> & E). destruct (scans_fun _ _ _ _ _ Hs _ _ E) as (-> & ->). exists []. rewrite !app_nil_r. cbn [l_state l_pos l_rest]. repeat split; try discriminate. constructor.
Qed.
Lemma next_prefix g l bad t g' l' out st' : (forall s, g <> GNew s) -> scans (l_state l) (l_pos l) (l_rest l) out st' -> gnext g l = (bad, t, g', l') ->
  exists out', out = out_items bad t ++ out' /\ scans (l_state l') (l_pos l') (l_rest l') out' st' /\ (forall s, g' <> GNew s).
Proof.
  intros Hg Hs H. destruct g as [s| |]; [congruence| |]; cbn [gnext] in H.
  - destruct (resume_prefix _ _ _ _ _ _ _ Hs H) as (o & E & Ho & _ & Hn). eauto.
  - inversion H; subst. exists out. repeat split; auto; discriminate.
Qed.
Lemma play_prefix sch : forall g1 g2 l out st', (forall s, g1 <> GNew s) -> (forall s, g2 <> GNew s) -> scans (l_state l) (l_pos l) (l_rest l) out st' ->
  exists out', out = map snd (play sch g1 g2 l) ++ out'.
Proof.
  induction sch as [|b sch IH]; intros g1 g2 l out st' H1 H2 Hs; [exists out; reflexivity|]. cbn [play].
  destruct (gnext (if b then g2 else g1) l) as (((bad & t) & g) & l') eqn:E. assert (Hg : forall s, (if b then g2 else g1) <> GNew s) by (destruct b; assumption). destruct (next_prefix _ _ _ _ _ _ _ _ Hg Hs E) as (o & -> & Ho & Hn).
  destruct (IH (if b then g1 else g) (if b then g else g2) l' o st') as (o' & ->); [destruct b; assumption|destruct b; assumption|exact Ho|]. exists o'. rewrite map_app, map_map. cbn [snd]. rewrite map_id. rewrite app_assoc. reflexivity.
Qed.
Lemma second_takes_over sch g1 s2 l : (forall s, g1 <> GNew s) -> exists rest, fst (run l s2) = map snd (play (true :: sch) g1 (GNew s2) l) ++ rest.
Proof.
  intros H1. destruct (run_exists l s2) as (out & st' & E & Hs). rewrite E. cbn [fst play gnext].
  destruct (gresume (input l (normalise s2))) as (((bad & t) & g) & l') eqn:Eg.
  destruct (resume_prefix (input l (normalise s2)) bad t g l' out st' Hs Eg) as (o & -> & Ho & _ & Hn). destruct (play_prefix sch g1 g l' o st' H1 Hn Ho) as (o' & ->).
  exists o'. rewrite map_app, map_map. cbn [snd]. rewrite map_id. rewrite app_assoc. reflexivity.
Qed.
Lemma run_normalised l s t : normalise s = normalise t -> run l s = run l t.
Proof. intros E. unfold run. rewrite !drain_new, E. reflexivity. Qed.
Lemma run_lossless l s : exists raws, length raws = length (fst (run l s)) /\ normalise s = concat raws /\
  forall k i, nth_error (fst (run l s)) k = Some i -> exists raw, nth_error raws k = Some raw /\
    match i with
    | Tok t => t_pos t = length (concat (firstn k raws)) /\ raw <> [] /\ exists sk st1, lexeme sk (t_type t) (t_value t) raw (concat (skipn (S k) raws)) st1
    | Bad c => raw = [c]
    end.
Proof. destruct (run_exists l s) as (out & st' & E & Hs). rewrite E. cbn [fst]. exact (scans_text _ _ _ _ _ Hs). Qed.

(** ** Reading is unambiguous *)
Definition text_type (t : ttype) : bool := match t with CHARDATA | AMP_ENT | LT_ENT | GT_ENT | APOS_ENT | QUOT_ENT | NUM_ENT => true | _ => false end.
Lemma entity_type t s c : entity t s c -> text_type t = true /\ t <> CHARDATA /\ t <> NUM_ENT.
Proof. unfold entity. cbn [In]. intros H. repeat destruct H as [H|H]; try contradiction; inversion H; subst; repeat split; discriminate. Qed.
Lemma entity_fun t s c c' : entity t s c -> entity t s c' -> c = c'.
Proof. unfold entity. cbn [In]. intros H H'. repeat destruct H as [H|H]; try contradiction; inversion H; subst; repeat destruct H' as [H'|H']; try contradiction; inversion H'; reflexivity. Qed.
Lemma text_all l v : text_of l v -> forall x, In x l -> text_type (fst x) = true.
Proof. induction 1 as [|s l v H IH|t s c l v He H IH|ds l v H IH]; intros x Hx; [destruct Hx| | |]; destruct Hx as [<- |Hx]; auto. apply entity_type in He as (He & _). exact He. Qed.
Lemma text_fun l v : text_of l v -> forall v', text_of l v' -> v = v'.
Proof.
  induction 1 as [|s l v H IH|t s c l v He H IH|ds l v H IH]; intros v' H'; inversion H'; subst; try reflexivity; try (f_equal; auto; fail);
  try (match goal with K : entity CHARDATA _ _ |- _ => apply entity_type in K as (_ & K & _); congruence | K : entity NUM_ENT _ _ |- _ => apply entity_type in K as (_ & _ & K); congruence end).
  f_equal; [eapply entity_fun; eauto|auto].
Qed.
(** A list that begins with text tokens and goes on with something else has one such reading. *)
Lemma text_prefix (l1 l2 : list (ttype * str)) x1 x2 r1 r2 : (forall x, In x l1 -> text_type (fst x) = true) -> (forall x, In x l2 -> text_type (fst x) = true) -> text_type (fst x1) = false -> text_type (fst x2) = false ->
  l1 ++ x1 :: r1 = l2 ++ x2 :: r2 -> l1 = l2 /\ x1 = x2 /\ r1 = r2.
Proof.
  revert l2. induction l1 as [|y l1 IH]; intros [|z l2] H1 H2 Hx1 Hx2 E; cbn [app] in E; inversion E; subst.
  - auto.
  - rewrite H2 in Hx1 by (left; reflexivity). discriminate.
  - rewrite H1 in Hx2 by (left; reflexivity). discriminate.
  - destruct (IH l2) as (-> & -> & ->); auto; intros x Hx; [apply H1|apply H2]; right; exact Hx.
Qed.
Lemma quote_not_text q s : quote_of q s -> text_type q = false.
Proof. intros [(-> & _)|(-> & _)]; reflexivity. Qed.
Lemma attrs_fun a d : attrs_of a d -> forall d' r1 r2 a', attrs_of a' d' -> a ++ (GT, lit ">") :: r1 = a' ++ (GT, lit ">") :: r2 -> a = a' /\ d = d' /\ r1 = r2.
Proof.
  induction 1 as [|n q s l v r d Hq Hl Hr IH]; intros d' r1 r2 a' H' E.
  - inversion H' as [|n' q' s' l' v' r' d0 Hq' Hl' Hr']; subst; cbn [app] in E; [inversion E; auto|discriminate].
  - inversion H' as [|n' q' s' l' v' r' d0 Hq' Hl' Hr']; subst; cbn [app] in E; [discriminate|]. injection E as En Eq Es E. subst n' q' s'. rewrite <- !app_assoc in E. cbn [app] in E.
    destruct (text_prefix l l' (q, s) (q, s) _ _ (text_all _ _ Hl) (text_all _ _ Hl') (quote_not_text _ _ Hq) (quote_not_text _ _ Hq) E) as (-> & _ & E2).
    destruct (IH _ _ _ _ Hr' E2) as (-> & -> & ->). rewrite (text_fun _ _ Hl _ Hl'). auto.
Qed.
Scheme elem_of_mut := Minimality for elem_of Sort Prop with content_of_mut := Minimality for content_of Sort Prop.
Lemma elem_head e t : elem_of e t -> exists n r, e = (STARTTAG, n) :: r.
Proof. intros H. destruct H. eauto. Qed.
Lemma elem_prefix e t : elem_of e t -> forall e' t' r r', elem_of e' t' -> e ++ r = e' ++ r' -> e = e' /\ t = t' /\ r = r'.
Proof.
  revert e t. apply (elem_of_mut (fun e t => forall e' t' r r', elem_of e' t' -> e ++ r = e' ++ r' -> e = e' /\ t = t' /\ r = r')
    (fun l ks => forall l' ks' n n' r r', content_of l' ks' -> l ++ (ENDTAG, n) :: r = l' ++ (ENDTAG, n') :: r' -> l = l' /\ ks = ks' /\ n = n' /\ r = r')).
  - intros n a d l ks Ha Hl IH e' t' r r' H' E. inversion H' as [n' a' d' l' ks' Ha' Hl']; subst. cbn [app] in E. injection E as En E. subst n'. rewrite <- !app_assoc in E. cbn [app] in E.
    destruct (attrs_fun _ _ Ha _ _ _ _ Ha' E) as (-> & -> & E2). rewrite <- !app_assoc in E2. cbn [app] in E2. destruct (IH _ _ _ _ _ _ Hl' E2) as (-> & -> & _ & ->). auto.
  - intros l v Hl l' ks' n n' r r' H' E. inversion H' as [l0 v' Hl'|l0 v' e' t' r0 ks0 Hl' He' Hr']; subst.
    + destruct (text_prefix l l' (ENDTAG, n) (ENDTAG, n') r r' (text_all _ _ Hl) (text_all _ _ Hl') eq_refl eq_refl E) as (-> & E1 & ->). inversion E1. rewrite (text_fun _ _ Hl _ Hl'). auto.
    + destruct (elem_head _ _ He') as (m & q & ->). rewrite <- !app_assoc in E. cbn [app] in E.
      destruct (text_prefix l l0 (ENDTAG, n) (STARTTAG, m) r _ (text_all _ _ Hl) (text_all _ _ Hl') eq_refl eq_refl E) as (_ & E1 & _). discriminate.
  - intros l v e t r0 ks Hl He IHe Hr IHr l' ks' n n' r r' H' E. destruct (elem_head _ _ He) as (m & q & Ee). inversion H' as [l1 v' Hl'|l1 v' e' t' r1 ks1 Hl' He' Hr']; subst.
    + rewrite <- !app_assoc in E. cbn [app] in E.
      destruct (text_prefix l l' (STARTTAG, m) (ENDTAG, n') _ r' (text_all _ _ Hl) (text_all _ _ Hl') eq_refl eq_refl E) as (_ & E1 & _). discriminate.
    + destruct (elem_head _ _ He') as (m' & q' & ->). rewrite <- !app_assoc in E. cbn [app] in E.
      destruct (text_prefix l l1 (STARTTAG, m) (STARTTAG, m') _ _ (text_all _ _ Hl) (text_all _ _ Hl') eq_refl eq_refl E) as (-> & E1 & E2). injection E1 as E1. subst m'.
      assert (E3 : ((STARTTAG, m) :: q) ++ r0 ++ (ENDTAG, n) :: r = ((STARTTAG, m) :: q') ++ r1 ++ (ENDTAG, n') :: r') by (cbn [app]; f_equal; exact E2).
      destruct (IHe _ _ _ _ He' E3) as (E4 & -> & E5). injection E4 as ->. destruct (IHr _ _ _ _ _ _ Hr' E5) as (-> & -> & -> & ->). rewrite (text_fun _ _ Hl _ Hl'). auto.
Qed.
Lemma elem_of_fun e t t' : elem_of e t -> elem_of e t' -> t = t'.
Proof. intros H H'. destruct (elem_prefix e t H e t' [] [] H' eq_refl) as (_ & E & _). exact E. Qed.
