(** What patterns with '**' anywhere select: proofs. *)
From Verif Require Import PyStr Parser ParserM XTree Grammar ParserSpec ParserMore Heap Builder HeapSpec Path Nodes Pattern PatternSpec PatternFacts TreeUtil TreeUtilSpec TreeUtilFacts.
From Verif Require Import TreeIter TreeIterSpec TreeIterFacts TreeIterMore Expat ExpatSpec ExpatFacts XmlIter XmlIterSpec XmlIterFacts.
From Verif Require Import PatternFun PatternFunSpec PatternFunFacts PatternFunHeap PatternFunRun PatternFunStream PatternFunMore GreedySpec.

(** * Names *)
Lemma greedy_deep st p n names : st <> StDeep ->
  greedy (StDeep :: st :: p) (n :: names) <-> (stage_ok st n /\ greedy p names) \/ (~ stage_ok st n /\ greedy (StDeep :: st :: p) names).
Proof.
  intros Hd. split.
  - intros H. inversion H as [|st0 p0 n0 names0 O|st0 p0 sk n0 names0 K O G|]; subst; [destruct O| |congruence].
    match goal with E : sk ++ _ = _ |- _ => rename E into Es end. destruct sk as [|k sk]; injection Es as -> Es; [subst names0|subst names].
    + left. auto.
    + right. split; [apply K; left; auto|]. constructor; auto. intros j Hj. apply K. right; auto.
  - intros [[O G]|[O G]]; [exact (gr_deep st p [] n names (fun k (F : In k []) => False_ind _ F) O G)|].
    inversion G as [|st0 p0 n0 names0 O'|st0 p0 sk n0 names0 K O' G'|]; subst; [destruct O'| |congruence].
    apply (gr_deep st p (n :: sk)); auto. intros k [<-|Hk]; auto.
Qed.
Lemma greedy_one st p n names : st <> StDeep -> greedy (st :: p) (n :: names) <-> stage_ok st n /\ greedy p names.
Proof.
  intros Hd. split; [|intros [O G]; constructor; auto]. intros H. inversion H; subst; try congruence. auto.
Qed.
Lemma greedy_step p n : match pst_step (prep p) n with
  | SState s => exists q, s = prep q /\ forall names, greedy p (n :: names) <-> greedy q names
  | _ => forall names, ~ greedy p (n :: names)
  end.
Proof.
  induction p as [|st p IH]; [intros names H; inversion H|]. destruct (stage_dec st) as [->|Hd].
  - cbn [prep_from fold_right prep_stage pst_step]. fold (prep p). destruct p as [|st2 p]; [intros names H; inversion H as [|? ? ? ? O| |]; destruct O|].
    destruct (stage_dec st2) as [->|Hd2].
    + assert (K : forall names, greedy (StDeep :: StDeep :: p) names <-> greedy (StDeep :: p) names).
      { intros names. split; [|apply gr_twice]. intros H. inversion H as [|? ? ? ? O|? ? ? ? ? ? O|]; subst; auto; destruct O. }
      destruct (pst_step (prep (StDeep :: p)) n) as [| |s] eqn:E.
      * intros names H. apply K in H. exact (IH names H).
      * exfalso. cbn [prep_from fold_right prep_stage pst_step] in E. destruct (pst_step _ n); discriminate.
      * destruct IH as (q & -> & Hq). exists q. split; auto. intros names. rewrite K. apply Hq.
    + destruct (stage_ok_dec st2 n) as [O|O].
      * cbn [prep_from fold_right]. rewrite stage_ok_spec by auto. exists p. split; [reflexivity|]. intros names. rewrite greedy_deep by auto. tauto.
      * cbn [prep_from fold_right]. rewrite stage_no_spec by auto. exists (StDeep :: st2 :: p). split; [reflexivity|]. intros names. rewrite greedy_deep by auto. tauto.
  - cbn [prep_from fold_right]. destruct (stage_ok_dec st n) as [O|O].
    + rewrite stage_ok_spec by auto. exists p. split; [reflexivity|]. intros names. rewrite greedy_one by auto. tauto.
    + rewrite stage_no_spec by auto. intros names. rewrite greedy_one by auto. tauto.
Qed.
Lemma greedy_nil p : greedy p [] -> p = [].
Proof.
  intros H. remember [] as l eqn:E. induction H as [|st p n names O H IH|st p sk n names K O H IH|p names H IH]; auto; try discriminate.
  - destruct sk; discriminate.
  - specialize (IH E). discriminate.
Qed.
Lemma hits_greedy names : forall p, p <> [] -> (hits (prep p) names = true <-> greedy p names).
Proof.
  induction names as [|n names IH]; intros p Hp; [split; [discriminate|intros H; destruct (Hp (greedy_nil _ H))]|].
  cbn [hits]. pose proof (greedy_step p n) as K. destruct (pst_step (prep p) n) as [| |s]; [split; [discriminate|intros H; destruct (K _ H)]|split; [discriminate|intros H; destruct (K _ H)]|].
  destruct K as (q & -> & K). rewrite K. destruct q as [|st q].
  - cbn [prep_from fold_right]. destruct names; split; try discriminate; auto; [intros _; constructor|intros H; inversion H].
  - destruct (prep (st :: q)) eqn:E; [apply prep_matched in E; discriminate|rewrite <- E; apply IH; discriminate..].
Qed.
(** No position is below another. *)
Lemma greedy_first p a b : greedy p a -> greedy p (a ++ b) -> b = [].
Proof.
  intros H1 H2. destruct p as [|st p]; [inversion H1; inversion H2; subst; auto|]. apply hits_greedy in H1; [|discriminate]. apply hits_greedy in H2; [|discriminate].
  destruct b as [|x b]; auto. rewrite (hits_first _ _ a (x :: b) eq_refl ltac:(discriminate) H2) in H1. discriminate.
Qed.
Lemma greedy_found p t : p <> [] -> listing t (fun a u => is_element u /\ greedy p (path_names t a)) (found (hits (prep p)) [] t).
Proof.
  intros Hp. eapply listing_ext; [|apply found_listing]. intros a u Hu. cbn. rewrite hits_greedy by auto. split; [tauto|].
  intros [H4 H5]. split; auto. split; auto. intros b Hb. destruct (hits (prep p) (path_names t b)) eqn:E; [|reflexivity]. exfalso.
  apply hits_greedy in E; auto. destruct (path_names_above t a b u Hu H4 Hb) as (y & Ey & Hy). rewrite Ey in H5. exact (Hy (greedy_first _ _ _ E H5)).
Qed.
Lemma greedy_matches p names : greedy p names -> matches p names.
Proof.
  intros H. induction H as [|st p n names O H IH|st p sk n names K O H IH|p names H IH]; [constructor|constructor; auto| |exact (ma_deep (StDeep :: p) [] names IH)].
  apply ma_deep. constructor; auto.
Qed.
Lemma greedy_exact p names : no_deep p -> greedy p names <-> matches p names.
Proof.
  intros Hd. split; [apply greedy_matches|]. intros H. induction H as [|st p n names O H IH|p ns names H IH]; [constructor| |destruct Hd; left; auto].
  constructor; auto. apply IH. intros Hi. apply Hd. right; auto.
Qed.
Lemma greedy_last pre st names : no_deep pre -> st <> StDeep -> greedy (pre ++ [StDeep; st]) names <-> first_match (pre ++ [StDeep; st]) names.
Proof. intros Hd Hs. rewrite <- hits_greedy by (destruct pre; discriminate). apply hits_deep_last; auto. Qed.

(** * One pattern *)
Theorem stream_greedy p s t s' x : ~ ends_deep p -> p <> [] -> served p s -> is_element t ->
  thandle (stateses [p]) (new_handler s) (doc_events t) s' x ->
  x = None /\ served p s' /\ kept_intact s s' /\
  exists l, listing t (fun a u => is_element u /\ greedy p (path_names t a)) l /\ sent_since s s' 0 (map snd l).
Proof.
  intros He Hp Hsv Ht Hh. assert (Hf : forall names, fails (prep p) names = false) by (intros; apply fails_never; auto).
  destruct (one_document p s t s' x (served_ready _ _ Hp Hf Hsv) Hp Hf Hh) as (-> & _ & H2 & H3 & _). split; auto. split; [econstructor; eauto|]. split; auto.
  exists (found (hits (prep p)) [] t). split; auto. apply greedy_found; auto.
Qed.
Theorem stream_parse_greedy p s doc t : ~ ends_deep p -> p <> [] -> served p s -> lenient_doc doc t ->
  forall s' x, send_parse [p] s doc s' x ->
    x = None /\ served p s' /\ kept_intact s s' /\
    exists l, listing t (fun a u => is_element u /\ greedy p (path_names t a)) l /\ sent_since s s' 0 (map snd l).
Proof.
  intros He Hp Hsv Hd s' x H. apply (stream_greedy p s t s' x He Hp Hsv); [|apply (send_parse_doc p s doc t s' x Hd H)].
  destruct (lenient_doc_elem _ _ Hd) as (n & a & ks & ->). repeat eexists.
Qed.
Theorem xml_greedy p h css u s' stk x : ~ ends_deep p -> p <> [] -> allocated h -> report (concat css) [u] -> is_element u ->
  xparses [p] (new_xsender h [p]) css (s', stk) x ->
  x = None /\ stk = [] /\ kept_intact (new_sender h [p]) s' /\
  exists l, listing u (fun a v => is_element v /\ greedy p (path_names u a)) l /\ sent_since (new_sender h [p]) s' 0 (map snd l).
Proof.
  intros D P A R T X. destruct (xml_document p h css u s' stk x P D A R X) as (-> & -> & K & S). split; [reflexivity|]. split; [reflexivity|]. split; [exact K|].
  exists (found (hits (prep p)) [] u). split; [|exact S]. apply greedy_found; auto.
Qed.
Theorem timely_greedy p t l1 a v l2 : ~ ends_deep p -> p <> [] -> listing t (fun a u => is_element u /\ greedy p (path_names t a)) (l1 ++ (a, v) :: l2) -> sent_at_end p t l1 a v.
Proof. intros D P L. apply (found_timely p t l1 a v l2 P D). exact (listing_unique _ _ _ _ (greedy_found p t P) L). Qed.

Lemma select_greedy p t : no_alt p -> ~ ends_deep p -> p <> [] -> is_element t ->
  exists l, select_pattern t p = (l, false) /\ listing t (fun b u => b <> [] /\ is_element u /\ greedy p (names_below t b)) l.
Proof.
  intros Ha Hd Hp (n & a & ks & ->). eexists. split; [apply select_pattern_found; auto|].
  eapply listing_ext; [|apply over_found_listing]. intros b u Hs. cbn. rewrite hits_greedy by auto. split; [tauto|]. intros (H1 & H2 & H3). split; auto. split; auto. split; auto.
  intros c Hc Hab. destruct (hits (prep p) (names_below (XE n a ks) c)) eqn:E; auto. exfalso. apply hits_greedy in E; auto.
  destruct (path_names_above _ _ _ _ Hs H2 Hab) as (r & Er & Hr). unfold names_below in *. rewrite Er in H3.
  destruct (path_names (XE n a ks) c) eqn:Ec; [destruct c; discriminate|]. cbn [tl app] in *. exact (Hr (greedy_first _ _ _ E H3)).
Qed.

(** * Functions, and several patterns *)
Lemma fgreedy_deep st p e es : st <> FDeep ->
  fgreedy (FDeep :: st :: p) (e :: es) -> (fstage_ok st e /\ fgreedy p es) \/ (~ fstage_ok st e /\ fgreedy (FDeep :: st :: p) es).
Proof.
  intros Hd H. inversion H as [|st0 p0 n0 names0 O|st0 p0 sk n0 names0 K O G|]; subst; [destruct O| |congruence].
  match goal with E : sk ++ _ = _ |- _ => rename E into Es end. destruct sk as [|k sk]; injection Es as -> Es; [subst names0|subst es].
  - left. auto.
  - right. split; [apply K; left; auto|]. constructor; auto. intros j Hj. apply K. right; auto.
Qed.
Lemma fgreedy_skip st p e es : st <> FDeep -> ~ fstage_ok st e -> fgreedy (FDeep :: st :: p) es -> fgreedy (FDeep :: st :: p) (e :: es).
Proof.
  intros Hd O G. inversion G as [|st0 p0 n0 names0 O'|st0 p0 sk n0 names0 K O' G'|]; subst; [destruct O'| |congruence].
  apply (fg_deep st p (e :: sk)); auto. intros k [<-|Hk]; auto.
Qed.
Lemma fgreedy_now st p e es : fstage_ok st e -> fgreedy p es -> fgreedy (FDeep :: st :: p) (e :: es).
Proof. intros O G. exact (fg_deep st p [] e es (fun k (F : In k []) => False_ind _ F) O G). Qed.
Lemma fgreedy_one st p e es : st <> FDeep -> fgreedy (st :: p) (e :: es) -> fstage_ok st e /\ fgreedy p es.
Proof. intros Hd H. inversion H; subst; try congruence. auto. Qed.
Lemma fstage_dec st : st = FDeep \/ st <> FDeep.
Proof. destruct st; auto; right; discriminate. Qed.
Lemma fgreedy_step q : fine q -> forall e, is_start e -> match fstep (fprep q) e with
  | FState s => exists q', s = fprep q' /\ (q' = [] \/ fine q') /\ forall es, fgreedy q (e :: es) <-> fgreedy q' es
  | FNone => forall es, ~ fgreedy q (e :: es)
  | FExn _ => False
  end.
Proof.
  induction q as [|st q IH]; intros Hf e He; [destruct Hf; congruence|]. change (fprep (st :: q)) with (fprep_stage st (fprep q)).
  destruct (fstage_dec st) as [->|D].
  - destruct (fine_cons _ _ Hf) as [[_ K]|Hq]; [congruence|]. specialize (IH Hq e He). assert (Ee : exists n, start_name e = Some n) by (destruct He as (n & a & anc & ->); exists n; reflexivity). destruct Ee as (n & Ee).
    cbn [fprep_stage fstep]. rewrite Ee. destruct q as [|st2 q]; [destruct Hq; congruence|]. destruct (fstage_dec st2) as [->|D2].
    + assert (K : forall es, fgreedy (FDeep :: FDeep :: q) es <-> fgreedy (FDeep :: q) es).
      { intros es. split; [|apply fg_twice]. intros H. inversion H as [|? ? ? ? O|? ? ? ? ? ? O|]; subst; auto; destruct O. }
      destruct (fstep (fprep (FDeep :: q)) e) as [x| |s] eqn:E; auto.
      * exfalso. change (fprep (FDeep :: q)) with (SUntil (fprep q)) in E. cbn [fstep] in E. rewrite Ee in E. destruct (fstep (fprep q) e); discriminate.
      * destruct IH as (q' & -> & F' & Hq'). exists q'. split; auto. split; auto. intros es. rewrite K. apply Hq'.
    + change (fprep (st2 :: q)) with (fprep_stage st2 (fprep q)) in *. destruct (stage_step st2 (fprep q) e D2 He) as [[O E]|[O E]].
      * intros l f -> Hin. apply (proj2 (proj2 Hq) l); auto. left; auto.
      * rewrite E in *. exists q. split; auto. split; [destruct (fine_cons _ _ Hq) as [[K _]|K]; auto|]. intros es. split; [intros H; apply fgreedy_deep in H as [[_ H]|[H _]]; auto; tauto|apply fgreedy_now; auto].
      * rewrite E in *. exists (FDeep :: st2 :: q). split; [reflexivity|]. split; [right; auto|]. intros es. split; [intros H; apply fgreedy_deep in H as [[H _]|[_ H]]; auto; tauto|apply fgreedy_skip; auto].
  - destruct (stage_step st (fprep q) e D He) as [[O ->]|[O ->]].
    + intros l f -> Hin. apply (proj2 (proj2 Hf) l); auto. left; auto.
    + exists q. split; auto. split; [destruct (fine_cons _ _ Hf) as [[K _]|K]; auto|]. intros es. split; [intros H; apply fgreedy_one in H; tauto|constructor; auto].
    + intros es H. apply fgreedy_one in H; tauto.
Qed.
Lemma fgreedy_nil p : fgreedy p [] -> p = [].
Proof.
  intros H. remember [] as l eqn:E. induction H as [|st p n names O H IH|st p sk n names K O H IH|p names H IH]; auto; try discriminate.
  - destruct sk; discriminate.
  - specialize (IH E). discriminate.
Qed.
Definition gbegins (q : list fstage) (es : list event) : Prop := exists x y, es = x ++ y /\ fgreedy q x.
Lemma gbegins_cons q q' e es : q <> [] -> (forall l, fgreedy q (e :: l) <-> fgreedy q' l) -> gbegins q (e :: es) <-> gbegins q' es.
Proof.
  intros Hq K. split.
  - intros (x & y & E & G). destruct x as [|e' x]; [destruct (Hq (fgreedy_nil _ G))|]. injection E as <- ->. exists x, y. split; auto. apply K; auto.
  - intros (x & y & -> & G). exists (e :: x), y. split; auto. apply K; auto.
Qed.
Lemma fmatch_greedy es : Forall is_start es -> forall q, fine q -> exists b, fmatch (fprep q) es = inl b /\ (b = true <-> gbegins q es).
Proof.
  intros F. induction F as [|e es He F IH]; intros q Hq; cbn [fmatch].
  - exists false. split; auto. split; [discriminate|]. intros (x & y & E & G). symmetry in E. apply app_eq_nil in E as [-> _]. destruct (proj1 Hq (fgreedy_nil _ G)).
  - pose proof (fgreedy_step q Hq e He) as K. destruct (fstep (fprep q) e) as [z| |s]; [destruct K| |].
    + exists false. split; auto. split; [discriminate|]. intros (x & y & E & G). destruct x as [|e' x]; [destruct (proj1 Hq (fgreedy_nil _ G))|]. injection E as <- _. destruct (K _ G).
    + destruct K as (q' & -> & [->|Hq'] & K).
      * exists true. split; auto. split; auto. intros _. apply (gbegins_cons _ _ _ _ (proj1 Hq) K). exists [], es. split; auto. constructor.
      * destruct (IH q' Hq') as (b & Eb & Ib). exists b. rewrite (gbegins_cons _ _ _ _ (proj1 Hq) K). split; auto.
        destruct (fprep q') eqn:Ep; auto. apply fprep_matched in Ep as ->. destruct Hq'; congruence.
Qed.
Lemma several_greedy_of ps c s t c' s' x ix : fserved ps c s -> is_element t -> fhandle (fstates ps) c (new_handler s) (doc_events t) c' s' x -> x = None ->
  ix < length ps -> fine (joined ps ix) -> exists l, listing t (outermost_by (greached ps ix) t) l /\ sent_to s s' ix (map snd l).
Proof.
  intros Hs Ht H -> Hx He. destruct (one_doc _ _ _ _ _ _ _ (fserved_ready _ _ _ Hs) H) as (_ & Ho & _). destruct (Ho ix Hx) as (ts & rest & S1 & E & Er).
  rewrite (Er eq_refl), app_nil_r in E. exists (ffound (chosen ps ix) [] [] t). rewrite E. split; auto. destruct (ffound_listing (chosen ps ix) t) as [L1 L2]. split; auto.
  assert (K : forall path, Forall is_start path -> chosen ps ix path = true <-> greached ps ix path).
  { intros path F. rewrite chosen_joined by auto. unfold decide. destruct (fmatch_greedy _ (seen_starts (length ps) ix path F) _ He) as (b & -> & Ib). rewrite Ib. unfold greached, gbegins. tauto. }
  intros a u. rewrite L2. split; intros (G1 & G2); (split; [auto|]); (eapply outermost_ext; [|exact G2]); intros path F; specialize (K path F); tauto.
Qed.
Lemma several_greedy p ps c s t c' s' x : p <> [] -> ~ ends_fdeep p -> (forall q, In q (p :: ps) -> safe q) -> fserved (p :: ps) c s -> is_element t ->
  fhandle (fstates (p :: ps)) c (new_handler s) (doc_events t) c' s' x ->
  x = None /\ fserved (p :: ps) c' s' /\ kept_intact s s' /\
  forall ix, ix < length (p :: ps) -> exists l, listing t (outermost_by (greached (p :: ps) ix) t) l /\ sent_to s s' ix (map snd l).
Proof.
  intros Hp Hn Hq Hs Ht H. destruct (several_fine p ps c s t c' s' x Hp Hn Hq Hs Ht H) as (-> & Hs'). split; auto. split; auto.
  split; [apply (several_sound _ _ _ _ _ _ _ Hs Ht H)|]. intros ix Hx. eapply several_greedy_of; eauto. apply joined_fine; auto.
Qed.
(** The positions selected by one pattern are not nested. *)
Lemma fgreedy_first p a : fgreedy p a -> forall b, fgreedy p (a ++ b) -> b = [].
Proof.
  intros H. induction H as [|st p n names O H IH|st p sk n names K O H IH|p names H IH]; intros b G.
  - inversion G; auto.
  - destruct (fstage_dec st) as [->|D]; [destruct O|]. cbn [app] in G. apply fgreedy_one in G as [_ G]; auto.
  - destruct (fstage_dec st) as [->|D]; [destruct O|]. induction sk as [|k sk IHs]; cbn [app] in G.
    + apply fgreedy_deep in G as [[_ G]|[G _]]; auto; tauto.
    + apply fgreedy_deep in G as [[G _]|[_ G]]; auto; [destruct (K k (or_introl eq_refl) G)|]. apply IHs; auto. intros j Hj. apply K. right; auto.
  - apply IH. inversion G as [|? ? ? ? O|? ? ? ? ? ? O|]; subst; auto; destruct O.
Qed.
Lemma one_greedy p c s t c' s' x : p <> [] -> ~ ends_fdeep p -> safe p -> fserved [p] c s -> is_element t ->
  fhandle (fstates [p]) c (new_handler s) (doc_events t) c' s' x ->
  x = None /\ fserved [p] c' s' /\ kept_intact s s' /\
  exists l, listing t (fun a u => is_element u /\ fgreedy p (starts [] t a)) l /\ sent_to s s' 0 (map snd l).
Proof.
  intros Hp Hn Hsf Hs Ht H. destruct (several_greedy p [] c s t c' s' x Hp Hn) as (E & Hs' & Hk & Hl); auto; [intros q [<-|[]]; auto|].
  split; auto. split; auto. split; auto. destruct (Hl 0 ltac:(cbn; lia)) as (l & Ll & Sl). exists l. split; auto. eapply PatternFunMore.listing_ext; [|exact Ll].
  assert (G : forall path, greached [p] 0 path <-> gbegins p path) by (intros path; unfold greached, gbegins; cbn [length]; rewrite seen_one, joined_one; tauto).
  intros a u Hu. unfold outermost_by. split.
  - intros (H1 & H2 & H3). split; auto. apply G in H2 as (y & z & Ey & M). destruct z as [|e z]; [rewrite app_nil_r in Ey; rewrite Ey; auto|]. exfalso.
    destruct (starts_prefix t [] a u y (e :: z) Hu H1 Ey) as (b & Hb & <-); [intros ->; destruct (Hp (fgreedy_nil _ M))|discriminate|].
    apply (H3 b Hb). apply G. exists (starts [] t b), []. rewrite app_nil_r; auto.
  - intros (H1 & H2). split; auto. split; [apply G; exists (starts [] t a), []; rewrite app_nil_r; auto|]. intros b Hb K. apply G in K as (y & z & Ey & M).
    destruct (starts_above t [] a b u Hu H1 Hb) as (r & Er & Hr). rewrite Er, Ey, <- app_assoc in H2. apply (fgreedy_first _ _ M) in H2. apply app_eq_nil in H2 as [_ ->]. congruence.
Qed.
Lemma fgreedy_matches p es : fgreedy p es -> fmatches p es.
Proof.
  intros H. induction H as [|st p n names O H IH|st p sk n names K O H IH|p names H IH]; [constructor|constructor; auto| |exact (fm_deep (FDeep :: p) [] names IH)].
  apply fm_deep. constructor; auto.
Qed.
