(** Patterns with functions: the theorems, and the agreement with the model without functions. *)
From Verif Require Import PyStr Parser ParserM XTree ParserInv Grammar ParserSpec ParserMore Heap Builder HeapSpec BuilderFacts HeapFacts BuilderMore Path Nodes.
From Verif Require Import Pattern PatternSpec PatternFacts TreeIter TreeIterSpec TreeIterFacts TreeIterMore TreeSinkFacts PatternFun PatternFunSpec PatternFunFacts PatternFunHeap PatternFunRun PatternFunStream.

(** ** Patterns that never raise an exception *)
Definition fine (q : list fstage) : Prop := q <> [] /\ ~ ends_fdeep q /\ safe q.
Lemma fine_cons st q : fine (st :: q) -> q = [] /\ st <> FDeep \/ fine q.
Proof.
  intros (_ & He & Hs). destruct q as [|s q]; [left; split; auto; intros ->; apply He; exists []; auto|right]. split; [discriminate|]. split; [|eapply safe_cons; eauto].
  intros (r & E). apply He. exists (st :: r). rewrite E. reflexivity.
Qed.
Lemma fstep_fine q : fine q -> forall e, is_start e -> fstep (fprep q) e = FNone \/ fstep (fprep q) e = FState SMatched \/ exists q', fine q' /\ fstep (fprep q) e = FState (fprep q').
Proof.
  induction q as [|st q IH]; intros Hf e He; [destruct Hf; congruence|]. change (fprep (st :: q)) with (fprep_stage st (fprep q)).
  assert (D : st = FDeep \/ st <> FDeep) by (destruct st; auto; right; discriminate). destruct D as [->|D].
  - destruct (fine_cons _ _ Hf) as [[_ K]|Hq]; [congruence|]. pose proof He as (n & a & anc & ->). cbn [fprep_stage fstep start_name].
    destruct (IH Hq _ He) as [-> |[->|(q' & Hq' & ->)]]; [|auto|eauto]. right; right. exists (FDeep :: q). split; auto.
  - destruct (stage_step st (fprep q) e D He) as [[_ ->]|[_ ->]]; [intros l f -> Hin; apply (proj2 (proj2 Hf) l); auto; left; auto| |auto]. right.
    destruct (fine_cons _ _ Hf) as [[-> _]|Hq]; [auto|right; eauto].
Qed.
Lemma fmatch_fine es : Forall is_start es -> forall q, fine q -> exists b, fmatch (fprep q) es = inl b.
Proof.
  intros F. induction F as [|e es He F IH]; intros q Hq; cbn [fmatch]; [eauto|]. destruct (fstep_fine q Hq e He) as [->|[->|(q' & Hq' & ->)]]; eauto.
  destruct (IH q' Hq') as (b & Eb). destruct (fprep q') eqn:Ep; eauto.
Qed.
Lemma in_joined ps ix st : In st (joined ps ix) -> exists p, In p ps /\ In st p.
Proof.
  unfold joined. intros H. apply in_concat in H as (p & Hp & Hs). apply in_rev in Hp. exists p. split; auto. rewrite <- (firstn_skipn (S ix) ps). apply in_or_app. auto.
Qed.
Lemma joined_first p ps ix : exists q, joined (p :: ps) ix = q ++ p.
Proof. unfold joined. cbn [firstn rev]. rewrite concat_app. cbn. rewrite app_nil_r. eauto. Qed.
Lemma joined_safe ps ix : (forall p, In p ps -> safe p) -> safe (joined ps ix).
Proof. intros H l f e Hl Hf. destruct (in_joined _ _ _ Hl) as (p & Hp & Hs). exact (H p Hp l f e Hs Hf). Qed.
Lemma joined_no_deep ps ix : (forall p, In p ps -> no_fdeep p) -> no_fdeep (joined ps ix).
Proof. intros H Hl. destruct (in_joined _ _ _ Hl) as (p & Hp & Hs). exact (H p Hp Hs). Qed.
Lemma ends_app {q p : list fstage} : p <> [] -> ends_fdeep (q ++ p) -> ends_fdeep p.
Proof.
  intros Hp (r & E). destruct p as [|x l] using rev_ind; [congruence|]. rewrite app_assoc in E. apply app_inj_tail in E as [_ ->]. exists l; auto.
Qed.
Lemma joined_fine p ps ix : p <> [] -> ~ ends_fdeep p -> (forall q, In q (p :: ps) -> safe q) -> fine (joined (p :: ps) ix).
Proof.
  intros Hp He Hs. destruct (joined_first p ps ix) as (q & E). split; [|split; [|apply joined_safe; auto]]; rewrite E.
  - destruct q, p; discriminate || congruence.
  - intros K. apply He. eapply ends_app; eauto.
Qed.

(** ** Several patterns *)
Definition no_nested (l : list located) : Prop := forall a u b v, In (a, u) l -> In (b, v) l -> ~ above a b.
Lemma sorted_prefix (l : list located) : forall a b, map snd l = a ++ b -> exists l', map snd l' = a /\ incl l' l /\ (StronglySorted doc_before (map fst l) -> StronglySorted doc_before (map fst l')).
Proof.
  induction l as [|x l IH]; intros a b E.
  - destruct a; [|discriminate]. exists []. split; auto. split; [apply incl_refl|]. auto.
  - destruct a as [|y a]; [exists []; split; auto; split; [intros z []|intros; constructor]|]. cbn in E. injection E as <- E. destruct (IH a b E) as (l' & E' & I & Hs). exists (x :: l').
    split; [cbn; rewrite E'; auto|]. split; [intros z [->|Hz]; [left; auto|right; auto]|]. intros H. cbn in *. inversion H as [|? ? H1 H2]; subst. constructor; auto.
    rewrite Forall_forall in *. intros z Hz. apply H2. apply in_map_iff in Hz as (w & <- & Hw). apply in_map. auto.
Qed.
Lemma several_sound ps c s t c' s' x : fserved ps c s -> is_element t -> fhandle (fstates ps) c (new_handler s) (doc_events t) c' s' x ->
  kept_intact s s' /\ forall ix, ix < length ps ->
    exists l, sent_to s s' ix (map snd l) /\ StronglySorted doc_before (map fst l) /\ no_nested l /\
      forall a u, In (a, u) l -> subtree t a = Some u /\ is_element u /\ reached ps ix (starts [] t a).
Proof.
  intros Hs Ht H. destruct (one_doc _ _ _ _ _ _ _ (fserved_ready _ _ _ Hs) H) as (Hk & Ho & _). split; auto. intros ix Hx. destruct (Ho ix Hx) as (ts & rest & S1 & E & _).
  destruct (sorted_prefix _ _ _ E) as (l & <- & I & Hst). exists l. split; auto. split; [apply Hst, ffound_sorted|].
  assert (K : forall a u, In (a, u) l -> In (a, u) (ffound (chosen ps ix) [] [] t)) by (intros; apply I; auto). split.
  - intros a u b v Ha Hb Hab. apply K, ffound_in in Ha as (_ & _ & Ha & _). apply K, ffound_in in Hb as (_ & _ & _ & Hb). rewrite (Hb a Hab) in Ha. discriminate.
  - intros a u Ha. apply K, ffound_in in Ha as (H1 & H2 & H3 & _). split; auto. split; auto. apply chosen_sound; auto. apply starts_start.
Qed.
Lemma several_total ps c s t c' s' x : fserved ps c s -> is_element t -> fhandle (fstates ps) c (new_handler s) (doc_events t) c' s' x ->
  (forall ix, ix < length ps -> fine (joined ps ix)) -> x = None /\ fserved ps c' s'.
Proof.
  intros Hs Ht H Hf. destruct (one_doc _ _ _ _ _ _ _ (fserved_ready _ _ _ Hs) H) as (_ & _ & K). destruct x as [y|]; [|split; auto; econstructor; eauto].
  exfalso. destruct K as (ix & p & Hx & Fp & _ & E). unfold fstates in E. rewrite fstates_nth in E by auto.
  destruct (fmatch_fine _ (seen_starts (length ps) ix p Fp) _ (Hf ix Hx)) as (b & Eb). unfold fprep in Eb. congruence.
Qed.
Lemma several_fine p ps c s t c' s' x : p <> [] -> ~ ends_fdeep p -> (forall q, In q (p :: ps) -> safe q) -> fserved (p :: ps) c s -> is_element t ->
  fhandle (fstates (p :: ps)) c (new_handler s) (doc_events t) c' s' x -> x = None /\ fserved (p :: ps) c' s'.
Proof. intros Hp He Hsf Hs Ht H. eapply several_total; eauto. intros ix _. apply joined_fine; auto. Qed.
Lemma several_exact_of ps c s t c' s' x ix : fserved ps c s -> is_element t -> fhandle (fstates ps) c (new_handler s) (doc_events t) c' s' x -> x = None ->
  ix < length ps -> exact_pattern (joined ps ix) -> exists l, listing t (outermost_by (reached ps ix) t) l /\ sent_to s s' ix (map snd l).
Proof.
  intros Hs Ht H -> Hx He. destruct (one_doc _ _ _ _ _ _ _ (fserved_ready _ _ _ Hs) H) as (_ & Ho & _). destruct (Ho ix Hx) as (ts & rest & S1 & E & Er).
  rewrite (Er eq_refl), app_nil_r in E. exists (ffound (chosen ps ix) [] [] t). rewrite E. split; auto. destruct (ffound_listing (chosen ps ix) t) as [L1 L2]. split; auto.
  intros a u. rewrite L2. split; intros (G1 & G2); (split; [auto|]); (eapply outermost_ext; [|exact G2]); intros path F; pose proof (chosen_exact ps ix path Hx He F); tauto.
Qed.
Lemma several_exact p ps c s t c' s' x : p <> [] -> (forall q, In q (p :: ps) -> no_fdeep q /\ safe q) -> fserved (p :: ps) c s -> is_element t ->
  fhandle (fstates (p :: ps)) c (new_handler s) (doc_events t) c' s' x ->
  x = None /\ fserved (p :: ps) c' s' /\ kept_intact s s' /\
  forall ix, ix < length (p :: ps) -> exists l, listing t (outermost_by (reached (p :: ps) ix) t) l /\ sent_to s s' ix (map snd l).
Proof.
  intros Hp Hq Hs Ht H. assert (Hn : ~ ends_fdeep p) by (intros (r & E); apply (proj1 (Hq p (or_introl eq_refl))); rewrite E; apply in_or_app; right; left; auto).
  destruct (several_fine p ps c s t c' s' x Hp Hn (fun q Hi => proj2 (Hq q Hi)) Hs Ht H) as (-> & Hs'). split; auto. split; auto.
  split; [apply (several_sound _ _ _ _ _ _ _ Hs Ht H)|]. intros ix Hx. eapply several_exact_of; eauto. intros es F. apply fmatch_exact; auto.
  - destruct (joined_fine p ps ix Hp Hn (fun q Hi => proj2 (Hq q Hi))) as (K & _). exact K.
  - apply joined_no_deep. intros q Hi. apply Hq; auto.
  - apply joined_safe. intros q Hi. apply Hq; auto.
Qed.

(** ** One pattern *)
Lemma seen_one path : seen 1 0 path = path.
Proof.
  unfold seen. destruct path as [|x l] using rev_ind; [reflexivity|]. rewrite removelast_last, rev_app_distr. cbn [rev app repeat]. f_equal. clear. induction l as [|e l IH]; cbn; [|f_equal]; auto.
Qed.
Lemma joined_one p : joined [p] 0 = p. Proof. unfold joined. cbn. rewrite app_nil_r. reflexivity. Qed.
Lemma reached_one p path : reached [p] 0 path <-> begins p path.
Proof. unfold reached, begins. cbn [length]. rewrite seen_one, joined_one. tauto. Qed.
Lemma listing_ext t (P Q : addr -> xtree -> Prop) l : (forall a u, subtree t a = Some u -> P a u <-> Q a u) -> listing t P l -> listing t Q l.
Proof. intros H [L1 L2]. split; auto. intros a u. rewrite L2. split; intros (G1 & G2); (split; [auto|]); apply (H a u G1); auto. Qed.
Lemma one_exact p c s t c' s' x : no_fdeep p -> p <> [] -> safe p -> fserved [p] c s -> is_element t ->
  fhandle (fstates [p]) c (new_handler s) (doc_events t) c' s' x ->
  x = None /\ fserved [p] c' s' /\ kept_intact s s' /\
  exists l, listing t (fun a u => is_element u /\ fmatches p (starts [] t a)) l /\ sent_to s s' 0 (map snd l).
Proof.
  intros Hd Hp Hsf Hs Ht H. destruct (several_exact p [] c s t c' s' x Hp) as (E & Hs' & Hk & Hl); auto; [intros q [<-|[]]; auto|].
  split; auto. split; auto. split; auto. destruct (Hl 0 ltac:(cbn; lia)) as (l & Ll & Sl). exists l. split; auto. eapply listing_ext; [|exact Ll].
  intros a u Hu. rewrite <- outermost_exact by auto. rewrite <- (outermost_begins p t a u); auto; [|intros z M ->; apply fmatches_len in M; auto; destruct p; [congruence|discriminate]].
  split; apply outermost_ext; intros path _; rewrite reached_one; tauto.
Qed.
Lemma deep_nonempty q : fmatches q [] -> forall pre st, st <> FDeep -> q <> pre ++ [FDeep; st].
Proof.
  intros M. remember [] as z eqn:Ez. revert Ez. induction M as [|s0 q e es O M IH|q l es M IH]; intros Ez pre st Hst Eq; [destruct pre; discriminate|discriminate|].
  apply app_eq_nil in Ez as [-> ->]. destruct pre as [|s1 pre]; cbn in Eq.
  - injection Eq as ->. inversion M; subst; congruence.
  - injection Eq as _ ->. exact (IH eq_refl pre st Hst eq_refl).
Qed.
Lemma one_deep pre st c s t c' s' x : no_fdeep pre -> st <> FDeep -> safe (pre ++ [FDeep; st]) -> fserved [pre ++ [FDeep; st]] c s -> is_element t ->
  fhandle (fstates [pre ++ [FDeep; st]]) c (new_handler s) (doc_events t) c' s' x ->
  x = None /\ fserved [pre ++ [FDeep; st]] c' s' /\ kept_intact s s' /\
  exists l, listing t (outermost_by (fmatches (pre ++ [FDeep; st])) t) l /\ sent_to s s' 0 (map snd l).
Proof.
  intros Hd Hst Hsf Hs Ht H. set (p := pre ++ [FDeep; st]) in *.
  assert (Hp : p <> []) by (unfold p; destruct pre; discriminate).
  assert (Hn : ~ ends_fdeep p) by (intros (r & E); unfold p in E; change [FDeep; st] with ([FDeep] ++ [st]) in E; rewrite app_assoc in E; apply app_inj_tail in E as [_ E]; congruence).
  destruct (several_fine p [] c s t c' s' x Hp Hn ltac:(intros q [<-|[]]; auto) Hs Ht H) as (-> & Hs'). split; auto. split; auto.
  split; [apply (several_sound _ _ _ _ _ _ _ Hs Ht H)|].
  destruct (several_exact_of [p] c s t c' s' None 0 Hs Ht H eq_refl ltac:(cbn; lia)) as (l & Ll & Sl); [rewrite joined_one; intros es F; apply fmatch_deep_last; auto|].
  exists l. split; auto. eapply listing_ext; [|exact Ll]. intros a u Hu. rewrite <- (outermost_begins p t a u); auto.
  - split; apply outermost_ext; intros path _; rewrite reached_one; tauto.
  - intros z M ->. exact (deep_nonempty _ M pre st Hst eq_refl).
Qed.
(** ** With the sender's own parser *)
Lemma fsend_doc ps c s doc t c' s' x : lenient_doc doc t -> fsend_parse ps c s doc c' s' x -> fhandle (fstates ps) c (new_handler s) (doc_events t) c' s' x.
Proof.
  intros Hd H. apply parse_lenient in Hd as [(g & Hg) _]. pose proof (close_suspended [doc] _ _ Hg) as Hc. cbn [map app] in Hc.
  inversion H as [c0 s0 doc0 evs g0 c1 s1 x0 He Hh]; subst. rewrite Hc in He. inversion He; subst. exact Hh.
Qed.
Lemma fhandle_exists ss evs : forall c s, exists c' s' x, fhandle ss c s evs c' s' x.
Proof.
  induction evs as [|e evs IH]; intros c s; [exists c, s, None; constructor; apply tcollect_refl|].
  destruct (fctl_all ss 0 c e) as [[l c1] x] eqn:E. destruct (truns_exists l s) as (s1 & H1). destruct x as [x|].
  - exists c1, s1, (Some x). eapply fh_exn; eauto.
  - destruct (IH c1 s1) as (c' & s' & x & H). exists c', s', x. eapply fh_step; eauto.
Qed.
Lemma fsend_exists ps c s doc t : lenient_doc doc t -> exists c' s' x, fsend_parse ps c s doc c' s' x.
Proof.
  intros Hd. apply parse_lenient in Hd as [(g & Hg) _]. pose proof (close_suspended [doc] _ _ Hg) as Hc. cbn [map app] in Hc.
  destruct (fhandle_exists (fstates ps) (doc_events t) c (new_handler s)) as (c' & s' & x & H). exists c', s', x. econstructor; eauto.
Qed.
(** An execution. *)
Fixpoint fhandle1 (ss : list fst_) (c : fctl) (s : tstate) (evs : list event) : fctl * tstate * option fexn :=
  match evs with
  | [] => (c, s, None)
  | e :: r => match fctl_all ss 0 c e with
              | (l, c1, None) => fhandle1 ss c1 (fold_left (fun s st => exec1 st s) l s) r
              | (l, c1, Some x) => (c1, fold_left (fun s st => exec1 st s) l s, Some x)
              end
  end.
Lemma fhandle1_ok ss evs : forall c s, fhandle ss c s evs (fst (fst (fhandle1 ss c s evs))) (snd (fst (fhandle1 ss c s evs))) (snd (fhandle1 ss c s evs)).
Proof.
  induction evs as [|e evs IH]; intros c s; cbn [fhandle1]; [constructor; apply tcollect_refl|].
  destruct (fctl_all ss 0 c e) as [[l c1] [x|]] eqn:E; [eapply fh_exn; eauto; apply runs1_ok|]. eapply fh_step; eauto. apply runs1_ok.
Qed.

(** ** A raising function stops the handler at the element it is called with *)
Lemma stops_at_root ps c s n a ks c' s' x y : fserved ps c s -> 0 < length ps -> fmatch (nth 0 (fstates ps) SMatched) [EvStart n a []] = inr y ->
  fhandle (fstates ps) c (new_handler s) (doc_events (XE n a ks)) c' s' x -> x = Some y /\ tsent s' = tsent s.
Proof.
  intros Hs Hk E H. destruct (fserved_ready _ _ _ Hs) as (E1 & (D1 & D2) & _). unfold doc_events in H. cbn [tree_events] in H.
  destruct (fstates ps) as [|st ss] eqn:Es; [pose proof (len_fstates ps) as K; rewrite Es in K; cbn in K; lia|]. cbn [nth] in E.
  assert (K : fctl_all (st :: ss) 0 c (EvStart n a []) = ([TLoad 0], mkF [EvStart n a []] (fdepths c), Some y)).
  { cbn [fctl_all]. unfold fctl_one. rewrite (D2 0 Hk). cbn [depth_of Nat.eqb]. rewrite E1. cbn [app]. rewrite E. reflexivity. }
  inversion H as [|? ? ? ? ? ? ? ? ? ? F R|? ? ? ? l c1 s1 ? F R]; subst; rewrite K in F; [discriminate|]. injection F as <- <- <-. split; auto.
  inversion R as [|? u v ? ? ? C X R']; subst. inversion X; subst. inversion R' as [? ? C'|]; subst. rewrite (col_sent _ _ C'). cbn. rewrite (col_sent _ _ C). reflexivity.
Qed.

(** ** Patterns without functions *)
Definition in_names (st : stage) : fstage := match st with StName n => FName n | StAny => FAny | StDeep => FDeep | StAlt ns => FAlt (map ByName ns) end.
Fixpoint in_state (s : pst) : fst_ :=
  match s with
  | PMatched => SMatched
  | POnly n next => SOnly n (in_state next)
  | PAnyName next => SAnyName (in_state next)
  | PUntil next => SUntil (in_state next)
  | PAlt ns next => SAny (map ByName ns) (in_state next)
  end.
Definition in_res (r : sres) : fres := match r with SType => FExn FTypeErr | SNone => FNone | SState s => FState (in_state s) end.
Definition in_exn (x : texn) : fexn := match x with TypeErr => FTypeErr | IndexErr => FIndexErr end.
Lemma any_names ns n a anc : any_test (map ByName ns) (EvStart n a anc) = Some (existsb (str_eqb n) ns).
Proof. induction ns as [|m ns IH]; cbn [map any_test call_test existsb]; auto. rewrite IH. destruct (str_eqb n m); reflexivity. Qed.
Lemma fstep_names s n a anc : fstep (in_state s) (EvStart n a anc) = in_res (pst_step s n).
Proof.
  induction s as [|m s IH|s IH|s IH|ns s IH]; cbn [in_state fstep start_name pst_step in_res]; auto.
  - destruct (str_eqb n m); reflexivity.
  - rewrite IH. destruct (pst_step s n); reflexivity.
  - rewrite any_names. destruct (existsb (str_eqb n) ns); reflexivity.
Qed.
Lemma fmatch_names es : Forall is_start es -> forall s, fmatch (in_state s) es = match match_state s (names_of es) with Some b => inl b | None => inr FTypeErr end.
Proof.
  intros F. induction F as [|e es (n & a & anc & ->) F IH]; intros s; cbn [fmatch names_of flat_map app match_state]; auto. rewrite fstep_names. fold (names_of es).
  destruct (pst_step s n) as [| |s']; cbn [in_res]; auto. destruct s' eqn:Es'; [reflexivity| | | |]; rewrite <- Es' in *; (replace (in_state s') with (in_state s') by auto); rewrite Es' at 1; cbn [in_state]; apply (IH s').
Qed.
Lemma fprep_names ps : forall next, fprep_all (in_state next) (map (map in_names) ps) = map in_state (prep_all next ps).
Proof.
  induction ps as [|p ps IH]; intros next; cbn [map fprep_all prep_all]; auto.
  assert (E : fprep_from (in_state next) (map in_names p) = in_state (prep_from next p)).
  { clear. induction p as [|st p IH]; cbn; auto. fold (fprep_from (in_state next) (map in_names p)) (prep_from next p). rewrite IH. destruct st; reflexivity. }
  cbn zeta. rewrite E, IH. reflexivity.
Qed.
Definition ctl_of (c : fctl) : ctl := mkC (names_of (fstack c)) (fdepths c).
Lemma names_snoc es n a anc : names_of (es ++ [EvStart n a anc]) = names_of es ++ [n].
Proof. unfold names_of. rewrite flat_map_app. reflexivity. Qed.
Lemma names_last es : Forall is_start es -> names_of (removelast es) = removelast (names_of es) /\ Forall is_start (removelast es) /\ (names_of es = [] -> es = []).
Proof.
  intros F. destruct es as [|x l] using rev_ind; [repeat split; auto|]. apply Forall_app in F as [F Fx]. inversion Fx as [|? ? (n & a & anc & ->) _]; subst.
  rewrite names_snoc, !removelast_last. split; auto. split; auto. intros K. destruct (names_of l); discriminate.
Qed.
Lemma one_names s ix c e : Forall is_start (fstack c) -> exists c' , let '(l, c0, x) := ctl_one s ix (ctl_of c) e in
  fctl_one (in_state s) ix c e = (l, c', option_map in_exn x) /\ c0 = ctl_of c' /\ Forall is_start (fstack c').
Proof.
  intros F. unfold ctl_one, fctl_one. cbn [ctl_of cdepths cstack]. destruct e as [n a anc|n anc|t].
  - rewrite <- (names_snoc (fstack c) n a anc). assert (F' : Forall is_start (fstack c ++ [EvStart n a anc])) by (apply Forall_app; split; auto; constructor; auto; repeat eexists).
    rewrite (fmatch_names _ F' s). destruct (Nat.eqb (nth ix (fdepths c) 0) 0); [destruct (match_state s (names_of (fstack c ++ [EvStart n a anc]))) as [[]|]|]; eexists; (split; [reflexivity|]); split; auto.
  - destruct (names_last _ F) as (E & F' & N). destruct (fstack c) as [|e0 r] eqn:Ef.
    + cbn. eexists. split; [reflexivity|]. split; [unfold ctl_of; rewrite Ef; reflexivity|]. rewrite Ef; auto.
    + destruct (names_of (e0 :: r)) as [|n0 l0] eqn:En; [discriminate (N eq_refl)|]. rewrite <- E. destruct (Nat.eqb (nth ix (fdepths c) 0) 0); eexists; (split; [reflexivity|]); split; auto.
  - eexists. split; [reflexivity|]. split; auto.
Qed.
Lemma all_names ss : forall ix c e, Forall is_start (fstack c) -> exists c', let '(l, c0, x) := ctl_all ss ix (ctl_of c) e in
  fctl_all (map in_state ss) ix c e = (l, c', option_map in_exn x) /\ c0 = ctl_of c' /\ Forall is_start (fstack c').
Proof.
  induction ss as [|s ss IH]; intros ix c e F; cbn [ctl_all map fctl_all]; [exists c; auto|]. destruct (one_names s ix c e F) as (c1 & K).
  destruct (ctl_one s ix (ctl_of c) e) as [[l c0] x]. destruct K as (-> & -> & F1). destruct x as [x|]; cbn [option_map]; [exists c1; auto|].
  destruct (IH (S ix) c1 e F1) as (c2 & K). destruct (ctl_all ss (S ix) (ctl_of c1) e) as [[l2 c3] x2]. destruct K as (-> & -> & F2). exists c2. auto.
Qed.
Lemma truns_ctl d l : forall s s', truns s l s' -> truns (set_ctl s d) l (set_ctl s' d).
Proof.
  assert (C : forall s s', tcollect s s' -> tcollect (set_ctl s d) (set_ctl s' d)).
  { intros s s' (A & B & E1 & E2 & E3 & E4 & E5 & E6 & E7). split; [exact A|]. split; [exact B|]. cbn. auto 10. }
  assert (X : forall st s s', texec st s s' -> texec st (set_ctl s d) (set_ctl s' d)).
  { intros st s s' H. destruct H as [ix s|n a s|s|ix s|ix s|t s|s|ix s kept Hk|ix s];
      [apply (te_load ix (set_ctl s d))|apply (te_new n a (set_ctl s d))|apply (te_append (set_ctl s d))|apply (te_down ix (set_ctl s d))|apply (te_root ix (set_ctl s d))
      |apply (te_newtext t (set_ctl s d))|apply (te_appendtext (set_ctl s d))|apply (te_send ix (set_ctl s d)); auto|].
    pose proof (te_up ix (set_ctl s d)) as K. cbn [tpar set_ctl] in K. destruct (tpar s); exact K. }
  induction l as [|st l IH]; intros s s' H; inversion H as [? ? Cc|? s1 s2 ? ? ? Cc Xx R]; subst; [constructor; auto|].
  econstructor; [apply C; exact Cc|apply X; exact Xx|apply IH; auto].
Qed.
Lemma set_ctl2 s c d : set_ctl (set_ctl s c) d = set_ctl s d. Proof. reflexivity. Qed.
Lemma set_ctl_id s : set_ctl s (tctl s) = s. Proof. destruct s; reflexivity. Qed.
Lemma fstates_names ps : fstates (map (map in_names) ps) = map in_state (stateses ps). Proof. exact (fprep_names ps PMatched). Qed.
Lemma names_agree ps d s evs s' x : thandle (stateses ps) s evs s' x -> forall c, tctl s = ctl_of c -> Forall is_start (fstack c) ->
  exists c', fhandle (fstates (map (map in_names) ps)) c (set_ctl s d) evs c' (set_ctl s' d) (option_map in_exn x) /\ tctl s' = ctl_of c' /\ Forall is_start (fstack c').
Proof.
  rewrite fstates_names. intros H. induction H as [s s' C|s e evs l c0 s1 s' x E R H IH|s e evs l c0 s1 x E R]; intros c Ec F.
  - exists c. split; [|split; auto]; [|rewrite <- Ec; apply C]. constructor. destruct C as (A & B & E1 & E2 & E3 & E4 & E5 & E6 & E7). split; [exact A|]. split; [exact B|]. cbn. auto 10.
  - destruct (all_names (stateses ps) 0 c e F) as (c1 & K). rewrite <- Ec, E in K. destruct K as (K1 & -> & F1). destruct (IH c1 eq_refl F1) as (c' & K2 & K3 & K4). exists c'. split; auto.
    eapply fh_step; [exact K1|apply truns_ctl; exact R|]. exact K2.
  - destruct (all_names (stateses ps) 0 c e F) as (c1 & K). rewrite <- Ec, E in K. destruct K as (K1 & -> & F1). exists c1. split; [|split; auto].
    eapply fh_exn; [exact K1|]. apply (truns_ctl d) in R. exact R.
Qed.
Lemma names_agree_back ps c s evs c' s' x : fhandle (fstates (map (map in_names) ps)) c s evs c' s' x -> Forall is_start (fstack c) ->
  exists x0, x = option_map in_exn x0 /\ thandle (stateses ps) (set_ctl s (ctl_of c)) evs (set_ctl s' (ctl_of c')) x0.
Proof.
  rewrite fstates_names. intros H. induction H as [c s s' C|c s e evs l c1 s1 c' s' x E R H IH|c s e evs l c1 s1 x E R]; intros F.
  - exists None. split; auto. constructor. destruct C as (A & B & E1 & E2 & E3 & E4 & E5 & E6 & E7). split; [exact A|]. split; [exact B|]. cbn. auto 10.
  - destruct (all_names (stateses ps) 0 c e F) as (c2 & K). destruct (ctl_all (stateses ps) 0 (ctl_of c) e) as [[l0 c0] x1] eqn:E0. destruct K as (K1 & -> & F1).
    rewrite E in K1. injection K1 as -> -> Ex. destruct x1; [discriminate|]. destruct (IH F1) as (x0 & Ex0 & K2). exists x0. split; auto.
    eapply th_step; [exact E0|apply truns_ctl; exact R|]. exact K2.
  - destruct (all_names (stateses ps) 0 c e F) as (c2 & K). destruct (ctl_all (stateses ps) 0 (ctl_of c) e) as [[l0 c0] x1] eqn:E0. destruct K as (K1 & -> & F1).
    rewrite E in K1. injection K1 as -> -> Ex. destruct x1 as [x1|]; [|discriminate]. exists (Some x1). split; auto.
    pose proof (truns_ctl (ctl_of c) _ _ _ R) as R'. apply (th_exn _ (set_ctl s (ctl_of c)) e evs _ _ _ _ E0) in R'. exact R'.
Qed.

(** ** The argument *)
Lemma tuple_argument s r : norm_fpatterns (FTuple (CStr s :: r)) 1 = Some [map comp_stage (CStr s :: r)].
Proof. reflexivity. Qed.
Lemma list_argument ps : norm_fpatterns (FList ps) (length ps) = Some (map (map comp_stage) ps).
Proof.
  unfold norm_fpatterns. rewrite map_length, Nat.eqb_refl. assert (E : all_some (map Some ps) = Some ps) by (clear; induction ps as [|p ps IH]; cbn; auto; rewrite IH; reflexivity).
  rewrite E. reflexivity.
Qed.
Lemma function_first l0 r l f k : In (CTup l) (CTup l0 :: r) -> In (ByFun f) l -> norm_fpatterns (FTuple (CTup l0 :: r)) k = None.
Proof.
  intros Hl Hf. unfold norm_fpatterns. destruct (Nat.eqb _ _); auto.
  assert (E : comp_pattern l = None) by (clear - Hf; induction l as [|[n|g] l IH]; [destruct Hf|destruct Hf as [Hf|Hf]; [discriminate|cbn; rewrite (IH Hf); auto]|reflexivity]).
  assert (K : forall q, In (CTup l) q -> all_some (map as_fpattern q) = None).
  { induction q as [|x q IH]; intros Hi; [destruct Hi|]. destruct Hi as [->|Hi]; cbn [map all_some as_fpattern]; [rewrite E; auto|]. destruct (as_fpattern x); auto. rewrite (IH Hi). auto. }
  rewrite (K _ Hl). reflexivity.
Qed.
Lemma length_mismatch ps k : length ps <> k -> norm_fpatterns (FList ps) k = None.
Proof. intros H. unfold norm_fpatterns. rewrite map_length. apply not_eq_sym, Nat.eqb_neq in H. rewrite H. reflexivity. Qed.
Lemma comp_reads c : reads c (comp_stage c).
Proof.
  destruct c as [s|l]; cbn [comp_stage]; [|constructor]. destruct (str_eqb s (lit "*")) eqn:E1; [apply str_eqb_eq in E1; subst; constructor|].
  destruct (str_eqb s (lit "**")) eqn:E2; [apply str_eqb_eq in E2; subst; constructor|]. constructor; intros ->; [rewrite str_eqb_refl in E1|rewrite str_eqb_refl in E2]; discriminate.
Qed.
Lemma comps_read l : Forall2 reads l (map comp_stage l).
Proof. induction l; cbn; constructor; auto. apply comp_reads. Qed.
Lemma patterns_read ps : Forall2 (Forall2 reads) ps (map (map comp_stage) ps).
Proof. induction ps; cbn; constructor; auto. apply comps_read. Qed.
Lemma comp_pattern_names ns : comp_pattern (map ByName ns) = Some (map CStr ns).
Proof. induction ns as [|n ns IH]; [reflexivity|]. cbn. rewrite IH. reflexivity. Qed.
Lemma sequence_taken l0 r : Forall (fun c => match c with CStr _ => True | CTup l => exists ns, l = map ByName ns end) (CTup l0 :: r) ->
  exists ps, norm_fpatterns (FTuple (CTup l0 :: r)) (S (length r)) = Some ps /\ Forall2 taken (CTup l0 :: r) ps.
Proof.
  intros H. unfold norm_fpatterns. set (l := CTup l0 :: r) in *.
  assert (K : exists qs, all_some (map as_fpattern l) = Some qs /\ Forall2 taken l (map (map comp_stage) qs)).
  { induction H as [|c l' Hc _ IH]; [exists []; split; constructor|]. destruct IH as (qs & E & F). cbn [map all_some].
    destruct c as [s|al]; cbn [as_fpattern].
    - rewrite E. eexists. split; [reflexivity|]. cbn [map]. constructor; auto. constructor. apply comps_read.
    - destruct Hc as (ns & ->). rewrite comp_pattern_names, E. eexists. split; [reflexivity|]. cbn [map]. constructor; auto. constructor. apply comps_read. }
  destruct K as (qs & E & F). rewrite map_length. change (length l) with (S (length r)). rewrite Nat.eqb_refl, E. eexists. split; [reflexivity|exact F].
Qed.
