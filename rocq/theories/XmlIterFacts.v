(** Streaming from XML 1.0, and when things are sent. *)
From Verif Require Import PyStr Parser XTree Tree TreeSpec Heap Builder HeapSpec BuilderFacts Path Nodes Pattern PatternSpec PatternFacts.
From Verif Require Import TreeIter TreeIterSpec TreeIterFacts TreeIterMore TreeUtil TreeUtilSpec TreeUtilFacts Expat ExpatSpec ExpatFacts XmlIter XmlIterSpec.

(** ** Several calls of [parse] *)
Lemma xparses_run mem p css : forall evs stk r b stack m l s s' stk' x stack' m' out,
  callbacks stk (concat css) = (evs, Some r) -> tinv mem b stack m l s -> xparses [p] (s, stk) css (s', stk') x ->
  arun (prep p) stack m evs = Some (stack', m', out) ->
  x = None /\ stk' = r /\ exists lst, tsent s' = tsent s ++ lst /\ same_trees lst out /\ tinv mem (b + total_size out) stack' m' (plus l lst) s'.
Proof.
  induction css as [|cs css IH]; intros evs stk r b stack m l s s' stk' x stack' m' out E I X A.
  - cbn in E. injection E as <- <-. inversion X; subst. cbn in A. injection A as <- <- <-. split; [reflexivity|]. split; [reflexivity|].
    exists []. rewrite app_nil_r. cbn. rewrite Nat.add_0_r. split; [reflexivity|]. split; [constructor|]. eapply tinv_weaken; [|exact I]. apply plus_nil.
  - cbn [concat] in E. rewrite callbacks_app in E. destruct (callbacks stk cs) as [e1 [stk1|]] eqn:E1; [|discriminate].
    destruct (callbacks stk1 (concat css)) as [e2 r2] eqn:E2. injection E as <- ->. rewrite arun_app in A.
    destruct (arun (prep p) stack m e1) as [[[st1 m1] o1]|] eqn:A1; [|discriminate].
    destruct (arun (prep p) st1 m1 e2) as [[[st2 m2] o2]|] eqn:A2; [|discriminate]. injection A as <- <- <-.
    assert (K : forall s1 stk1' x1, xparse [p] (s, stk) cs (s1, stk1') x1 -> x1 = None /\ stk1' = stk1 /\
      exists lst, tsent s1 = tsent s ++ lst /\ same_trees lst o1 /\ tinv mem (b + total_size o1) st1 m1 (plus l lst) s1).
    { intros s1 stk1' x1 Q. inversion Q as [? ? ? ? ? ? C T|? ? ? ? ? C T|? ? ? ? ? ? ? C T]; subst; rewrite E1 in C; try discriminate; injection C as <- C; try subst;
        destruct (run_ok _ _ _ _ _ _ _ _ _ _ _ _ _ I T A1) as (N & G); try discriminate. split; [reflexivity|]. split; [reflexivity|exact G]. }
    inversion X as [|? ? [s1 stk1'] ? ? ? Q X'|? ? ? ? ? Q]; subst; [|destruct (K _ _ _ Q) as (N & _); discriminate].
    destruct (K _ _ _ Q) as (_ & -> & l1 & S1 & T1 & I1).
    destruct (IH _ _ _ _ _ _ _ _ _ _ _ _ _ _ E2 I1 X' A2) as (-> & -> & l2 & S2 & T2 & I2). split; [reflexivity|]. split; [reflexivity|].
    exists (l1 ++ l2). split; [rewrite S2, S1, app_assoc; reflexivity|]. split; [apply Forall2_app; assumption|].
    rewrite total_size_app, Nat.add_assoc. eapply tinv_weaken; [|exact I2].
    intros i t [H|(h & Hin & H)]; [left; left; auto|]. apply in_app_iff in Hin as [Hin|Hin]; [left; right; exists h; auto|right; exists h; auto].
Qed.
Lemma new_tinv h p : allocated h -> tinv true (nxt h) [] AIdle (kept_now (new_sender h [p])) (new_handler (new_sender h [p])).
Proof.
  intros A. constructor; try reflexivity.
  - split; reflexivity.
  - apply (kinv_now (new_sender h [p])). exact A.
  - intros _. left. auto.
Qed.
(** One complete document in any number of parts *)
Lemma xml_document p h css u s' stk x : p <> [] -> ~ ends_deep p -> allocated h -> report (concat css) [u] ->
  xparses [p] (new_xsender h [p]) css (s', stk) x ->
  x = None /\ stk = [] /\ kept_intact (new_sender h [p]) s' /\ sent_since (new_sender h [p]) s' 0 (map snd (found (hits (prep p)) [] u)).
Proof.
  intros Hp He A R X. assert (Hf : forall names, fails (prep p) names = false) by (intros; apply fails_never; auto).
  pose proof (arun_idle (prep p) u Hf (prep_not_matched p Hp) [] (nil_hits _)) as Ha.
  destruct (xparses_run true p css _ _ _ _ _ _ _ _ _ _ _ _ _ _ (report_document _ _ R) (new_tinv h p A) X Ha) as (-> & -> & lst & H1 & H2 & H3).
  split; [reflexivity|]. split; [reflexivity|]. split; [|exists lst; split; [exact H1|exact H2]]. destruct H3 as [_ _ _ _ E5 _]. split; [intros i t []|].
  intros ix i h0 t0 Hin Hn Hk Ht. rewrite H1 in Hin. cbn in Hin.
  assert (ix = 0). { clear - H2 Hin. induction H2 as [|y v l l' (j & h' & -> & _) _ IH]; [destruct Hin|]. destruct Hin as [E|Hin]; [injection E; auto|auto]. }
  subst ix. destruct (E5 i t0) as [_ G]; [right; exists h0; auto|]. destruct (G Hk) as (ids & G1 & G2 & _). exists ids; auto.
Qed.
Theorem xml_exact p h css u s' stk x : no_deep p -> p <> [] -> allocated h -> report (concat css) [u] -> is_element u ->
  xparses [p] (new_xsender h [p]) css (s', stk) x ->
  x = None /\ stk = [] /\ kept_intact (new_sender h [p]) s' /\
  exists l, listing u (fun a v => is_element v /\ matches p (path_names u a)) l /\ sent_since (new_sender h [p]) s' 0 (map snd l).
Proof.
  intros D P A R T X. destruct (xml_document p h css u s' stk x P (no_deep_ends p D) A R X) as (-> & -> & K & S). split; [reflexivity|]. split; [reflexivity|]. split; [exact K|].
  exists (found (hits (prep p)) [] u). split; [|exact S]. eapply listing_ext; [|apply found_listing]. intros a v Hu. cbn. rewrite hits_exact by auto. split; [tauto|].
  intros [H4 H5]. split; auto. split; auto. intros b Hb. destruct (hits (prep p) (path_names u b)) eqn:E; [|reflexivity]. exfalso.
  apply hits_exact in E; auto. destruct (path_names_above u a b v Hu H4 Hb) as (y & Ey & Hy). apply matches_len in E; auto. apply matches_len in H5; auto.
  rewrite Ey, app_length in H5. destruct y; [congruence|]. cbn in H5. lia.
Qed.
Lemma sent_same s s' ix ts ts' : sent_since s s' ix ts -> sent_since s s' ix ts' -> ts = ts'.
Proof.
  intros (l & E & F) (l' & E' & F'). rewrite E in E'. apply app_inv_head in E'. subst l'. clear E. revert ts' F'.
  induction F as [|x t l ts (i & h & -> & H) F IH]; intros ts' F'; inversion F' as [|x' t' l' ts'' (i' & h' & X & H') F'']; subst; [reflexivity|].
  inversion X; subst. f_equal; [|apply IH; assumption]. symmetry. eapply holds_tree_det; eassumption.
Qed.
Theorem xml_deep pre st h css u s' stk x : no_deep pre -> st <> StDeep -> allocated h -> report (concat css) [u] -> is_element u ->
  xparses [pre ++ [StDeep; st]] (new_xsender h [pre ++ [StDeep; st]]) css (s', stk) x ->
  x = None /\ stk = [] /\ kept_intact (new_sender h [pre ++ [StDeep; st]]) s' /\
  exists l, listing u (outermost (pre ++ [StDeep; st]) u) l /\ sent_since (new_sender h [pre ++ [StDeep; st]]) s' 0 (map snd l).
Proof.
  intros D P A R T X. set (p := pre ++ [StDeep; st]) in *. assert (Hp : p <> []) by (unfold p; destruct pre; discriminate).
  destruct (xml_document p h css u s' stk x Hp (deep_last_not_ends pre st P) A R X) as (-> & -> & K & S). split; [reflexivity|]. split; [reflexivity|]. split; [exact K|].
  destruct (thandle_exists (stateses [p]) (doc_events u) (new_handler (new_sender h [p]))) as (s0 & x0 & T0).
  assert (Hf : forall names, fails (prep p) names = false) by (intros; apply fails_never; auto; apply deep_last_not_ends; auto).
  assert (SV : served p (new_sender h [p])) by (constructor; exact A).
  destruct (stream_deep pre st _ u s0 x0 D P SV T T0) as (_ & _ & l & L & S0). exists l. split; [exact L|].
  destruct (one_document p _ u s0 x0 (served_ready _ _ Hp Hf SV) Hp Hf T0) as (_ & _ & S1 & _). rewrite (sent_same _ _ _ _ _ S0 S1). exact S.
Qed.
(** Part of a document: nothing goes wrong, and what was sent is the beginning of what the whole document gives. *)
Theorem xml_prefix p h css more u s' stk x : p <> [] -> ~ ends_deep p -> allocated h -> report (concat css ++ more) [u] -> is_element u ->
  xparses [p] (new_xsender h [p]) css (s', stk) x ->
  x = None /\ exists ts, sent_since (new_sender h [p]) s' 0 ts /\
  forall s1 stk1 x1, xparses [p] (new_xsender h [p]) (css ++ [more]) (s1, stk1) x1 -> exists ts', sent_since (new_sender h [p]) s1 0 (ts ++ ts').
Proof.
  intros Hp He A R (n & a & ks & ->) X. assert (Hf : forall names, fails (prep p) names = false) by (intros; apply fails_never; auto).
  destruct (report_prefix _ _ _ _ _ R) as (evs & st & rest & C & E & _).
  destruct (tree_read (prep p) _ Hf (prep_not_matched p Hp) [] (nil_hits _) evs rest E) as (stk0 & m & out & Ha & Hout).
  destruct (xparses_run true p css _ _ _ _ _ _ _ _ _ _ _ _ _ _ C (new_tinv h p A) X Ha) as (-> & -> & lst & H1 & H2 & _).
  split; [reflexivity|]. exists out. split; [exists lst; split; [exact H1|exact H2]|]. intros s1 stk1 x1 X1.
  destruct (xml_document p h (css ++ [more]) (XE n a ks) s1 stk1 x1 Hp He A) as (_ & _ & _ & S); [|exact X1|].
  { rewrite concat_app. cbn [concat]. rewrite app_nil_r. exact R. }
  destruct m as [|f fs]; [destruct Hout as (t & Hout)|destruct Hout as (v & t & Hout & _)]; rewrite Hout in S; eexists; exact S.
Qed.
(** There is an execution. *)
Theorem xml_exists ps css : forall s, exists s' x, xparses ps s css s' x.
Proof.
  induction css as [|cs css IH]; intros [s stk]; [exists (s, stk), None; constructor|].
  destruct (callbacks stk cs) as [evs r] eqn:E. destruct (thandle_exists (stateses ps) evs s) as (s1 & [x|] & T).
  - exists (s1, stk), (Some (XHandler x)). apply xs_exn. exact (xq_handler ps s stk cs evs r s1 x E T).
  - destruct r as [stk1|].
    + destruct (IH (s1, stk1)) as (s' & x & X). exists s', x. exact (xs_cons ps _ _ _ _ _ _ (xq_ok ps s stk cs evs stk1 s1 E T) X).
    + exists (s1, stk), (Some XIndex). apply xs_exn. exact (xq_index ps s stk cs evs s1 E T).
Qed.

(** ** Cutting text elsewhere *)
Definition joined_all (ks : list xtree) : list xtree := fold_right (fun k acc => cons_node (joined k) acc) [] ks.
Lemma joined_elem n a ks : joined (XE n a ks) = XE n a (joined_all ks). Proof. reflexivity. Qed.
Lemma joined_app l : forall l1 l2, joined_all l1 = joined_all l2 -> joined_all (l ++ l1) = joined_all (l ++ l2).
Proof. induction l as [|k l IH]; intros l1 l2 H; [exact H|]. cbn [app joined_all fold_right]. fold (joined_all (l ++ l1)) (joined_all (l ++ l2)). rewrite (IH _ _ H). reflexivity. Qed.
Lemma cons_text_app s1 s2 ks : cons_text (s1 ++ s2) ks = cons_text s1 (cons_text s2 ks).
Proof.
  destruct s1 as [|c s1]; [reflexivity|]. destruct s2 as [|d s2]; [rewrite app_nil_r; reflexivity|].
  cbn [cons_text app]. destruct ks as [|[n a l|s] ks]; try reflexivity. rewrite <- app_assoc. reflexivity.
Qed.
Lemma joined_cut s1 s2 ks : joined_all (XT (s1 ++ s2) :: ks) = joined_all (XT s1 :: XT s2 :: ks).
Proof. exact (cons_text_app s1 s2 (joined_all ks)). Qed.
Lemma report_app cs1 ks1 : report cs1 ks1 -> forall cs2 ks2, report cs2 ks2 -> report (cs1 ++ cs2) (ks1 ++ ks2).
Proof.
  intros R. induction R as [|cs ks R IH|s cs ks R IH|q ats d cs0 ks0 cs ks G1 G2 C R0 IH0 R IH]; intros cs2 ks2 R2; cbn [app].
  - exact R2.
  - apply rp_ns. apply IH; exact R2.
  - apply rp_text. apply IH; exact R2.
  - rewrite <- app_assoc. cbn [app]. apply rp_elem; auto.
Qed.
(** Any run of text calls replaced by another that joins to the same. *)
Definition single (ks ks' : list xtree) : Prop := ks <> [] /\ forall t, ks = [t] -> is_element t -> exists t', ks' = [t'] /\ is_element t'.
Lemma report_swap cs ks : report cs ks -> forall cs1 mid cs2 mid', cs = cs1 ++ mid ++ cs2 -> mid <> [] ->
  (forall c, In c mid -> exists s, c = CbChars s) -> (forall c, In c mid' -> exists s, c = CbChars s) ->
  (forall kt kt' l, report mid kt -> report mid' kt' -> joined_all (kt ++ l) = joined_all (kt' ++ l)) ->
  exists ks', report (cs1 ++ mid' ++ cs2) ks' /\ joined_all ks = joined_all ks' /\ single ks ks'.
Proof.
  intros R. induction R as [|cs ks R IH|s cs ks R IH|q ats d cs0 ks0 cs ks G1 G2 C R0 IH0 R IH]; intros cs1 mid cs2 mid' E N T T' J.
  - destruct cs1; [|discriminate]. destruct mid; [congruence|discriminate].
  - destruct cs1 as [|c cs1]; [destruct mid as [|c mid]; [congruence|]; injection E as <- _; destruct (T CbNamespace (or_introl eq_refl)); discriminate|].
    injection E as <- E. destruct (IH _ _ _ mid' E N T T' J) as (ks' & R' & Q). exists ks'. split; [apply rp_ns; exact R'|exact Q].
  - assert (Z : forall ks', single (XT s :: ks) ks').
    { intros ks'. split; [discriminate|]. intros t Et (n & a & l & ->). discriminate. }
    destruct cs1 as [|c cs1].
    + clear IH. cbn [app] in *.
      assert (W : forall m, (forall c, In c m -> exists s, c = CbChars s) -> forall rest l, report (m ++ rest) l -> exists kt l', l = kt ++ l' /\ report m kt /\ report rest l').
      { induction m as [|c m IHm]; intros Tm rest l Rl; [exists [], l; repeat split; [constructor|exact Rl]|].
        destruct (Tm c (or_introl eq_refl)) as (s0 & ->). inversion Rl as [| |? ? l0 Rl0|]; subst.
        destruct (IHm (fun c H => Tm c (or_intror H)) rest l0 Rl0) as (kt & l' & -> & Rm & Rr). exists (XT s0 :: kt), l'. repeat split; [apply rp_text; exact Rm|exact Rr]. }
      assert (W' : forall m, (forall c, In c m -> exists s, c = CbChars s) -> exists kt, report m kt).
      { induction m as [|c m IHm]; intros Tm; [exists []; constructor|]. destruct (Tm c (or_introl eq_refl)) as (s0 & ->).
        destruct (IHm (fun c H => Tm c (or_intror H))) as (kt & Rm). exists (XT s0 :: kt). apply rp_text. exact Rm. }
      assert (RR : report (mid ++ cs2) (XT s :: ks)) by (rewrite <- E; apply rp_text; exact R).
      destruct (W mid T cs2 _ RR) as (kt & l' & Ek & Rm & Rr). destruct (W' mid' T') as (kt' & Rm').
      exists (kt' ++ l'). split; [apply report_app; assumption|]. split; [rewrite Ek; apply J; assumption|apply Z].
    + injection E as <- E. destruct (IH _ _ _ mid' E N T T' J) as (ks' & R' & Q & _). exists (XT s :: ks'). split; [apply rp_text; exact R'|].
      split; [exact (joined_app [XT s] _ _ Q)|apply Z].
  - destruct cs1 as [|c cs1]; [destruct mid as [|c mid]; [congruence|]; injection E as <- _; destruct (T _ (or_introl eq_refl)) as (? & E0); discriminate|].
    injection E as <- E.
    assert (Z : forall ks', single (XE (snd q) d ks0 :: ks) (XE (snd q) d ks' :: ks)).
    { intros ks'. split; [discriminate|]. intros t Et _. injection Et as _ ->. eexists. split; [reflexivity|repeat eexists]. }
    assert (IN : forall y, cs0 = cs1 ++ mid ++ y -> cs2 = y ++ CbEnd (expanded q) :: cs ->
      exists ks', report (CbStart (expanded q) (reported ats) :: cs1 ++ mid' ++ cs2) ks' /\ joined_all (XE (snd q) d ks0 :: ks) = joined_all ks' /\ single (XE (snd q) d ks0 :: ks) ks').
    { intros y F1 F2. destruct (IH0 cs1 mid y mid' F1 N T T' J) as (ks' & R' & Q & _). exists (XE (snd q) d ks' :: ks). split; [|split; [|apply Z]].
      - rewrite F2. replace (cs1 ++ mid' ++ y ++ CbEnd (expanded q) :: cs) with ((cs1 ++ mid' ++ y) ++ CbEnd (expanded q) :: cs) by (rewrite <- !app_assoc; reflexivity).
        apply rp_elem; assumption.
      - cbn [joined_all fold_right]. rewrite !joined_elem, Q. reflexivity. }
    cbn [app]. apply app_eq_app in E as (z & [[E1 E2]|[E1 E2]]).
    + destruct z as [|z0 z].
      * cbn [app] in E2. destruct mid as [|c mid]; [congruence|]. injection E2 as E2 _. destruct (T c (or_introl eq_refl)) as (? & E0). congruence.
      * apply app_eq_app in E2 as (y & [[F1 F2]|[F1 F2]]).
        -- destruct y as [|y0 y].
           ++ rewrite app_nil_r in F1. cbn [app] in F2. apply (IN []); [rewrite app_nil_r, F1; exact E1|symmetry; exact F2].
           ++ exfalso. cbn [app] in F2. injection F2 as <- _. destruct (T (CbEnd (expanded q))) as (? & E0); [rewrite F1; apply in_or_app; right; left; reflexivity|discriminate].
        -- apply (IN y); [rewrite E1, F1; reflexivity|exact F2].
    + destruct z as [|z0 z].
      * cbn [app] in E2. destruct mid as [|c mid]; [congruence|]. injection E2 as E2 _. destruct (T c (or_introl eq_refl)) as (? & E0). congruence.
      * injection E2 as <- E2. destruct (IH z mid cs2 mid' E2 N T T' J) as (ks' & R' & Q & NE & _). exists (XE (snd q) d ks0 :: ks'). split; [|split].
        -- rewrite E1, <- app_assoc. cbn [app]. apply rp_elem; assumption.
        -- exact (joined_app [XE (snd q) d ks0] _ _ Q).
        -- split; [discriminate|]. intros t Et _. injection Et as _ Et. congruence.
Qed.
Lemma text_calls_one s kt : report [CbChars s] kt -> kt = [XT s].
Proof. intros R. inversion R as [| |? ? ? R0|]; subst. inversion R0; reflexivity. Qed.
Lemma text_calls_two s1 s2 kt : report [CbChars s1; CbChars s2] kt -> kt = [XT s1; XT s2].
Proof. intros R. inversion R as [| |? ? ? R0|]; subst. rewrite (text_calls_one _ _ R0). reflexivity. Qed.
Lemma recut_report cs cs' : recut cs cs' -> forall u, is_element u -> (report cs [u] -> exists u', is_element u' /\ report cs' [u'] /\ joined u = joined u') /\
  (report cs' [u] -> exists u', is_element u' /\ report cs [u'] /\ joined u = joined u').
Proof.
  assert (TOP : forall u ks', is_element u -> joined_all [u] = joined_all ks' -> single [u] ks' -> exists u', ks' = [u'] /\ is_element u' /\ joined u = joined u').
  { intros u ks' I Q (_ & G). destruct (G u eq_refl I) as (u' & -> & I'). exists u'. split; [reflexivity|]. split; [exact I'|].
    destruct I as (n & a & l & ->), I' as (n' & a' & l' & ->). injection Q as -> -> Q. rewrite !joined_elem. f_equal. exact Q. }
  intros H. induction H as [cs|cs cs' H IH|cs cs' cs'' H1 IH1 H2 IH2|cs1 s1 s2 cs2]; intros u I.
  - split; intros R; exists u; auto.
  - destruct (IH u I) as [I1 I2]. split; assumption.
  - split; intros R.
    + destruct (proj1 (IH1 u I) R) as (k1 & J1 & R1 & Q1). destruct (proj1 (IH2 k1 J1) R1) as (k2 & J2 & R2 & Q2). exists k2. split; [exact J2|]. split; [exact R2|congruence].
    + destruct (proj2 (IH2 u I) R) as (k1 & J1 & R1 & Q1). destruct (proj2 (IH1 k1 J1) R1) as (k2 & J2 & R2 & Q2). exists k2. split; [exact J2|]. split; [exact R2|congruence].
  - split; intros R.
    + destruct (report_swap _ _ R cs1 [CbChars (s1 ++ s2)] cs2 [CbChars s1; CbChars s2] eq_refl) as (ks' & R' & Q & S); [discriminate| | | |].
      * intros c [<-|[]]. eexists; reflexivity.
      * intros c [<-|[<-|[]]]; eexists; reflexivity.
      * intros kt kt' l A B. rewrite (text_calls_one _ _ A), (text_calls_two _ _ _ B). apply joined_cut.
      * destruct (TOP u ks' I Q S) as (u' & -> & I' & Q'). exists u'. auto.
    + destruct (report_swap _ _ R cs1 [CbChars s1; CbChars s2] cs2 [CbChars (s1 ++ s2)] eq_refl) as (ks' & R' & Q & S); [discriminate| | | |].
      * intros c [<-|[<-|[]]]; eexists; reflexivity.
      * intros c [<-|[]]. eexists; reflexivity.
      * intros kt kt' l A B. rewrite (text_calls_two _ _ _ A), (text_calls_one _ _ B). symmetry. apply joined_cut.
      * destruct (TOP u ks' I Q S) as (u' & -> & I' & Q'). exists u'. auto.
Qed.
(** What is found does not depend on how text is cut. *)
Lemma joined_found m t : forall anc, map joined (map snd (found m anc t)) = map snd (found m anc (joined t)).
Proof.
  induction t as [n a ks IH|s] using xtree_ind'; intros anc; [|reflexivity]. rewrite joined_elem. cbn [found].
  destruct (m (anc ++ [n])); [reflexivity|].
  assert (V : forall f i ls, map snd (over f i ls) = flat_map (fun k => map snd (f k)) ls).
  { intros f i ls. revert i. induction ls as [|k ls IHl]; intros i; [reflexivity|]. cbn [over flat_map]. rewrite map_app, IHl. unfold under. rewrite map_map. reflexivity. }
  rewrite !V. induction IH as [|k ks Hk _ IHk]; [reflexivity|]. cbn [flat_map joined_all fold_right]. fold (joined_all ks). rewrite map_app, Hk, IHk.
  set (g := fun k => map snd (found m (anc ++ [n]) k)). fold (g (joined k)).
  destruct k as [n1 a1 k1|s]; [rewrite joined_elem; reflexivity|]. cbn [joined]. unfold g at 1. cbn [found map app cons_node].
  destruct s as [|c s]; [reflexivity|]. cbn [cons_text]. destruct (joined_all ks) as [|[n2 a2 k2|s2] r]; reflexivity.
Qed.
Lemma joined_value t : xml_value (joined t) = xml_value t.
Proof.
  induction t as [n a ks IH|s] using xtree_ind'; [|reflexivity]. rewrite joined_elem. cbn [xml_value]. unfold py_join.
  induction IH as [|k ks Hk _ IHk]; [reflexivity|]. cbn [map concat joined_all fold_right]. fold (joined_all ks). rewrite <- IHk, <- Hk.
  destruct (joined k) as [n1 a1 k1|s]; [reflexivity|]. cbn [cons_node xml_value]. destruct s as [|c s]; [reflexivity|]. cbn [cons_text].
  destruct (joined_all ks) as [|[n2 a2 k2|s2] r]; try reflexivity. cbn [map xml_value concat]. rewrite app_assoc. reflexivity.
Qed.
Theorem xml_recut p h css css' u s1 k1 x1 s2 k2 x2 : p <> [] -> ~ ends_deep p -> allocated h ->
  report (concat css) [u] -> is_element u -> recut (concat css) (concat css') ->
  xparses [p] (new_xsender h [p]) css (s1, k1) x1 -> xparses [p] (new_xsender h [p]) css' (s2, k2) x2 ->
  x1 = None /\ x2 = None /\ exists ts1 ts2, sent_since (new_sender h [p]) s1 0 ts1 /\ sent_since (new_sender h [p]) s2 0 ts2 /\
    map joined ts1 = map joined ts2 /\ map xml_value ts1 = map xml_value ts2.
Proof.
  intros Hp He A R I C X1 X2. destruct (proj1 (recut_report _ _ C u I) R) as (u' & _ & R'' & Q').
  destruct (xml_document p h css u s1 k1 x1 Hp He A R X1) as (-> & _ & _ & S1). destruct (xml_document p h css' u' s2 k2 x2 Hp He A R'' X2) as (-> & _ & _ & S2).
  split; [reflexivity|]. split; [reflexivity|]. eexists _, _. split; [exact S1|]. split; [exact S2|].
  assert (J : map joined (map snd (found (hits (prep p)) [] u)) = map joined (map snd (found (hits (prep p)) [] u'))) by (rewrite !joined_found, Q'; reflexivity).
  split; [exact J|]. assert (V : forall l, map xml_value l = map xml_value (map joined l)) by (intros l; rewrite map_map; apply map_ext; intros t; symmetry; apply joined_value).
  rewrite V, (V (map snd (found _ _ u'))), J. reflexivity.
Qed.

(** ** When a subtree is sent *)
Lemma over_split f i ks k : nth_error ks i = Some k -> forall j, over f j ks = over f j (firstn i ks) ++ under (j + i) (f k) ++ over f (S (j + i)) (skipn (S i) ks).
Proof.
  revert ks. induction i as [|i IH]; intros [|x ks] E j; try discriminate.
  - injection E as ->. cbn [firstn skipn over app]. rewrite Nat.add_0_r. reflexivity.
  - cbn [nth_error] in E. cbn [firstn over skipn]. rewrite (IH ks E (S j)), <- app_assoc. cbn [Nat.add]. rewrite Nat.add_succ_r. reflexivity.
Qed.
Lemma firstn_mid {A} i (ks : list A) k : nth_error ks i = Some k -> ks = firstn i ks ++ k :: skipn (S i) ks.
Proof. revert ks. induction i as [|i IH]; intros [|x ks] E; try discriminate; [injection E as ->; reflexivity|]. cbn. f_equal. apply IH. exact E. Qed.
Lemma arun_before st : (forall names, fails st names = false) -> st <> PMatched ->
  forall a t anc v, (forall x y, anc = x ++ y -> hits st x = false) -> In (a, v) (found (hits st) anc t) ->
  let here := anc ++ removelast (path_names t a) in
  (forall x y, here = x ++ y -> hits st x = false) /\
  (exists n ats ks, v = XE n ats ks /\ hits st (here ++ [n]) = true) /\
  (exists rest, tree_events anc t = events_before anc t a ++ tree_events here v ++ rest) /\
  exists pre post, found (hits st) anc t = pre ++ (a, v) :: post /\
    arun st anc AIdle (events_before anc t a) = Some (here, AIdle, map snd pre).
Proof.
  intros Hf Hm. induction a as [|i a IH]; intros t anc v Ha Hin here.
  - destruct t as [n ats ks|s]; [|destruct Hin]. cbn [found] in Hin. cbn [found]. cbn [path_names removelast] in here. assert (EH : here = anc) by apply app_nil_r. rewrite EH.
    destruct (hits st (anc ++ [n])) eqn:E.
    + destruct Hin as [E1|[]]. injection E1 as <-. split; [exact Ha|]. split; [exists n, ats, ks; auto|]. split; [exists []; rewrite app_nil_r; reflexivity|].
      exists [], []. split; reflexivity.
    + exfalso. apply over_in in Hin as (j & k & c & _ & Ec & _). discriminate.
  - destruct t as [n ats ks|s]; [|destruct Hin]. cbn [found] in Hin. cbn [found]. destruct (hits st (anc ++ [n])) eqn:E.
    { destruct Hin as [E1|[]]. discriminate. }
    apply over_in in Hin as (j & k & c & Ek & Ec & Hin). injection Ec as -> ->. cbn [Nat.add] in *.
    assert (Ha' : forall x y, anc ++ [n] = x ++ y -> hits st x = false).
    { intros x y H. destruct y as [|y0 y] using rev_ind; [rewrite app_nil_r in H; subst; auto|].
      rewrite app_assoc in H. apply app_inj_tail in H as [-> _]. eapply Ha; reflexivity. }
    destruct (IH k (anc ++ [n]) v Ha' Hin) as (H1 & H2 & (rest & H3) & pre & post & H4 & H5).
    assert (EH : here = (anc ++ [n]) ++ removelast (path_names k c)).
    { unfold here. cbn [path_names]. rewrite Ek. apply found_in in Hin as (G1 & (n1 & a1 & k1 & ->) & _).
      destruct (path_names k c) as [|x xs] eqn:Ep; [|cbn [removelast]; rewrite <- app_assoc; reflexivity].
      exfalso. destruct k as [n2 a2 k2|s]; [destruct c; discriminate Ep|]. destruct c; discriminate G1. }
    rewrite EH. split; [exact H1|]. split; [exact H2|]. split.
    + cbn [tree_events events_before]. rewrite Ek.
      assert (EK : flat_map (tree_events (anc ++ [n])) ks = flat_map (tree_events (anc ++ [n])) (firstn j ks) ++ tree_events (anc ++ [n]) k ++ flat_map (tree_events (anc ++ [n])) (skipn (S j) ks)).
      { transitivity (flat_map (tree_events (anc ++ [n])) (firstn j ks ++ k :: skipn (S j) ks)); [f_equal; apply firstn_mid; exact Ek|]. rewrite flat_map_app. reflexivity. }
      rewrite EK, H3.
      exists (rest ++ flat_map (tree_events (anc ++ [n])) (skipn (S j) ks) ++ [EvEnd n anc]). cbn [app]. f_equal. rewrite <- !app_assoc. reflexivity.
    + exists (over (found (hits st) (anc ++ [n])) 0 (firstn j ks) ++ under j pre), (under j post ++ over (found (hits st) (anc ++ [n])) (S j) (skipn (S j) ks)). split.
      * rewrite (over_split _ j ks k Ek 0). cbn [Nat.add]. rewrite H4. unfold under. rewrite map_app. cbn [map fst snd]. rewrite <- !app_assoc. reflexivity.
      * cbn [events_before arun astep]. rewrite match_hits by auto. rewrite E, Ek, arun_app.
        assert (Hk : forall ls i, arun st (anc ++ [n]) AIdle (flat_map (tree_events (anc ++ [n])) ls) = Some (anc ++ [n], AIdle, map snd (over (found (hits st) (anc ++ [n])) i ls))).
        { induction ls as [|k0 ls IHl]; intros i; [reflexivity|]. cbn [flat_map over]. rewrite arun_app, arun_idle by auto. rewrite (IHl (S i)).
          rewrite map_app. unfold under. rewrite map_map. reflexivity. }
        rewrite (Hk (firstn j ks) 0), H5. rewrite map_app. unfold under. rewrite map_map. reflexivity.
Qed.
(** Inside it, nothing is sent before its end. *)
Lemma arun_inside st n ats ks here part e more : (forall names, fails st names = false) -> st <> PMatched ->
  (forall x y, here = x ++ y -> hits st x = false) -> hits st (here ++ [n]) = true ->
  tree_events here (XE n ats ks) = part ++ e :: more -> exists stk m, arun st here AIdle part = Some (stk, m, []).
Proof.
  intros Hf Hm Ha Hh E. destruct part as [|e0 part]; [exists here, AIdle; reflexivity|]. cbn [tree_events app] in E. injection E as <- E.
  cbn [arun astep]. rewrite match_hits, Hh by auto.
  assert (P : exists mid, flat_map (tree_events (here ++ [n])) ks = part ++ mid).
  { apply app_eq_app in E as (mid & [[F1 F2]|[F1 F2]]); [exists mid; exact F1|]. destruct mid as [|e1 mid].
    - exists []. rewrite app_nil_r in *. symmetry. exact F1.
    - cbn [app] in F2. injection F2 as _ F3. destruct mid; discriminate F3. }
  destruct P as (mid & P). destruct (forest_built st ks (fun t _ => tree_built st t) (here ++ [n]) n ats [] [] part mid P) as (stk & f' & fs' & l' & H1 & _).
  rewrite H1. exists stk, (ABuild f' fs'). reflexivity.
Qed.
(** What a run of the handler does, given what the machine does. *)
Lemma machine_sends p s evs s' x stk m out : p <> [] -> ~ ends_deep p -> served p s -> thandle (stateses [p]) (new_handler s) evs s' x ->
  arun (prep p) [] AIdle evs = Some (stk, m, out) -> x = None /\ sent_since s s' 0 out.
Proof.
  intros Hp He Hsv Hh Ha. assert (Hf : forall names, fails (prep p) names = false) by (intros; apply fails_never; auto).
  destruct (served_ready _ _ Hp Hf Hsv) as [_ Hi]. destruct (run_ok _ _ _ _ _ _ _ _ _ _ _ _ _ Hi Hh Ha) as (-> & lst & H1 & H2 & _).
  split; [reflexivity|]. exists lst. split; [exact H1|exact H2].
Qed.
Lemma same_place {A B} (l1 l2 l1' l2' : list (A * B)) a v v' : NoDup (map fst (l1 ++ (a, v) :: l2)) -> l1 ++ (a, v) :: l2 = l1' ++ (a, v') :: l2' -> l1 = l1'.
Proof.
  revert l1'. induction l1 as [|x l1 IH]; intros [|y l1'] N E.
  - reflexivity.
  - exfalso. cbn [app] in E. injection E as <- E. cbn in N. inversion N as [|? ? N1 _]; subst. apply N1. rewrite map_app. cbn. apply in_or_app. right. left. reflexivity.
  - exfalso. cbn [app] in E. injection E as -> E. cbn in N. inversion N as [|? ? N1 _]; subst. apply N1. rewrite map_app. cbn. apply in_or_app. right. left. reflexivity.
  - cbn [app] in E. injection E as <- E. f_equal. apply IH; [|exact E]. cbn in N. inversion N; assumption.
Qed.
Lemma sorted_NoDup l : StronglySorted doc_before l -> NoDup l.
Proof.
  induction 1 as [|x l _ IH F]; constructor; auto. rewrite Forall_forall in F. intros Hx. apply (doc_before_irrefl x), F, Hx.
Qed.
Lemma found_timely p t l1 a v l2 : p <> [] -> ~ ends_deep p -> found (hits (prep p)) [] t = l1 ++ (a, v) :: l2 -> sent_at_end p t l1 a v.
Proof.
  intros Hp He El. assert (Hf : forall names, fails (prep p) names = false) by (intros; apply fails_never; auto). pose proof (prep_not_matched p Hp) as Hm.
  assert (Hin : In (a, v) (found (hits (prep p)) [] t)) by (rewrite El; apply in_or_app; right; left; reflexivity).
  destruct (arun_before (prep p) Hf Hm a t [] v (nil_hits _) Hin) as (H1 & (n & ats & ks & -> & H2) & (rest & H3) & pre & post & H4 & H5). cbn [app] in *.
  assert (Epre : l1 = pre).
  { apply (same_place l1 l2 pre post a (XE n ats ks) (XE n ats ks)); [|congruence]. rewrite <- El. apply sorted_NoDup. apply found_sorted. }
  subst pre. exists rest. split; [exact H3|]. intros s Hsv. split.
  - intros part e more s' x Ee Hh. destruct (arun_inside (prep p) n ats ks _ part e more Hf Hm H1 H2 Ee) as (stk & m & Hr).
    refine (machine_sends p s _ s' x stk m (map snd l1) Hp He Hsv Hh _). rewrite arun_app, H5, Hr, app_nil_r. reflexivity.
  - intros s' x Hh. pose proof (arun_idle (prep p) (XE n ats ks) Hf Hm _ H1) as Hr.
    refine (machine_sends p s _ s' x _ _ (map snd l1 ++ [XE n ats ks]) Hp He Hsv Hh _). rewrite arun_app, H5, Hr. cbn [found]. rewrite H2. reflexivity.
Qed.
Lemma exact_found p t : no_deep p -> p <> [] -> listing t (fun a v => is_element v /\ matches p (path_names t a)) (found (hits (prep p)) [] t).
Proof.
  intros D P. eapply listing_ext; [|apply found_listing]. intros a v Hu. cbn. rewrite hits_exact by auto. split; [tauto|].
  intros [H4 H5]. split; auto. split; auto. intros b Hb. destruct (hits (prep p) (path_names t b)) eqn:E; [|reflexivity]. exfalso.
  apply hits_exact in E; auto. destruct (path_names_above t a b v Hu H4 Hb) as (y & Ey & Hy). apply matches_len in E; auto. apply matches_len in H5; auto.
  rewrite Ey, app_length in H5. destruct y; [congruence|]. cbn in H5. lia.
Qed.
Theorem timely_exact p t l1 a v l2 : no_deep p -> p <> [] -> listing t (fun a u => is_element u /\ matches p (path_names t a)) (l1 ++ (a, v) :: l2) -> sent_at_end p t l1 a v.
Proof. intros D P L. apply (found_timely p t l1 a v l2 P (no_deep_ends p D)). exact (listing_unique _ _ _ _ (exact_found p t D P) L). Qed.
Lemma deep_found pre st t : no_deep pre -> st <> StDeep -> is_element t -> listing t (outermost (pre ++ [StDeep; st]) t) (found (hits (prep (pre ++ [StDeep; st]))) [] t).
Proof.
  intros D P T. set (p := pre ++ [StDeep; st]).
  eapply listing_ext; [|apply found_listing]. intros b u Hu. cbn. unfold outermost. split.
  - intros (H4 & H5 & H6). split; auto. apply hits_deep_last in H5 as [H5 H7]; auto. split; auto. intros c Hb.
    destruct (path_names_above t b c u Hu H4 Hb) as (y & Ey & Hy). eapply H7; eauto.
  - intros (H4 & H5 & H6). split; auto. assert (Hfm : first_match p (path_names t b)).
    { split; auto. intros x y E Hy Hm.
      assert (Hx : x <> []).
      { intros ->. apply P. apply (matches_nil _ Hm). unfold p. apply in_or_app. right. right. left. auto. }
      destruct (path_names_prefix t b u x y Hu H4 E Hx Hy) as (c & Hb & Eb). apply (H6 c Hb). rewrite Eb. exact Hm. }
    split; [apply hits_deep_last; auto|]. intros c Hb. destruct (hits (prep p) (path_names t c)) eqn:E; [|reflexivity]. exfalso.
    apply hits_sound in E. eapply H6; eauto.
Qed.
Theorem timely_deep pre st t l1 a v l2 : no_deep pre -> st <> StDeep -> is_element t -> listing t (outermost (pre ++ [StDeep; st]) t) (l1 ++ (a, v) :: l2) ->
  sent_at_end (pre ++ [StDeep; st]) t l1 a v.
Proof.
  intros D P T L. apply (found_timely _ t l1 a v l2); [destruct pre; discriminate|apply deep_last_not_ends; exact P|]. exact (listing_unique _ _ _ _ (deep_found pre st t D P T) L).
Qed.
