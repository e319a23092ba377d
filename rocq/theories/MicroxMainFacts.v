(** Proofs about the sources and the command line of microx. *)
From Verif Require Import PyStr Parser XTree Heap HeapSpec Builder BuilderFacts BuilderMore Expat ExpatSpec ExpatFacts Path Pattern PatternSpec PatternFacts.
From Verif Require Import TreeIter TreeIterSpec TreeIterFacts TreeIterMore.
From Verif Require Import XPath XPathSpec XGram XLex XQuery XQueryFacts Microx MicroxSpec MicroxFacts MicroxMain MicroxMainSpec.

Definition reads_well (cs : list cb) : Prop := exists evs stk, callbacks [] cs = (evs, Some stk).

Definition again (s : bstate) : bstate := mkB (bheap s) (broot s) (bpar s) None None.
Lemma again_parse s evs s' r : xml_tree_parse s evs s' r <-> xml_tree_parse (again s) evs s' r.
Proof. split; intros H; inversion H; subst; constructor; assumption. Qed.

Section Sources.
  Variable go : xtree -> list str * fin.
  Lemma sources_kept b i t srcs : forall s o, keeps b i t (again s) -> Forall reads_well srcs ->
    print_sources go s srcs o <-> in_turn (fun _ => go t) srcs o.
  Proof.
    induction srcs as [|cs srcs IH]; intros s o K W.
    - split; intros H; inversion H; subst; constructor.
    - inversion W as [|x y (evs & stk & E) W']; subst. split; intros H.
      + inversion H as [|s0 cs0 srcs0 evs0 stk0 s' i0 t0 ls ls' f E0 P T G R|s0 cs0 srcs0 evs0 stk0 s' i0 t0 ls f E0 P T G N]; subst;
          apply again_parse in P; destruct (keeps_parse _ _ _ _ _ _ _ K P) as (I & K'); injection I as ->;
          pose proof (holds_tree_det _ _ _ _ T (keeps_tree _ _ _ _ K')) as Et; subst t0.
        * apply it_ok; [exact G|]. apply (IH s'); [apply keeps_handler, K'|assumption|assumption].
        * apply it_stop; assumption.
      + assert (P : exists s' r, xml_tree_parse s evs s' r) by (eexists; eexists; constructor; apply runs_exec).
        destruct P as (s' & r & P). destruct (keeps_parse _ _ _ _ _ _ _ K (proj1 (again_parse _ _ _ _) P)) as (-> & K').
        inversion H as [|x l ls ls' f G R|x l ls f G N]; subst.
        * eapply so_next; [exact E|exact P|exact (keeps_tree _ _ _ _ K')|exact G|]. apply (IH s'); [apply keeps_handler, K'|assumption|assumption].
        * eapply so_stop; [exact E|exact P|exact (keeps_tree _ _ _ _ K')|exact G|exact N].
  Qed.
  Theorem sources_first h cs t srcs o : report cs [t] -> is_element t -> allocated h -> Forall reads_well srcs ->
    print_sources go (new_builder h) (cs :: srcs) o <-> in_turn (fun _ => go t) (cs :: srcs) o.
  Proof.
    intros R T A W. pose proof (report_document _ _ R) as E. split; intros H.
    - inversion H as [|s0 cs0 srcs0 evs0 stk0 s' i0 t0 ls ls' f E0 P T0 G R0|s0 cs0 srcs0 evs0 stk0 s' i0 t0 ls f E0 P T0 G N]; subst;
        rewrite E in E0; injection E0 as <- <-; destruct (first_parse h t s' _ T A P) as (I & b & K); injection I as ->;
        pose proof (holds_tree_det _ _ _ _ T0 (keeps_tree _ _ _ _ K)) as Et; subst t0.
      + apply it_ok; [exact G|]. apply (sources_kept b (nxt h) t srcs s'); assumption.
      + apply it_stop; assumption.
    - assert (P : exists s' r, xml_tree_parse (new_builder h) (doc_events t) s' r) by (eexists; eexists; constructor; apply runs_exec).
      destruct P as (s' & r & P). destruct (first_parse h t s' r T A P) as (-> & b & K).
      inversion H as [|x l ls ls' f G R0|x l ls f G N]; subst.
      + eapply so_next; [exact E|exact P|exact (keeps_tree _ _ _ _ K)|exact G|]. apply (sources_kept b (nxt h) t srcs s'); assumption.
      + eapply so_stop; [exact E|exact P|exact (keeps_tree _ _ _ _ K)|exact G|exact N].
  Qed.

  (** ** Partitions *)
  Lemma sent_det s s' ix ts ts' : sent_since s s' ix ts -> sent_since s s' ix ts' -> ts = ts'.
  Proof.
    intros (l & E & F) (l' & E' & F'). rewrite E in E'. apply app_inv_head in E'. subst l'. clear E. revert ts' F'.
    induction F as [|x t l ts (i & h & -> & H) F IH]; intros ts' F'; inversion F' as [|x' t' l' ts'' (i' & h' & X & H') F'']; subst; [reflexivity|].
    inversion X; subst. f_equal; [|apply IH; assumption]. symmetry. eapply holds_tree_det; eassumption.
  Qed.
  Lemma each_turn {A} (k : A -> list str * fin) l o : in_turn k l o <-> each k l Done = o.
  Proof. split; [intros H; apply (in_turn_fun k l); [apply each_in_turn|exact H]|intros <-; apply each_in_turn]. Qed.
  Lemma turn_app {A} (k : A -> list str * fin) l : forall l' o, in_turn k (l ++ l') o <->
    (exists ls ls' f, in_turn k l (ls, Done) /\ in_turn k l' (ls', f) /\ o = (ls ++ ls', f)) \/ (snd o <> Done /\ in_turn k l o).
  Proof.
    induction l as [|x l IH]; intros l' o.
    - split.
      + intros H. left. destruct o as [ls f]. exists [], ls, f. split; [constructor|]. split; [exact H|reflexivity].
      + intros [(ls & ls' & f & H & H' & ->)|(N & H)]; [inversion H; subst; exact H'|]. inversion H; subst. cbn in N. congruence.
    - split.
      + intros H. inversion H as [|y m ls ls' f G R|y m ls f G N]; subst.
        * apply IH in R as [(a & b & f' & R1 & R2 & E)|(N & R1)].
          -- injection E as -> ->. left. exists (ls ++ a), b, f'. split; [apply it_ok; assumption|]. split; [exact R2|now rewrite app_assoc].
          -- right. split; [exact N|]. apply it_ok; assumption.
        * right. split; [exact N|]. apply it_stop; assumption.
      + intros [(ls & ls' & f & H & H' & ->)|(N & H)].
        * inversion H as [|y m a b f' G R|y m a f' G N]; subst; [|congruence]. rewrite <- app_assoc. apply it_ok; [exact G|]. apply IH. left. exists b, ls', f. auto.
        * inversion H as [|y m a b f' G R|y m a f' G N']; subst; [|apply it_stop; assumption]. apply it_ok; [exact G|]. apply IH. right. auto.
  Qed.

  Variable p : list stage.
  (** One source. *)
  Definition one_part (cs : list cb) (u : xtree) (ts : list xtree) : Prop :=
    callbacks [] cs = (doc_events u, Some []) /\ forall h s' x, allocated h -> thandle (stateses [p]) (new_handler (new_sender h [p])) (doc_events u) s' x ->
      x = None /\ sent_since (new_sender h [p]) s' 0 ts.
  Lemma parts_turn srcs us tss : forall o, Forall2 (fun cs x => one_part cs (fst x) (snd x)) srcs (combine us tss) -> length us = length tss ->
    print_parts go p srcs o <-> in_turn go (concat tss) o.
  Proof.
    revert us tss. induction srcs as [|cs srcs IH]; intros us tss o F L.
    - destruct us as [|u us], tss as [|ts tss]; try discriminate; [|inversion F]. split; intros H; inversion H; subst; constructor.
    - destruct us as [|u us], tss as [|ts tss]; try discriminate; inversion F as [|x y l l' (E & S) F']; subst. cbn [fst snd] in *. injection L as L.
      cbn [concat]. rewrite turn_app. split.
      + intros H. inversion H as [|h cs0 srcs0 evs stk s' ts0 ls ls' f E0 A T S0 G R|h cs0 srcs0 evs stk s' x ts0 ls f E0 A T S0 G N|h cs0 srcs0 evs stk s' x ts0 ls E0 A T S0 G]; subst;
          rewrite E in E0; injection E0 as <- <-; destruct (S _ _ _ A T) as (Ex & S'); rewrite (sent_det _ _ _ _ _ S0 S') in G.
        * left. exists ls, ls', f. split; [apply each_turn; exact G|]. split; [apply (IH us tss); assumption|reflexivity].
        * right. split; [exact N|]. apply each_turn; exact G.
        * discriminate.
      + assert (A : allocated empty_heap) by (intros j o0 Hj; discriminate).
        destruct (thandle_exists (stateses [p]) (doc_events u) (new_handler (new_sender empty_heap [p]))) as (s' & x & T). destruct (S _ _ _ A T) as (-> & S').
        intros [(ls & ls' & f & H & H' & ->)|(N & H)].
        * eapply pa_next; [exact E|exact A|exact T|exact S'|apply each_turn; exact H|]. apply (IH us tss); assumption.
        * destruct o as [ls f]. eapply pa_stop; [exact E|exact A|exact T|exact S'|apply each_turn; exact H|exact N].
  Qed.
End Sources.

(** Every source is read by itself, and the outermost elements of the partition are printed. *)
Theorem parts_outermost go st srcs us : st <> StDeep -> Forall2 (fun cs u => report cs [u] /\ is_element u) srcs us ->
  exists ls, Forall2 (fun u l => listing u (outermost [StDeep; st] u) l) us ls /\
    forall o, print_parts go [StDeep; st] srcs o <-> in_turn go (map snd (concat ls)) o.
Proof.
  intros D F. assert (X : exists ls, Forall2 (fun u l => listing u (outermost [StDeep; st] u) l) us ls /\
    Forall2 (fun cs x => one_part [StDeep; st] cs (fst x) (snd x)) srcs (combine us (map (map snd) ls)) /\ length us = length (map (map snd) ls)).
  { induction F as [|cs u srcs us (R & T) F (ls & L & P & E)]; [exists []; repeat constructor|].
    destruct (thandle_exists (stateses [[StDeep; st]]) (doc_events u) (new_handler (new_sender empty_heap [[StDeep; st]]))) as (s0 & x0 & T0).
    assert (SV : forall h, allocated h -> served ([] ++ [StDeep; st]) (new_sender h [[StDeep; st]])) by (intros h A; constructor; exact A).
    assert (ND : no_deep []) by (intros []).
    assert (A0 : allocated empty_heap) by (intros j o Hj; discriminate).
    destruct (stream_deep [] st _ u s0 x0 ND D (SV _ A0) T T0) as (_ & _ & l & Hl & _).
    exists (l :: ls). split; [constructor; assumption|]. split; [|cbn; congruence]. cbn [map combine]. constructor; [|exact P]. cbn [fst snd].
    split; [exact (report_document _ _ R)|]. intros h s' x A T1. destruct (stream_deep [] st _ u s' x ND D (SV _ A) T T1) as (-> & _ & l' & Hl' & S).
    split; [reflexivity|]. rewrite (listing_unique _ _ _ _ Hl Hl'). exact S. }
  destruct X as (ls & L & P & E). exists ls. split; [exact L|]. intros o. rewrite (parts_turn go [StDeep; st] srcs us (map (map snd) ls) o P E). rewrite concat_map. reflexivity.
Qed.

(** ** The command line *)
Lemma absent_truthy o : absent o <-> truthy_opt o = None.
Proof. split; [intros [-> | ->]; reflexivity|]. destruct o as [[|c s]|]; [right; reflexivity|discriminate|left; reflexivity]. Qed.
Lemma truthy_some o s : truthy_opt o = Some s <-> s <> [] /\ o = Some s.
Proof. destruct o as [[|c r]|]; cbn; split; try discriminate; try (intros (N1 & E); congruence); intros E; injection E as <-; split; [discriminate|reflexivity]. Qed.
Lemma split_pieces s : comma_pieces s (split_comma s).
Proof.
  induction s as [|c s IH]; [apply cp_last; intros []|]. cbn [split_comma]. destruct (N.eqb_spec c 44) as [->|N].
  - apply (cp_more [] s); [intros []|exact IH].
  - remember (split_comma s) as l0 eqn:E0. clear E0. destruct IH as [s0 H|s0 t l H H'].
    + apply cp_last. intros [E'|I]; [congruence|exact (H I)].
    + apply (cp_more (c :: s0) t); [intros [E'|I]; [congruence|exact (H I)]|exact H'].
Qed.
Lemma pieces_fun s l : comma_pieces s l -> forall l', comma_pieces s l' -> l = l'.
Proof.
  assert (K : forall a b t u, ~ In 44%N a -> ~ In 44%N b -> a ++ 44%N :: t = b ++ 44%N :: u -> a = b /\ t = u).
  { induction a as [|x a IH]; intros [|y b] t u A B E.
    - injection E as E. auto.
    - injection E as E _. subst. destruct B. left. reflexivity.
    - injection E as E _. subst. destruct A. left. reflexivity.
    - injection E as -> E. destruct (IH b t u) as (-> & ->); auto; [intros I; apply A; right; exact I|intros I; apply B; right; exact I]. }
  induction 1 as [s H|s t l H P IH]; intros l' P'; inversion P' as [s' H' E|s' t' l0 H' P0 E]; subst.
  - reflexivity.
  - destruct H. apply in_or_app. right. left. reflexivity.
  - destruct H'. apply in_or_app. right. left. reflexivity.
  - destruct (K _ _ _ _ H' H E) as (-> & ->). f_equal. apply IH, P0.
Qed.
Lemma shows_attrs a l : shows a l <-> l = show_attrs a.
Proof.
  unfold shows, show_attrs. split.
  - intros [(H & ->)|(c & s & E & P)].
    + apply absent_truthy in H. rewrite H. reflexivity.
    + rewrite E. cbn [truthy_opt]. apply (pieces_fun _ _ P), split_pieces.
  - intros ->. destruct (truthy_opt (o_show_attrs a)) as [s|] eqn:E.
    + apply truthy_some in E as (N & E). right. destruct s as [|c s]; [congruence|]. exists c, s. split; [exact E|apply split_pieces].
    + left. split; [apply absent_truthy, E|reflexivity].
Qed.

Lemma prepare_asks v a c fe : prepare v a = inl (c, fe) <-> asks v a c fe.
Proof.
  assert (I : forall c', (match truthy_opt (o_foreach a) with None => inl (c', None) | Some s => match uxpath_parse v s with inl e => inl (c', Some e) | inr x => inr x end end = (inl (c, fe) : (command * option expr) + xexn))
    <-> c = c' /\ inner v a fe).
  { intros c'. unfold inner. destruct (truthy_opt (o_foreach a)) as [s|] eqn:E.
    - apply truthy_some in E as (N & E). destruct (uxpath_parse v s) as [e|x] eqn:P.
      + split.
        * intros H. injection H as -> <-. split; [reflexivity|]. right. exists s, e. rewrite <- uxpath_parse_ok. auto.
        * intros (-> & [(A & _)|(s' & e' & _ & E' & X & ->)]); [apply absent_truthy in A; rewrite E in A; destruct s; [congruence|discriminate]|].
          rewrite E in E'. injection E' as <-. apply uxpath_parse_ok in X. rewrite P in X. injection X as ->. reflexivity.
      + split; [discriminate|]. intros (-> & [(A & _)|(s' & e' & _ & E' & X & ->)]); [apply absent_truthy in A; rewrite E in A; destruct s; [congruence|discriminate]|].
        rewrite E in E'. injection E' as <-. apply uxpath_parse_ok in X. congruence.
    - split.
      + intros H. injection H as -> <-. split; [reflexivity|]. left. split; [apply absent_truthy, E|reflexivity].
      + intros (-> & [(_ & ->)|(s' & e' & N & E' & X & ->)]); [reflexivity|]. assert (T : truthy_opt (o_foreach a) = Some s') by (apply truthy_some; auto). congruence. }
  unfold prepare, commands. cbn [flat_map fst snd]. split.
  - destruct (truthy_opt (o_expr a)) as [s1|] eqn:E1; destruct (truthy_opt (o_match a)) as [s2|] eqn:E2; destruct (truthy_opt (o_find_text a)) as [s3|] eqn:E3; cbn [app]; try discriminate.
    + apply truthy_some in E1 as (N1 & E1). apply absent_truthy in E2, E3. destruct (uxpath_parse v s1) as [e|x] eqn:P; [|discriminate]. intros H. apply I in H as (-> & H).
      apply (as_expr v a s1); auto. apply uxpath_parse_ok, P.
    + apply truthy_some in E2 as (N1 & E2). apply absent_truthy in E1, E3. destruct (uxpath_parse v s2) as [e|x] eqn:P; [|discriminate]. intros H. apply I in H as (-> & H).
      apply (as_match v a s2); auto. apply uxpath_parse_ok, P.
    + apply truthy_some in E3 as (N1 & E3). apply absent_truthy in E1, E2. intros H. apply I in H as (-> & H). apply (as_find v a s3); auto.
  - intros H. inversion H as [s e fe' N E A1 A2 P F|s e fe' N E A1 A2 P F|s fe' N E A1 A2 F]; subst; apply absent_truthy in A1, A2; rewrite A1, A2;
      (assert (T : forall o, o = Some s -> truthy_opt o = Some s) by (intros o ->; apply truthy_some; auto)); rewrite (T _ E); cbn [app].
    + apply uxpath_parse_ok in P. rewrite P. apply I. auto.
    + apply uxpath_parse_ok in P. rewrite P. apply I. auto.
    + apply I. auto.
Qed.
Lemma prepare_many v a : how_many a <> 1 -> prepare v a = inr ValueErr.
Proof.
  unfold how_many, prepare, commands, given. cbn [flat_map fst snd].
  destruct (o_expr a) as [[|c1 s1]|], (o_match a) as [[|c2 s2]|], (o_find_text a) as [[|c3 s3]|]; cbn [truthy_opt app]; intros H; try reflexivity; cbn in H; congruence.
Qed.
Lemma prepare_total v a : (exists c fe, prepare v a = inl (c, fe)) \/ exists x, prepare v a = inr x /\ (x = ValueErr \/ x = RuntimeErr \/ x = TypeErr).
Proof.
  assert (U : forall s, (exists e, uxpath_parse v s = inl e) \/ exists x, uxpath_parse v s = inr x /\ (x = ValueErr \/ x = RuntimeErr \/ x = TypeErr)).
  { intros s. destruct (uxpath_parse v s) as [e|x] eqn:E; [left; eauto|right]. exists x. split; [reflexivity|].
    destruct (uxpath_parse_fails v s) as (y & E' & Hy); [intros e He; apply uxpath_parse_ok in He; congruence|]. rewrite E in E'. injection E' as <-. auto. }
  assert (I : forall c', (exists c fe, match truthy_opt (o_foreach a) with None => inl (c', None) | Some s => match uxpath_parse v s with inl e => inl (c', Some e) | inr x => inr x end end = (inl (c, fe) : (command * option expr) + xexn))
    \/ exists x, match truthy_opt (o_foreach a) with None => inl (c', None) | Some s => match uxpath_parse v s with inl e => inl (c', Some e) | inr x => inr x end end = (inr x : (command * option expr) + xexn) /\ (x = ValueErr \/ x = RuntimeErr \/ x = TypeErr)).
  { intros c'. destruct (truthy_opt (o_foreach a)) as [s|]; [|left; eauto]. destruct (U s) as [(e & ->)|(x & -> & Hx)]; [left; eauto|right; eauto]. }
  unfold prepare. destruct (commands a) as [|[[| |] d] [|]]; try solve [right; exists ValueErr; auto].
  - destruct (U d) as [(e & ->)|(x & -> & Hx)]; [apply I|right; eauto].
  - destruct (U d) as [(e & ->)|(x & -> & Hx)]; [apply I|right; eauto].
  - apply I.
Qed.

Section Main.
  Variables (v : lexenv) (tf : str -> option flt) (fs : flt -> str) (n : nat) (h : heap) (a : options).
  Theorem microx_commands srcs o : how_many a <> 1 -> microx v tf fs n h a srcs o <-> o = ([], Exn ValueErr).
  Proof.
    intros H. apply (prepare_many v) in H. split.
    - intros M. inversion M; subst; congruence.
    - intros ->. apply mx_fail, H.
  Qed.
  Theorem microx_syntax srcs : how_many a = 1 -> (forall c fe, ~ asks v a c fe) ->
    exists x, (x = RuntimeErr \/ x = TypeErr) /\ forall o, microx v tf fs n h a srcs o <-> o = ([], Exn x).
  Proof.
    intros K H. destruct (prepare_total v a) as [(c & fe & E)|(x & E & Hx)]; [apply prepare_asks in E; destruct (H _ _ E)|].
    assert (x <> ValueErr).
    { intros ->. revert E. unfold prepare. destruct (commands a) as [|[nm d] [|]] eqn:C.
      - revert K C. unfold how_many, commands, given. cbn [flat_map fst snd]. destruct (o_expr a) as [[|? ?]|], (o_match a) as [[|? ?]|], (o_find_text a) as [[|? ?]|]; cbn; intros; congruence.
      - assert (U : forall s, uxpath_parse v s <> inr ValueErr).
        { intros s E. destruct (uxpath_parse_fails v s) as (y & E' & [-> | ->]); [intros e He; apply uxpath_parse_ok in He; congruence| |]; congruence. }
        destruct nm; repeat match goal with |- context [uxpath_parse v ?s] => let E := fresh in destruct (uxpath_parse v s) eqn:E end; try discriminate;
          try (intros X; injection X as ->; eapply U; eassumption);
          destruct (truthy_opt (o_foreach a)) as [s|]; try discriminate;
          repeat match goal with |- context [uxpath_parse v ?s] => let E := fresh in destruct (uxpath_parse v s) eqn:E end; try discriminate;
          intros X; injection X as ->; eapply U; eassumption.
      - revert K C. unfold how_many, commands, given. cbn [flat_map fst snd]. destruct (o_expr a) as [[|? ?]|], (o_match a) as [[|? ?]|], (o_find_text a) as [[|? ?]|]; cbn; intros; congruence. }
    exists x. split; [intuition congruence|]. intros o. split.
    - intros M. inversion M; subst; congruence.
    - intros ->. apply mx_fail, E.
  Qed.
  Theorem microx_sources c fe sh cs t srcs o : asks v a c fe -> shows a sh -> absent (o_partition a) -> report cs [t] -> is_element t -> allocated h -> Forall reads_well srcs ->
    microx v tf fs n h a (cs :: srcs) o <-> in_turn (fun _ => run (world v [] tf fs t) n c fe (o_limit a) sh) (cs :: srcs) o.
  Proof.
    intros A S P R T H W. apply prepare_asks in A. apply shows_attrs in S. subst sh. apply absent_truthy in P. rewrite <- (sources_first (fun t => run (world v [] tf fs t) n c fe (o_limit a) (show_attrs a)) h cs t srcs o R T H W). split.
    - intros M. inversion M as [x E|c' fe' o' E E' Q|c' fe' p o' E E' Q]; subst; try congruence. rewrite A in E. injection E as <- <-. exact Q.
    - intros Q. eapply mx_sources; eassumption.
  Qed.
  Theorem microx_parts c fe sh p srcs us : asks v a c fe -> shows a sh -> o_partition a = Some p -> p <> [] -> p <> lit "*" -> p <> lit "**" ->
    Forall2 (fun cs u => report cs [u] /\ is_element u) srcs us ->
    exists ls, Forall2 (fun u l => listing u (outermost [StDeep; StName p] u) l) us ls /\
      forall o, microx v tf fs n h a srcs o <-> in_turn (fun t => run (world v [] tf fs t) n c fe (o_limit a) sh) (map snd (concat ls)) o.
  Proof.
    intros A S P N1 N2 N3 F. apply prepare_asks in A. apply shows_attrs in S. subst sh. assert (T : truthy_opt (o_partition a) = Some p) by (apply truthy_some; auto).
    assert (ST : partition_pattern p = [StDeep; StName p]).
    { unfold partition_pattern, stage_of. destruct (str_eqb p (lit "*")) eqn:E1; [apply (proj1 (ParserInv.str_eqb_eq _ _)) in E1; congruence|].
      destruct (str_eqb p (lit "**")) eqn:E2; [apply (proj1 (ParserInv.str_eqb_eq _ _)) in E2; congruence|]. reflexivity. }
    destruct (parts_outermost (fun t => run (world v [] tf fs t) n c fe (o_limit a) (show_attrs a)) (StName p) srcs us ltac:(discriminate) F) as (ls & L & K).
    exists ls. split; [exact L|]. intros o. rewrite <- K. split.
    - intros M. inversion M as [x E|c' fe' o' E E' Q|c' fe' p' o' E E' Q]; subst; try congruence. rewrite A in E. injection E as <- <-. rewrite T in E'. injection E' as <-. rewrite ST in Q. exact Q.
    - intros Q. eapply mx_parts; [exact A|exact T|]. rewrite ST. exact Q.
  Qed.
End Main.
