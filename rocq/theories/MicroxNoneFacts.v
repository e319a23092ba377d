(** Proofs about MicroxNone. *)
From Verif Require Import PyStr Parser XTree ParserSpec Heap HeapSpec Builder BuilderFacts BuilderMore Expat ExpatSpec ExpatFacts Path CutFacts.
From Verif Require Import XPath XGram XLex XQuery XQueryFacts Microx MicroxSpec MicroxMain MicroxMainSpec MicroxMainFacts MicroxBad MicroxBadSpec MicroxBadFacts MicroxNone MicroxNoneSpec.

Lemma begins_eval ax t e f : begins ax t e -> none_step ax t = (0, f) -> none_eval e = Some (0, f).
Proof. intros B S. induction B; cbn [none_eval]; [now rewrite S|now rewrite IHB..]. Qed.
Lemma absolute_eval e : absolute e -> none_eval e = Some (0, Exn AssertionErr).
Proof. intros B. induction B; cbn [none_eval]; [reflexivity|now rewrite IHB..]. Qed.
Lemma stays_step ax t : stays ax t -> none_step ax t = (0, Done).
Proof. intros [->|[-> N]]; [reflexivity|]. cbn. destruct t; cbn; congruence. Qed.
Lemma moves_step ax t : moves ax t -> none_step ax t = (0, Exn AttributeErr).
Proof. intros (H1 & H2 & H3). destruct ax; cbn; try congruence; destruct t; cbn; try reflexivity; exfalso; apply H3; auto. Qed.
Lemma none_print_0 e f fe : none_eval e = Some (0, f) -> none_print e fe = Some ([], f).
Proof. intros E. unfold none_print. rewrite E. now destruct fe. Qed.

Section Sources.
  Variable go : xtree -> list str * fin.
  Variable go_none : option (list str * fin).
  (** Once there is a root, there is one. *)
  Lemma any_rooted srcs : forall s o i, broot s = Some i -> read_any go go_none s srcs o <-> read_sources go s srcs o.
  Proof.
    induction srcs as [|[cs b] srcs IH]; intros s o i R; split; intros H.
    - inversion H; subst; constructor.
    - inversion H; subst; constructor.
    - inversion H as [|s0 cs0 srcs0 evs stk s' j t ls ls' f E P T G Q|s0 cs0 srcs0 evs stk s' j t ls f E P T G N|s0 cs0 srcs0 evs stk s' ls ls' f E P G Q|s0 cs0 srcs0 evs stk s' ls f E P G N|s0 cs0 srcs0 evs stk E]; subst.
      + eapply rs_next; [exact E|exact P|exact T|exact G|]. apply (IH s' _ j); [inversion P; congruence|exact Q].
      + eapply rs_stop; eassumption.
      + pose proof (xml_root_kept _ _ _ _ _ R P). discriminate.
      + pose proof (xml_root_kept _ _ _ _ _ R P). discriminate.
      + eapply rs_bad; eassumption.
    - inversion H as [|s0 cs0 srcs0 evs stk s' j t ls ls' f E P T G Q|s0 cs0 srcs0 evs stk s' j t ls f E P T G N|s0 cs0 srcs0 evs stk E]; subst.
      + eapply ra_next; [exact E|exact P|exact T|exact G|]. apply (IH s' _ j); [inversion P; congruence|exact Q].
      + eapply ra_stop; eassumption.
      + eapply ra_bad; eassumption.
  Qed.
  (** The first source has an element. *)
  Lemma any_first h cs srcs evs stk t o : callbacks [] cs = (evs, Some stk) -> partial_tree evs t -> read_any go go_none (new_builder h) ((cs, false) :: srcs) o <-> read_sources go (new_builder h) ((cs, false) :: srcs) o.
  Proof.
    intros E0 T0.
    assert (K : forall s' r, xml_tree_parse (new_builder h) evs s' r -> exists i, r = Some i /\ broot s' = Some i).
    { intros s' r P. inversion P as [s0 evs0 s1 R]; subst. destruct (build_partial _ _ _ _ (eq_refl : broot (new_builder h) = None) eq_refl T0 R) as (i & B & _). eauto. }
    split; intros H.
    - inversion H as [|s0 cs0 srcs0 evs' stk' s' j t' ls ls' f E P T G Q|s0 cs0 srcs0 evs' stk' s' j t' ls f E P T G N|s0 cs0 srcs0 evs' stk' s' ls ls' f E P G Q|s0 cs0 srcs0 evs' stk' s' ls f E P G N|]; subst; rewrite E0 in E; injection E as <- <-; destruct (K _ _ P) as (i & I & B); try discriminate.
      + eapply rs_next; [exact E0|exact P|exact T|exact G|]. exact (proj1 (any_rooted _ _ _ _ B) Q).
      + eapply rs_stop; [exact E0|exact P|exact T|exact G|exact N].
    - inversion H as [|s0 cs0 srcs0 evs' stk' s' j t' ls ls' f E P T G Q|s0 cs0 srcs0 evs' stk' s' j t' ls f E P T G N|]; subst; rewrite E0 in E; injection E as <- <-; destruct (K _ _ P) as (i & I & B).
      + eapply ra_next; [exact E0|exact P|exact T|exact G|]. exact (proj2 (any_rooted _ _ _ _ B) Q).
      + eapply ra_stop; [exact E0|exact P|exact T|exact G|exact N].
  Qed.
  Lemma nothing_parsed h s' r : allocated h -> xml_tree_parse (new_builder h) [] s' r -> r = None /\ exists h', allocated h' /\ s' = new_builder h'.
  Proof.
    intros A P. inversion P as [s0 evs0 s1 R]; subst. inversion R as [s0 s1 C|]; subst. pose proof (collect_allocated (mkB h None None None None) s' A C) as A'. destruct C as (_ & C1 & C2 & C3 & C4). cbn in C1, C2, C3, C4. split; [exact C1|].
    exists (bheap s'). split; [exact A'|]. destruct s'; cbn in *; subst; reflexivity.
  Qed.
  (** A source without an element comes first and does not stop the program. *)
  Lemma any_pass h cs srcs o ls : no_element cs -> allocated h -> go_none = Some (ls, Done) ->
    read_any go go_none (new_builder h) ((cs, false) :: srcs) o -> exists h' o', allocated h' /\ read_any go go_none (new_builder h') srcs o' /\ o = (ls ++ fst o', snd o').
  Proof.
    intros (stk & E0) A N H. assert (N1 : forall p, go_none = Some p -> p = (ls, Done)) by congruence. clear N. inversion H as [|s0 cs0 srcs0 evs' stk' s' j t' l1 l2 f E P T G Q|s0 cs0 srcs0 evs' stk' s' j t' l1 f E P T G N'|s0 cs0 srcs0 evs' stk' s' l1 l2 f E P G Q|s0 cs0 srcs0 evs' stk' s' l1 f E P G N'|]; try apply N1 in G; clear N1; subst; rewrite E0 in E; injection E as <- <-; destruct (nothing_parsed _ _ _ A P) as (I & h' & A' & ->); try discriminate.
    - injection G as ->. exists h', (l2, f). split; [exact A'|]. split; [exact Q|reflexivity].
    - injection G as _ ->. congruence.
  Qed.
  Lemma any_pass_back h cs srcs o ls : no_element cs -> go_none = Some (ls, Done) ->
    read_any go go_none (new_builder h) srcs o -> read_any go go_none (new_builder h) ((cs, false) :: srcs) (ls ++ fst o, snd o).
  Proof.
    intros (stk & E0) N H. destruct o as [l f]. eapply ra_none; [exact E0| |exact N|exact H]. apply (xtp (new_builder h) [] (new_builder h)). constructor. repeat split. intros j. left. reflexivity.
  Qed.
  (** ... or does. *)
  Lemma any_stop h cs srcs o ls f : no_element cs -> allocated h -> go_none = Some (ls, f) -> f <> Done -> read_any go go_none (new_builder h) ((cs, false) :: srcs) o <-> o = (ls, Ends f).
  Proof.
    intros (stk & E0) A N D. assert (N1 : forall p, go_none = Some p -> p = (ls, f)) by congruence. split; intros H.
    - clear N. inversion H as [|s0 cs0 srcs0 evs' stk' s' j t' l1 l2 f' E P T G Q|s0 cs0 srcs0 evs' stk' s' j t' l1 f' E P T G N'|s0 cs0 srcs0 evs' stk' s' l1 l2 f' E P G Q|s0 cs0 srcs0 evs' stk' s' l1 f' E P G N'|]; try apply N1 in G; clear N1; subst; rewrite E0 in E; injection E as <- <-; destruct (nothing_parsed _ _ _ A P) as (I & h' & A' & ->); try discriminate; injection G as Ga Gb; congruence.
    - subst o. eapply ra_none_stop; [exact E0| |exact N|exact D]. apply (xtp (new_builder h) [] (new_builder h)). constructor. repeat split. intros j. left. reflexivity.
  Qed.
  (** Several of them, and then documents. *)
  Lemma any_sources blanks cs t srcs : Forall no_element blanks -> go_none = Some ([], Done) -> report cs [t] -> is_element t -> Forall reads_well srcs -> forall h o, allocated h ->
    read_any go go_none (new_builder h) (map fine (blanks ++ cs :: srcs)) o <-> exists o', in_turn (fun _ => go t) (cs :: srcs) o' /\ o = ends o'.
  Proof.
    intros B N R T W. induction B as [|b blanks B0 B IH]; intros h o A; cbn [app map].
    - unfold fine at 1. rewrite (any_first h cs (map fine srcs) _ _ t o (report_document _ _ R) (doc_partial t T)).
      change ((cs, false) :: map fine srcs) with (map fine (cs :: srcs)). destruct o as [ls e]. rewrite sources_fine. split.
      + intros (f & -> & H). exists (ls, f). split; [|reflexivity]. apply (sources_first go h cs t srcs); assumption.
      + intros ([l f] & H & X). injection X as -> ->. exists f. split; [reflexivity|]. apply (sources_first go h cs t srcs); assumption.
    - unfold fine at 1. split.
      + intros H. destruct (any_pass _ _ _ _ _ B0 A N H) as (h' & o' & A' & H' & ->). apply (IH h' _ A') in H' as (o'' & H' & ->). exists o''. split; [exact H'|reflexivity].
      + intros (o' & H' & ->). apply (any_pass_back _ _ _ (ends o') _ B0 N). apply (IH h _ A). eauto.
  Qed.
  Lemma any_nothing blanks : Forall no_element blanks -> go_none = Some ([], Done) -> forall h o, allocated h -> read_any go go_none (new_builder h) (map fine blanks) o <-> o = ([], Ends Done).
  Proof.
    intros B N. induction B as [|b blanks B0 B IH]; intros h o A; cbn [map].
    - split; intros H; [now inversion H|subst o; constructor].
    - unfold fine at 1. split; intros H.
      + destruct (any_pass _ _ _ _ _ B0 A N H) as (h' & o' & A' & H' & ->). apply (IH h' _ A') in H' as ->. reflexivity.
      + subst o. apply (any_pass_back _ _ _ ([], Ends Done) _ B0 N). apply (IH h _ A). reflexivity.
  Qed.
End Sources.

Section Main.
  Variables (v : lexenv) (tf : str -> option flt) (fs : flt -> str) (n : nat) (h : heap) (a : options).
  Lemma any_run c fe srcs o : asks v a c fe -> absent (o_partition a) ->
    microx_any v tf fs n h a srcs o <-> read_any (fun t => run (world v [] tf fs t) n c fe (o_limit a) (show_attrs a)) (none_run c fe) (new_builder h) srcs o.
  Proof.
    intros A P. apply prepare_asks in A. apply absent_truthy in P. split; intros H.
    - inversion H as [x E|c' fe' o' E E' Q]; subst; [congruence|]. rewrite A in E. injection E as <- <-. exact Q.
    - eapply ma_sources; eassumption.
  Qed.
  Theorem any_files cs1 cs2 u srcs o : absent (o_partition a) -> report (cs1 ++ cs2) [u] -> is_element u -> ~ no_element cs1 ->
    microx_any v tf fs n h a ((cs1, false) :: srcs) o <-> microx_files v tf fs n h a ((cs1, false) :: srcs) o.
  Proof.
    intros P R T N. apply absent_truthy in P.
    assert (K : exists evs stk t, callbacks [] cs1 = (evs, Some stk) /\ partial_tree evs t).
    { destruct (begin_parse cs1 cs2 u R T) as (stk & t & B & Pt & _); [|eauto].
      destruct T as (m & b & ks & ->). destruct (report_prefix cs1 cs2 m b ks R) as (evs & stk & rest & E1 & _). rewrite E1. cbn [fst]. intros ->. apply N. exists stk. exact E1. }
    destruct K as (evs & stk & t & B & Pt). split; intros H.
    - inversion H as [x E|c fe o' E E' Q]; subst; [apply mf_fail, E|]. eapply mf_sources; [exact E|exact E'|]. exact (proj1 (any_first _ _ h cs1 srcs evs stk t o B Pt) Q).
    - inversion H as [x E|c fe o' E E' Q|]; subst; [apply ma_fail, E| |congruence]. eapply ma_sources; [exact E|exact E'|]. exact (proj2 (any_first _ _ h cs1 srcs evs stk t o B Pt) Q).
  Qed.
  Lemma none_print_joined e fe k f : none_eval (joined e fe) = Some (k, f) -> none_print e fe = Some (repeat (lit "None") k, f).
  Proof.
    unfold none_print. destruct fe as [g|]; cbn [joined none_eval]; intros E; [|now rewrite E]. destruct (none_eval e) as [[[|m] f']|]; [|destruct (none_eval g) as [k'|]|]; try discriminate E.
    - injection E as <- <-. reflexivity.
    - change (Some (none_each k' (S m) f') = Some (k, f)) in E. destruct (none_each k' (S m) f') as [k1 f1]. injection E as -> ->. reflexivity.
  Qed.
  Theorem any_lines e fe k f cs o : asks v a (CmdExpr e) fe -> absent (o_partition a) -> none_eval (joined e fe) = Some (k, f) -> no_element cs -> allocated h ->
    microx_any v tf fs n h a [(cs, false)] o <-> o = (repeat (lit "None") k, Ends f).
  Proof.
    intros A P E N H. rewrite (any_run _ _ _ _ A P). pose proof (none_print_joined e fe k f E) as G. assert (D : f = Done \/ f <> Done) by (destruct f; (left; reflexivity) || (right; discriminate)).
    destruct D as [->|D]; [|apply any_stop; auto]. split; intros Q.
    - destruct (any_pass _ _ h cs [] o _ N H G Q) as (h' & o' & _ & Q' & ->). inversion Q'; subst. cbn [fst snd]. now rewrite app_nil_r.
    - subst o. pose proof (any_pass_back (fun t => run (world v [] tf fs t) n (CmdExpr e) fe (o_limit a) (show_attrs a)) _ h cs [] ([], Ends Done) _ N G) as Q. cbn [fst snd] in Q. rewrite app_nil_r in Q. apply Q. constructor.
  Qed.
  Theorem any_find s fe cs srcs o : asks v a (CmdFind s) fe -> absent (o_partition a) -> no_element cs -> allocated h ->
    microx_any v tf fs n h a ((cs, false) :: srcs) o <-> o = ([], Ends (Exn AttributeErr)).
  Proof. intros A P N H. rewrite (any_run _ _ _ _ A P). apply any_stop; [exact N|exact H|reflexivity|discriminate]. Qed.
  Theorem any_absolute c e fe cs srcs o : asks v a c fe -> c = CmdExpr e \/ c = CmdMatch e -> absent (o_partition a) -> absolute e -> no_element cs -> allocated h ->
    microx_any v tf fs n h a ((cs, false) :: srcs) o <-> o = ([], Ends (Exn AssertionErr)).
  Proof. intros A C P B N H. rewrite (any_run _ _ _ _ A P). apply any_stop; [exact N|exact H| |discriminate]. pose proof (none_print_0 _ _ fe (absolute_eval _ B)) as E. destruct C; subst c; cbn [none_run]; now rewrite E. Qed.
  Theorem any_relative c e fe ax t cs srcs o : asks v a c fe -> c = CmdExpr e \/ c = CmdMatch e -> absent (o_partition a) -> begins ax t e -> moves ax t -> no_element cs -> allocated h ->
    microx_any v tf fs n h a ((cs, false) :: srcs) o <-> o = ([], Ends (Exn AttributeErr)).
  Proof. intros A C P B M N H. rewrite (any_run _ _ _ _ A P). apply any_stop; [exact N|exact H| |discriminate]. pose proof (none_print_0 _ _ fe (begins_eval _ _ _ _ B (moves_step _ _ M))) as E. destruct C; subst c; cbn [none_run]; now rewrite E. Qed.
  Theorem any_match e fe ax t cs srcs o : asks v a (CmdMatch e) fe -> absent (o_partition a) -> begins ax t e -> stays ax t -> no_element cs -> allocated h ->
    microx_any v tf fs n h a ((cs, false) :: srcs) o <-> o = ([], Ends (Exn AttributeErr)).
  Proof. intros A P B M N H. rewrite (any_run _ _ _ _ A P). apply any_stop; [exact N|exact H| |discriminate]. cbn [none_run]. now rewrite (none_print_0 _ _ fe (begins_eval _ _ _ _ B (stays_step _ _ M))). Qed.
  Theorem any_passed e fe ax t sh blanks cs u srcs o : asks v a (CmdExpr e) fe -> shows a sh -> absent (o_partition a) -> begins ax t e -> stays ax t -> Forall no_element blanks -> allocated h ->
    report cs [u] -> is_element u -> Forall reads_well srcs ->
    microx_any v tf fs n h a (map fine (blanks ++ cs :: srcs)) o <-> exists o', in_turn (fun _ => run (world v [] tf fs u) n (CmdExpr e) fe (o_limit a) sh) (cs :: srcs) o' /\ o = ends o'.
  Proof.
    intros A S P B M N H R T W. apply shows_attrs in S. subst sh. rewrite (any_run _ _ _ _ A P).
    apply (any_sources (fun t => run (world v [] tf fs t) n (CmdExpr e) fe (o_limit a) (show_attrs a))); auto. exact (none_print_0 _ _ fe (begins_eval _ _ _ _ B (stays_step _ _ M))).
  Qed.
  Theorem any_silent e fe ax t blanks o : asks v a (CmdExpr e) fe -> absent (o_partition a) -> begins ax t e -> stays ax t -> Forall no_element blanks -> allocated h ->
    microx_any v tf fs n h a (map fine blanks) o <-> o = ([], Ends Done).
  Proof. intros A P B M N H. rewrite (any_run _ _ _ _ A P). apply any_nothing; auto. exact (none_print_0 _ _ fe (begins_eval _ _ _ _ B (stays_step _ _ M))). Qed.
End Main.

Lemma some_same A (x y : A) : Some x = Some y -> x = y. Proof. congruence. Qed.
(** None is treated as the main evaluator treats a number. *)
Section Like.
  Variables (w : env) (n : nat) (i : item).
  Hypothesis no_vars : vars w = [].
  Hypothesis i_plain : plain i.
  Lemma plain_copy : copy w i i = i. Proof. unfold copy. now destruct (truthy w i). Qed.
  Lemma plain_step m ax t : step w m ax t i = (repeat i (fst (none_step ax t)), snd (none_step ax t)).
  Proof. destruct i; try destruct i_plain; destruct ax, t; reflexivity. Qed.
  Lemma plain_bind k m f : bindl (repeat i m) f (fun x => (repeat i (fst k), snd k)) = (repeat i (fst (none_each k m f)), snd (none_each k m f)).
  Proof.
    induction m as [|m IH]; [reflexivity|]. cbn [repeat bindl none_each]. rewrite IH. destruct k as [q g]; cbn [fst snd] in *. destruct g; cbn [fst snd]; [|reflexivity..]. rewrite repeat_app. reflexivity.
  Qed.
  Lemma bindl_ext l f k k' : (forall x, In x l -> k x = k' x) -> bindl l f k = bindl l f k'.
  Proof. induction l as [|x l IH]; intros H; [reflexivity|]. cbn [bindl]. rewrite (H x (or_introl eq_refl)), IH; [reflexivity|]. intros y Hy. apply H. now right. Qed.
  Lemma plain_path m f (rhs : item -> list item * fin) k : rhs i = (repeat i (fst k), snd k) ->
    bind (repeat i m, f) (fun x => rhs (copy w i x)) = (repeat i (fst (none_each k m f)), snd (none_each k m f)).
  Proof.
    intros H. unfold bind. cbn [fst snd]. rewrite <- plain_bind. apply bindl_ext. intros x Hx. apply repeat_spec in Hx. subst x. rewrite plain_copy. exact H.
  Qed.
  Theorem plain_eval e : forall k f, none_eval e = Some (k, f) -> eval w n e i = (repeat i k, f).
  Proof.
    induction e as [l|e IH|l IHl op r IHr|d r|ax t|e IH ps|t|up|x|g args|l]; intros k f E; cbn [none_eval] in E; try discriminate.
    - rewrite XPathFuel.eval_bin. destruct op; try discriminate; destruct (none_eval l) as [[m g]|] eqn:El; try discriminate; specialize (IHl _ _ eq_refl); cbn [binary]; rewrite IHl.
      + destruct m as [|m]; [injection E as <- <-; reflexivity|]. destruct (none_eval r) as [[q g']|] eqn:Er; [|discriminate]. specialize (IHr _ _ eq_refl).
        apply some_same in E. rewrite (plain_path (S m) g (XPathFuel.right_of w n OpPath r) (q, g')); [rewrite E; reflexivity|]. cbn [fst snd]. rewrite <- IHr. destruct r; reflexivity.
      + destruct m as [|m]; [injection E as <- <-; reflexivity|].
        assert (X : exists k0, none_each k0 (S m) g = (k, f) /\ XPathFuel.right_of w n OpDeep r i = (repeat i (fst k0), snd k0)).
        { destruct (match r with EStep _ t => Some (none_step AxDescendantOrSelf t) | _ => none_eval r end) as [k0|] eqn:Er; [|discriminate]. apply some_same in E. exists k0. split; [exact E|].
          destruct r; try (destruct k0; exact (IHr _ _ Er)). apply some_same in Er. subst k0. apply plain_step. }
        destruct X as (k0 & E1 & E2). rewrite (plain_path (S m) g (XPathFuel.right_of w n OpDeep r) k0 E2), E1. reflexivity.
    - injection E as <- <-. assert (X : forall r', XPath.absolute w d i r' = ([], Exn AssertionErr)) by (intros r'; destruct i; try destruct i_plain; reflexivity). destruct r; [rewrite XPathFuel.eval_abs|rewrite XPathFuel.eval_root]; apply X.
    - apply some_same in E. rewrite XPathFuel.eval_step, plain_step, E. reflexivity.
    - rewrite XPathFuel.eval_pred. destruct (none_eval e) as [[m g]|] eqn:Ee; [|destruct ps; discriminate]. rewrite (IH _ _ eq_refl). cbn [fst snd]. destruct m as [|m]; [injection E as <- <-; reflexivity|]. destruct ps as [|p ps]; [|discriminate]. injection E as <- <-.
      clear. cbn [map]. generalize 1. induction (S m) as [|m' IHm]; intros pos; [reflexivity|]. cbn [repeat predicated]. cbn [verdict_of]. rewrite IHm. reflexivity.
    - injection E as <- <-. rewrite XPathFuel.eval_test. destruct i; try destruct i_plain; destruct t; reflexivity.
    - apply some_same in E. rewrite XPathFuel.eval_abbrev. destruct i; try destruct i_plain; destruct up; injection E as <- <-; reflexivity.
    - injection E as <- <-. destruct n; cbn; rewrite no_vars; reflexivity.
  Qed.
End Like.
