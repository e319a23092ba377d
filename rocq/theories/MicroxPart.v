(** Proofs about microx --partition with a wildcard. *)
From Verif Require Import PyStr Parser XTree Heap HeapSpec Builder BuilderFacts BuilderMore Expat ExpatSpec ExpatFacts Path Pattern PatternSpec PatternFacts.
From Verif Require Import TreeIter TreeIterSpec TreeIterFacts TreeIterMore.
From Verif Require Import XPath XPathSpec XGram XLex XQuery XQueryFacts Microx MicroxSpec MicroxFacts MicroxMain MicroxMainSpec MicroxMainFacts.

(** The outermost element of any name is the root. *)
Lemma root_outermost u : is_element u -> listing u (outermost [StDeep; StAny] u) [([], u)].
Proof.
  intros (n & a & ks & ->).
  assert (M : matches [StDeep; StAny] (path_names (XE n a ks) [])).
  { change (path_names (XE n a ks) []) with ([] ++ [n]). apply ma_deep. apply ma_one; [exact I|constructor]. }
  split; [constructor; constructor|]. intros b u. split.
  - intros [E|[]]. injection E as <- <-. split; [reflexivity|]. split; [do 3 eexists; reflexivity|]. split; [exact M|].
    intros b (i & c & E). destruct b; discriminate.
  - intros (S & _ & _ & O). destruct b as [|i b]; [injection S as <-; left; reflexivity|]. exfalso. apply (O []); [exists i, b; reflexivity|exact M].
Qed.
Section Main.
  Variables (v : lexenv) (tf : str -> option flt) (fs : flt -> str) (n : nat) (h : heap) (a : options).
  Lemma parts_pattern c fe p srcs : asks v a c fe -> o_partition a = Some p -> p <> [] -> forall o,
    microx v tf fs n h a srcs o <-> print_parts (fun t => run (world v [] tf fs t) n c fe (o_limit a) (show_attrs a)) (partition_pattern p) srcs o.
  Proof.
    intros A P N o. apply prepare_asks in A. assert (T : truthy_opt (o_partition a) = Some p) by (apply truthy_some; auto). split.
    - intros M. inversion M as [x E|c' fe' o' E E' Q|c' fe' p' o' E E' Q]; subst; try congruence. rewrite A in E. injection E as <- <-. rewrite T in E'. injection E' as <-. exact Q.
    - intros Q. eapply mx_parts; [exact A|exact T|exact Q].
  Qed.
  Theorem microx_star c fe sh srcs us : asks v a c fe -> shows a sh -> o_partition a = Some (lit "*") ->
    Forall2 (fun cs u => report cs [u] /\ is_element u) srcs us ->
    forall o, microx v tf fs n h a srcs o <-> in_turn (fun t => run (world v [] tf fs t) n c fe (o_limit a) sh) us o.
  Proof.
    intros A S P F o. rewrite (parts_pattern c fe _ srcs A P) by discriminate. apply shows_attrs in S. subst sh.
    change (partition_pattern (lit "*")) with [StDeep; StAny].
    destruct (parts_outermost (fun t => run (world v [] tf fs t) n c fe (o_limit a) (show_attrs a)) StAny srcs us ltac:(discriminate) F) as (ls & L & K).
    rewrite K. replace (map snd (concat ls)) with us; [reflexivity|]. clear - L F. revert L. revert ls. induction F as [|cs u srcs us (_ & E) _ IH]; intros ls L; inversion L as [|x l y ls' Hl L']; subst; [reflexivity|].
    cbn [concat]. rewrite map_app, <- (IH _ L'), <- (listing_unique _ _ _ _ (root_outermost u E) Hl). reflexivity.
  Qed.
  Lemma deep_raises h0 u s' x : is_element u -> allocated h0 -> thandle (stateses [[StDeep; StDeep]]) (new_handler (new_sender h0 [[StDeep; StDeep]])) (doc_events u) s' x ->
    x = Some TreeIter.TypeErr /\ tsent s' = [].
  Proof.
    intros (m & b & ks & ->) A T. split; [|pose proof (trailing_deep [StDeep; StDeep] (new_handler (new_sender h0 [[StDeep; StDeep]])) _ _ _ (ex_intro _ [StDeep] eq_refl) eq_refl T) as Z; exact Z].
    cbn [doc_events tree_events] in T. inversion T as [|s0 e evs l c s1 s2 x2 E R T'|s0 e evs l c s1 x2 E R]; subst; cbn in E; [discriminate|]. injection E as <- <- <-. reflexivity.
  Qed.
  Theorem microx_deep c fe cs u srcs : asks v a c fe -> o_partition a = Some (lit "**") -> report cs [u] -> is_element u ->
    forall o, microx v tf fs n h a (cs :: srcs) o <-> o = ([], Exn TypeErr).
  Proof.
    intros A P R E o. rewrite (parts_pattern c fe _ _ A P) by discriminate. change (partition_pattern (lit "**")) with [StDeep; StDeep].
    pose proof (report_document _ _ R) as D. split.
    - assert (Z : forall h0 s' ts, tsent s' = [] -> sent_since (new_sender h0 [[StDeep; StDeep]]) s' 0 ts -> ts = []).
      { intros h0 s' ts Z (l & E1 & F). rewrite Z in E1. cbn in E1. subst l. inversion F. reflexivity. }
      intros Q. inversion Q as [|h0 cs0 srcs0 evs stk s' ts ls ls' f E0 A0 T S G Q'|h0 cs0 srcs0 evs stk s' x ts ls f E0 A0 T S G N'|h0 cs0 srcs0 evs stk s' x ts ls E0 A0 T S G]; subst; rewrite D in E0; injection E0 as <- <-;
        destruct (deep_raises _ _ _ _ E A0 T) as [X Z']; pose proof (Z _ _ _ Z' S) as ->; cbn in G.
      + discriminate.
      + injection G as <- <-. congruence.
      + injection G as <-. reflexivity.
    - intros ->. assert (A0 : allocated empty_heap) by (intros j ob Hj; discriminate).
      destruct (thandle_exists (stateses [[StDeep; StDeep]]) (doc_events u) (new_handler (new_sender empty_heap [[StDeep; StDeep]]))) as (s0 & x0 & T0).
      destruct (deep_raises _ _ _ _ E A0 T0) as [-> Z]. apply (pa_type _ _ empty_heap cs srcs (doc_events u) [] s0 TreeIter.TypeErr [] []); [exact D|exact A0|exact T0| |reflexivity].
      exists []. split; [rewrite Z; reflexivity|constructor].
  Qed.
End Main.
