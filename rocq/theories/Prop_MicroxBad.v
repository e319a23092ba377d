(** Theorems about exec/microx with sources that are not well-formed. *)
From Verif Require Import PyStr Parser XTree ParserSpec Tree Heap HeapSpec Builder Expat ExpatSpec ExpatFacts CutSpec Path Pattern PatternSpec PatternFunMore TreeUtil TreeSpec TreeIter TreeIterSpec XmlIterSpec.
From Verif Require Import XPath XPathSpec XGram XLex XQuery XQueryFacts Microx MicroxSpec MicroxMain MicroxMainSpec MicroxMainFacts MicroxUse MicroxBad MicroxBadSpec MicroxBadFacts Prop_MicroxMain.

(** <a><b>x and what is missing *)
Definition broken : list cb := [CbStart (bare "a") []; CbStart (bare "b") []; CbChars (lit "x")].
Definition missing : list cb := [CbEnd (bare "b")] ++ el "c" (el "b" []) ++ [CbEnd (bare "a")].

(** ** C139 *)
(** If expat complains about no source, it is the program of C107-C109. *)
Theorem C139_fine v tf fs n h a srcs o : microx_files v tf fs n h a (map fine srcs) o <-> exists o', microx v tf fs n h a srcs o' /\ o = ends o'.
Proof. exact (files_fine v tf fs n h a srcs o). Qed.
Print Assumptions C139_fine.
(** A source that expat rejects ends the program: what comes before it is printed, nothing of it, nothing after it. *)
Theorem C139_rejected v tf fs n h a good bad rest ks more o : absent (o_partition a) -> report (bad ++ rest) ks ->
  microx_files v tf fs n h a (map fine good ++ (bad, true) :: more) o <-> exists o', microx v tf fs n h a good o' /\ o = then_error o'.
Proof.
  intros P R. apply files_rejected; [exact P|]. pose proof (report_events _ _ R []) as E. rewrite callbacks_app in E.
  destruct (callbacks [] bad) as [evs [stk|]] eqn:B; [exists evs, stk; exact B|discriminate].
Qed.
Print Assumptions C139_rejected.
(** Finding: a source that breaks off is taken for the document that begins like it and ends there. *)
Theorem C139_cut v tf fs n h a c fe sh cs1 cs2 u : asks v a c fe -> shows a sh -> absent (o_partition a) -> report (cs1 ++ cs2) [u] -> is_element u -> fst (callbacks [] cs1) <> [] ->
  exists t, CutSpec.cut t u /\ partial_tree (fst (callbacks [] cs1)) t /\ forall o, microx_files v tf fs n h a [(cs1, false)] o <-> o = ends (run (world v [] tf fs t) n c fe (o_limit a) sh).
Proof. exact (files_cut v tf fs n h a c fe sh cs1 cs2 u). Qed.
Print Assumptions C139_cut.
(** Finding: the next source is then put into it, below the innermost element that is open. *)
Theorem C139_graft v tf fs n h a c fe sh cs1 cs2 u m open cs' u' : asks v a c fe -> shows a sh -> absent (o_partition a) -> report (cs1 ++ cs2) [u] -> is_element u ->
  document_events (fst (callbacks [] cs1)) (m :: open) -> report cs' [u'] -> is_element u' ->
  exists t t', CutSpec.cut t u /\ partial_tree (fst (callbacks [] cs1)) t /\ partial_tree (fst (callbacks [] cs1) ++ tree_events (rev (m :: open)) u') t' /\
    forall o, microx_files v tf fs n h a [(cs1, false); (cs', false)] o <-> exists o', in_turn (fun t => run (world v [] tf fs t) n c fe (o_limit a) sh) [t; t'] o' /\ o = ends o'.
Proof. exact (files_graft v tf fs n h a c fe sh cs1 cs2 u m open cs' u'). Qed.
Print Assumptions C139_graft.
(** --partition: of a source that breaks off or is rejected, the elements whose end tag has been read are printed before the error. *)
Theorem C139_parts v tf fs n h a c fe sh p good us cs1 cs2 u more : asks v a c fe -> shows a sh -> o_partition a = Some p -> p <> [] -> p <> lit "*" -> p <> lit "**" ->
  Forall2 (fun cs u => report cs [u] /\ is_element u) good us -> report (cs1 ++ cs2) [u] -> is_element u ->
  let whole t (b : addr) w := (exists at_ ks, w = XE p at_ ks) /\ forall b' at_ ks, above b' b -> subtree t b' <> Some (XE p at_ ks) in
  exists ls l, Forall2 (fun t l => listing t (whole t) l) us ls /\
    listing u (fun b w => whole u b w /\ complete_in u (fst (callbacks [] cs1)) b w) l /\
    forall o, microx_files v tf fs n h a (map fine good ++ (cs1, true) :: more) o <->
      exists o', in_turn (fun t => run (world v [] tf fs t) n c fe (o_limit a) sh) (map snd (concat ls ++ l)) o' /\ o = then_error o'.
Proof.
  intros A S P N1 N2 N3 F R I whole. destruct (files_parts v tf fs n h a c fe sh p good us cs1 cs2 u more A S P N1 N2 N3 F R I) as (ls & l & L & L' & H). exists ls, l. split; [|split; [|exact H]].
  - clear - L. induction L as [|u l us ls L _ IH]; constructor; [apply listing_named, L|exact IH].
  - eapply listing_ext; [|exact L']. intros b w E. cbv beta. rewrite (outermost_named u p b w E). reflexivity.
Qed.
Print Assumptions C139_parts.
(** --partition *: a document that has been read to its end is printed, also if expat complains about what follows; else nothing of it. *)
Theorem C139_star v tf fs n h a c fe sh good us cs1 cs2 u more : asks v a c fe -> shows a sh -> o_partition a = Some (lit "*") ->
  Forall2 (fun cs u => report cs [u] /\ is_element u) good us -> report (cs1 ++ cs2) [u] -> is_element u ->
  exists l, (fst (callbacks [] cs1) = doc_events u -> l = [u]) /\ (fst (callbacks [] cs1) <> doc_events u -> l = []) /\
    forall o, microx_files v tf fs n h a (map fine good ++ (cs1, true) :: more) o <->
      exists o', in_turn (fun t => run (world v [] tf fs t) n c fe (o_limit a) sh) (us ++ l) o' /\ o = then_error o'.
Proof. exact (files_star v tf fs n h a c fe sh good us cs1 cs2 u more). Qed.
Print Assumptions C139_star.
(** --partition **: a TypeError at the first start tag, before expat gets to complain. *)
Theorem C139_deep v tf fs n h a c fe cs1 cs2 b u more : asks v a c fe -> o_partition a = Some (lit "**") -> report (cs1 ++ cs2) [u] -> is_element u -> fst (callbacks [] cs1) <> [] ->
  forall o, microx_files v tf fs n h a ((cs1, b) :: more) o <-> o = ([], Ends (Exn TypeErr)).
Proof. exact (files_deep v tf fs n h a c fe cs1 cs2 b u more). Qed.
Print Assumptions C139_deep.
Example C139_star_case : fst (callbacks [] (broken ++ missing)) = doc_events doc1 /\ fst (callbacks [] broken) <> doc_events doc1 /\ fst (callbacks [] broken) <> [] /\ report (broken ++ missing) [doc1] /\
  exists e, asks env0 (with_parts "b/text()" "*") (CmdExpr e) None /\ asks env0 (with_parts "b/text()" "**") (CmdExpr e) None.
Proof.
  split; [reflexivity|]. split; [discriminate|]. split; [discriminate|]. split; [exact src1_doc|].
  eexists. split; (apply (asks_expr "b/text()"); [discriminate|reflexivity..|vm_compute; reflexivity]).
Qed.
(** So there are sources that are no documents, and the program ends without a complaint. *)
Theorem C139_unnoticed_refuted : exists v tf fs n a, (forall u, ~ report broken [u]) /\ forall h, microx_files v tf fs n h a [(broken, false)] ([lit "<b>x</b>"], Ends Done).
Proof.
  exists env0, floats, shown_float, 9, (with_expr "a/b"). split.
  - intros u R. apply report_document in R. discriminate R.
  - intros h. assert (A : asks env0 (with_expr "a/b") (CmdExpr (EBin (EStep AxChild (TName (lit "a"))) OpPath (EStep AxChild (TName (lit "b"))))) None) by (apply (asks_expr "a/b"); [discriminate|reflexivity..|vm_compute; reflexivity]).
    destruct (C139_cut env0 floats shown_float 9 h (with_expr "a/b") _ None [] broken missing doc1 A) as (t & C & T & H); [left; split; [left; reflexivity|reflexivity]|left; reflexivity|exact src1_doc|do 3 eexists; reflexivity|discriminate|].
    apply H. assert (E : t = XE (lit "a") [] [XE (lit "b") [] [XT (lit "x")]]).
    { refine (BuilderFacts.partial_unique (fst (callbacks [] broken)) _ _ _ T). split; [do 3 eexists; reflexivity|]. exists [EvEnd (lit "b") [lit "a"]; EvEnd (lit "a") []]. split; [|reflexivity]. constructor; [do 2 eexists; reflexivity|]. constructor; [do 2 eexists; reflexivity|constructor]. }
    subst t. vm_compute. reflexivity.
Qed.
Print Assumptions C139_unnoticed_refuted.
Example C139_case : report (broken ++ missing) [doc1] /\ document_events (fst (callbacks [] broken)) [lit "b"; lit "a"] /\
  partial_tree (fst (callbacks [] broken) ++ tree_events (rev [lit "b"; lit "a"]) doc2) (XE (lit "a") [] [XE (lit "b") [] [XT (lit "x"); XE (lit "b") [] []]]) /\
  (let evs := fst (callbacks [] (broken ++ [CbEnd (bare "b"); CbStart (bare "c") []; CbStart (bare "b") []])) in
   complete_in doc1 evs [0] (XE (lit "b") [] [XT (lit "x")]) /\ ~ complete_in doc1 evs [1; 0] (XE (lit "b") [] [])).
Proof.
  split; [exact src1_doc|]. split; [|split; [|cbv zeta; split]].
  - exists (lit "a"), [], [EvStart (lit "b") [] [lit "a"]; EvChars (lit "x")]. split; [reflexivity|]. apply (nest_start [lit "a"]); [discriminate|]. apply nest_chars; [discriminate|]. apply nest_nil.
  - split; [do 3 eexists; reflexivity|]. exists [EvEnd (lit "b") [lit "a"]; EvEnd (lit "a") []]. split; [|reflexivity]. constructor; [do 2 eexists; reflexivity|]. constructor; [do 2 eexists; reflexivity|constructor].
  - eexists. reflexivity.
  - intros (rest & E). vm_compute in E. discriminate E.
Qed.
