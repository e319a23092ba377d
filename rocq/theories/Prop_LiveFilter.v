(** Loops over location paths and over expressions with predicates, with edits meanwhile: C138. *)
From Verif Require Import PyStr Parser XTree Tree Nodes Heap Builder HeapSpec HeapFacts BuilderMore RootCache DocOrder XPath XQuery HeapNav HeapEval HeapEvalFuel HeapQuery.
From Verif Require Import LiveIter LivePath LivePathSpec LivePathCut LiveEval LiveEvalSpec LiveEvalFacts LiveEvalStart LiveEvalPath LiveEvalSift LiveEvalCut.
From Verif Require Import Prop_HeapNav Prop_HeapEval Prop_HeapQuery.

(** ** C138 *)
(** Location paths: the loops over the generator of the expression are those over the stack of C135, whatever they
    edit, and what is to come is the same at every moment.  So all of C135 holds for xml_xpath. *)
Theorem C138_path w hv c m x o s p : same_loops w hv c m (GStart (epath s p) (Obj x o)) (query x (s :: p)) /\
  forall d, c x = mc m (Obj x o) -> snd (hroot (mh m) (c x) x) <> Cut -> same_loops w hv c m (GStart (EAbs d (Some (epath s p))) (Obj x o)) (query_abs d x (s :: p)).
Proof. split; [apply meets_loops, path_meets|]. intros d Hc Hn. apply meets_loops, abs_meets; assumption. Qed.
Print Assumptions C138_path.
(** xml_xpath: the generator of the expression, of a node without a parent at its root node. *)
Theorem C138_ask w hv m y o p e : (p = Parsed e \/ exists s, p = Text s /\ xparse w s = inl e) -> forall r,
  (obj_parent (mh m) (Obj y o) = true -> gpulls w hv m (GAsk (Obj y o) p) r <-> gpulls w hv m (GStart e (Obj y o)) r) /\
  (obj_parent (mh m) (Obj y o) = false -> forall q, hroot (mh m) (mc m (Obj y o)) y = ([HRoot q], Done) -> gpulls w hv m (GAsk (Obj y o) p) r <-> gpulls w hv m (GStart e (Obj (HRoot q) Made)) r).
Proof. intros Hp r. split; [intros Hx; exact (ask_start w hv m _ p e Hp Hx r)|intros Hx q Hq; exact (ask_root w hv m y o p e q Hp Hx Hq r)]. Qed.
Print Assumptions C138_ask.
(** A loop over [e[ps]] is the loop over [e] in which the body is run for the items that are kept:
    the predicates are computed when an item comes, with its position among what has come. *)
Theorem C138_filter w hv body m e ps x :
  (forall z out m' g', gloop w hv body m (GStart (EPred e ps) x) (z :: out) m' g' <->
     exists pos src, g' = GPred x pos ps src /\ sifted w hv body x ps 1 m (GStart e x) (z :: out) pos m' src) /\
  (gpulls w hv m (GStart (EPred e ps) x) Ended <-> no_more w hv x ps m 1 (GStart e x)) /\
  forall m' pos src, gpulls w hv m' (GPred x pos ps src) Ended <-> no_more w hv x ps m' pos src.
Proof.
  split; [intros; apply filter_loop|]. split; [|intros; apply pred_ends]. rewrite <- pred_ends. apply start_pred.
Qed.
Print Assumptions C138_filter.
(** [for y in r.xml_xpath('descendant::n[ps]'): y.xml_parent.xml_remove(y)] ends, and takes out, in document order,
    exactly those for which the predicates hold, if these look at names, attributes and texts only; all other nodes stay where they are. *)
Theorem C138_cut w hv m p r t ids n o ps S : well_linked (mh m) -> holds (mh m) p r t ids -> (chosen (named n) (mh m) r = true -> forall i, In i (tl ids) -> htext (mh m) i <> Some []) ->
  by_label w hv (mh m) ps S ->
  let g := GStart (EPred (EStep AxDescendant (TName n)) ps) (Obj (HNode r) o) in
  let picks := filter S (filter (chosen (named n) (mh m)) (tl ids)) in
  (exists out m' g', gloop w hv takes_out m g out m' g' /\ gpulls w hv m' g' Ended) /\
  forall out m' g', gloop w hv takes_out m g out m' g' -> gpulls w hv m' g' Ended ->
    Forall2 is_ref out picks /\ (forall i, In i picks -> parent_is (mh m') i None) /\ (forall j q, parent_is (mh m) j q -> ~ In j picks -> parent_is (mh m') j q).
Proof. intros W H Hn HS. exact (cut_where w hv n r o ps S m p t ids W H Hn HS). Qed.
Print Assumptions C138_cut.
(** [[@k]] is such a predicate. *)
Theorem C138_attr w hv h k : k <> lit "*" -> by_label w hv h [EStep AxAttribute (TName k)] (chosen (fun _ a => match dict_get a k with Some _ => true | None => false end) h).
Proof. exact (attr_by_label w hv h k). Qed.
Print Assumptions C138_attr.

(** [<a><r><b x=''><b></b></b><b x=''></b></r></a>] made by edits; [descendant::b[@x]] at [r]. *)
Definition e138 : heap :=
  let new n a h := fst (alloc h (OElem (lit n) a [] None)) in
  let into i x h := match xml_insert h i x (-1) with EOk h' => h' | EExn h' _ => h' end in
  (into 1 (ARef 4) (into 2 (ARef 3) (into 1 (ARef 2) (into 0 (ARef 1)
    (new "b" [(lit "x", [])] (new "b" [] (new "b" [(lit "x", [])] (new "r" [] (new "a" [] empty_heap)))))))))%string.
Definition m138 : moment := At e138 (fun _ => empty_cache) (fun _ => no_numbers).
Lemma e138_edits : edits empty_heap e138.
Proof.
  do 5 (eapply eds_cons; [apply ed_new_elem|]).
  assert (L : forall h i j, below h i j -> i <> j -> exists o, hp h i = Some o /\ okids o <> []).
  { intros h i j B. induction B as [|i k j B IH (o & Ho & Hin)]; [congruence|]. intros _. destruct (Nat.eq_dec i k) as [->|Hn]; [|auto]. exists o. split; [auto|]. intros E. rewrite E in Hin. destruct Hin. }
  assert (N : forall h i j n a p, hp h i = Some (OElem n a [] p) -> i <> j -> ~ below h i j).
  { intros h i j n a p Hi Hn B. apply L in B as (o & Ho & Hk); [|exact Hn]. rewrite Hi in Ho. injection Ho as <-. apply Hk. reflexivity. }
  eapply eds_cons; [eapply (ed_insert_elem _ 0 1 (-1)); [do 4 eexists; reflexivity|eexists; split; reflexivity|eapply N; [vm_compute; reflexivity|discriminate]|reflexivity]|].
  eapply eds_cons; [eapply (ed_insert_elem _ 1 2 (-1)); [do 4 eexists; reflexivity|eexists; split; reflexivity|eapply N; [vm_compute; reflexivity|discriminate]|reflexivity]|].
  eapply eds_cons; [eapply (ed_insert_elem _ 2 3 (-1)); [do 4 eexists; reflexivity|eexists; split; reflexivity|eapply N; [vm_compute; reflexivity|discriminate]|reflexivity]|].
  eapply eds_cons; [eapply (ed_insert_elem _ 1 4 (-1)); [do 4 eexists; reflexivity|eexists; split; reflexivity|eapply N; [vm_compute; reflexivity|discriminate]|reflexivity]|].
  apply eds_nil.
Qed.
Example C138_case : well_linked (mh m138) /\ (exists t, holds e138 (Some 0) 1 t [1; 2; 3; 4]) /\ chosen (named (lit "b")) e138 1 = false /\
  filter (chosen (fun _ a => match dict_get a (lit "x") with Some _ => true | None => false end) e138) (filter (chosen (named (lit "b")) e138) [2; 3; 4]) = [2; 4] /\
  xparse w136 (lit "descendant::b[@x]") = inl (EPred (EStep AxDescendant (TName (lit "b"))) [EStep AxAttribute (TName (lit "x"))]) /\
  obj_parent e138 (Obj (HNode 1) Made) = true /\ obj_parent e138 (Obj (HNode 0) Made) = false /\ (exists q, hroot e138 empty_cache (HNode 0) = ([HRoot q], Done)) /\
  xparse w136 (lit "*/b") = inl (epath (XChild, TStar) [(XChild, TName (lit "b"))]) /\ xparse w136 (lit "//b") = inl (EAbs true (Some (epath (XChild, TName (lit "b")) []))) /\
  snd (hroot e138 empty_cache (HNode 1)) <> Cut.
Proof.
  split; [exact (editing_well_linked _ e138_edits)|]. split.
  { eexists. eapply hd_elem; [vm_compute; reflexivity|]. eapply (ha_cons _ _ 2 [4] _ _ [2; 3] [4]).
    - eapply hd_elem; [vm_compute; reflexivity|]. eapply (ha_cons _ _ 3 [] _ _ [3] []); [eapply hd_elem; [vm_compute; reflexivity|apply ha_nil]|apply ha_nil].
    - eapply (ha_cons _ _ 4 [] _ _ [4] []); [eapply hd_elem; [vm_compute; reflexivity|apply ha_nil]|apply ha_nil]. }
  do 5 (split; [vm_compute; reflexivity|]). split; [eexists; vm_compute; reflexivity|]. do 2 (split; [vm_compute; reflexivity|]). vm_compute. discriminate.
Qed.
