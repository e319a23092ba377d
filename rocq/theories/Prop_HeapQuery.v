(** Queries on node objects: C136. *)
From Verif Require Import PyStr Parser XTree Grammar Tree Path Heap Builder BuilderFacts HeapSpec HeapFacts BuilderMore RootCache RootSpec RootFacts.
From Verif Require Import DocOrder DocOrderSpec XPath XPathSpec XGramSpec XLex XLexSpec XText XQuery XQueryFacts HeapNav HeapNavSpec HeapNavFacts HeapEval HeapEvalSpec HeapEvalFacts HeapEvalMain XNavSpec XNavUse HeapQuery HeapQuerySpec HeapQueryFacts.
From Verif Require ParserMore ParserClass Prop_Tree Prop_XSyntax.
From Verif Require Import Prop_HeapNav Prop_HeapEval.

(** ** C136 *)
(** xml_xpath and qquery give the objects at the positions that the query over the tree gives (C105). *)
Theorem C136_xpath h r w hv c v (DD : Prop) n i y o p : (forall z, history h (c z)) -> HeapNavSpec.document h r (doc w) -> is_element (doc w) ->
  same_vars h r (vars w) hv -> good_numbers h v -> (DD -> forall s e, xparse w s = inl e -> careful DD e) -> fine w DD p -> vstands h r i (Obj y o) ->
  vsame h r (xml_xpath w n i p) (obj_xpath h w hv c v n (Obj y o) p) /\ vsame h r (qquery_node w n i p) (obj_qquery h w hv c v n (Obj y o) p).
Proof.
  intros Hh D El V N Dy K H. pose proof (proj1 (history_ok _ _ (Hh (VInt 0)))) as W. assert (Hc : forall z, cache_ok h (c z)) by (intros z; exact (proj2 (history_ok _ _ (Hh z)))).
  split; [apply (xpath_same h r w hv c v DD)|apply (qquery_same h r w hv c v DD)]; auto.
Qed.
Print Assumptions C136_xpath.
(** What a query at the object [i] selects: the objects at the positions that the specification of C110 says. *)
Theorem C136_select h r w lv hv c v n a i o s e k : (forall z, history h (c z)) -> HeapNavSpec.document h r (doc w) -> proper w ->
  same_vars h r (vars w) hv -> good_numbers h v -> xparse w = uxpath_parse lv -> expression lv s e ->
  follow h r a = Some i -> kind_of (kind_here h i) e = Some k ->
  exists ls, obj_xpath h w hv c v n (Obj (HNode i) o) (Text s) = (ls, Done) /\
    (forall d, nav w e (match a with [] => IRoot | _ => INode a end) d -> exists y, In y ls /\ vstands h r d y) /\
    (forall y, In y ls -> exists d, nav w e (match a with [] => IRoot | _ => INode a end) d /\ vstands h r d y) /\
    (once e = true -> forall m1 m2 j o1 m3 o2, ls <> m1 ++ Obj (HNode j) o1 :: m2 ++ Obj (HNode j) o2 :: m3).
Proof.
  intros Hh D P V N X E F K. pose proof (proj1 (history_ok _ _ (Hh (VInt 0)))) as W. assert (Hc : forall z, cache_ok h (c z)) by (intros z; exact (proj2 (history_ok _ _ (Hh z)))).
  apply uxpath_parse_ok in E. replace (obj_xpath h w hv c v n (Obj (HNode i) o) (Text s)) with (obj_xpath h w hv c v n (Obj (HNode i) o) (Parsed e)) by (cbn [obj_xpath]; rewrite X, E; reflexivity).
  exact (select_same h r w hv c v W D P Hc V N n a i o e k F K).
Qed.
Print Assumptions C136_select.
(** An object at a position holds the subtree there. *)
Theorem C136_held h r t b j : HeapNavSpec.document h r t -> follow h r b = Some j -> exists u q ids, subtree t b = Some u /\ holds h q j u ids.
Proof. intros D F. exact (rel_holds h r (mkEnv t [] (fun _ => inr TypeErr) (fun _ => None) (fun _ => [])) D b j F). Qed.
Print Assumptions C136_held.
(** [parse(text).xml_xpath(s)], whatever has been done before. *)
Theorem C136_parsed s0 text s1 rr t lv vs tf fs s e k : edits empty_heap (bheap s0) -> tree_parse s0 text s1 rr ->
  (forall j, j < nxt (bheap s0) -> hp (bheap s1) j = hp (bheap s0) j) -> lenient_doc text t -> expression lv s e -> kind_of KElem e = Some k ->
  exists r, rr = Some r /\ nxt (bheap s0) <= r /\ HeapNavSpec.document (bheap s1) r t /\ forall hv c v n o, (forall z, history (bheap s1) (c z)) -> same_vars (bheap s1) r vs hv -> good_numbers (bheap s1) v ->
  exists ls, obj_xpath (bheap s1) (world lv vs tf fs t) hv c v n (Obj (HNode r) o) (Text s) = (ls, Done) /\
    (forall d, nav (world lv vs tf fs t) e IRoot d -> exists y, In y ls /\ vstands (bheap s1) r d y) /\
    (forall y, In y ls -> exists d, nav (world lv vs tf fs t) e IRoot d /\ vstands (bheap s1) r d y) /\
    (once e = true -> forall m1 m2 j o1 m3 o2, ls <> m1 ++ Obj (HNode j) o1 :: m2 ++ Obj (HNode j) o2 :: m3).
Proof.
  intros Hed Hp Hk Hd He K. destruct (proj2 (Prop_Tree.C20_tree_of_document text t Hd) s0 s1 rr Hp) as (r & -> & Hr & ids & Hh & _). exists r. split; [reflexivity|]. split; [exact Hr|].
  assert (D : HeapNavSpec.document (bheap s1) r t). { split; [|exists ids; exact Hh]. inversion Hh; subst; eexists; (split; [eassumption|reflexivity]). }
  split; [exact D|]. intros hv c v n o Hc V N.
  assert (Ek : kind_here (bheap s1) r = KElem).
  { unfold kind_here, helem. destruct (ParserMore.lenient_doc_elem text t Hd) as (m & a & ks & ->). inversion Hh; subst. match goal with H : hp _ _ = Some _ |- _ => rewrite H end. reflexivity. }
  apply (C136_select (bheap s1) r (world lv vs tf fs t) lv hv c v n [] r o s e k); auto; [exact (document_proper text t (world lv vs tf fs t) Hd eq_refl)|rewrite Ek; exact K].
Qed.
Print Assumptions C136_parsed.
(** [for y in x.xml_xpath(p): yield from y.xml_xpath(q)] is [x.xml_xpath(p/q)], if every [y] has a
    parent or is a root node, and is not an empty text. *)
Theorem C136_nested h w hv c v n x p q : (forall y, In y (fst (obj_xpath h w hv c v n x (Parsed p))) -> starts_here h y) ->
  obj_xpath h w hv c v n x (Parsed (EBin p OpPath q)) =
  vfor (fst (obj_xpath h w hv c v n x (Parsed p))) (snd (obj_xpath h w hv c v n x (Parsed p))) (fun y => obj_xpath h w hv c v n y (Parsed q)).
Proof.
  intros H. apply nested. intros y Hy. destruct (H y Hy) as [T [(z & o & pa & -> & E)|R]]; (split; [exact T|]); [left; cbn [obj_parent]; rewrite E; reflexivity|right; exact R].
Qed.
Print Assumptions C136_nested.
(** Not at the document element: [y.xml_xpath] starts at the root node there. *)
Theorem C136_nested_refuted : exists h w hv c v n x p q, well_linked h /\ (forall z : hval, history h (c z)) /\ good_numbers h v /\
  (forall y, In y (fst (obj_xpath h w hv c v n x (Parsed p))) -> vtrue h y = true) /\
  obj_xpath h w hv c v n x (Parsed (EBin p OpPath q)) = ([Obj (HNode 1) Made], Done) /\
  vfor (fst (obj_xpath h w hv c v n x (Parsed p))) (snd (obj_xpath h w hv c v n x (Parsed p))) (fun y => obj_xpath h w hv c v n y (Parsed q)) = ([], Done).
Proof.
  exists e131, w131, [], (fun _ => empty_cache), v133, 0, (Obj (HNode 0) Made), (EStep AxChild (TName (lit "a"))), (EStep AxChild (TName (lit "b"))).
  split; [exact (editing_well_linked _ e131_edits)|]. split; [intros z; constructor; exact (editing_well_linked _ e131_edits)|]. split; [exact v133_good|].
  split; [|split; vm_compute; reflexivity]. intros y Hy. vm_compute in Hy. destruct Hy as [<-|[]]. reflexivity.
Qed.
Print Assumptions C136_nested_refuted.
(** [<a>t<b><c></c></b>t<d></d></a>] as in C131: queries at [a] (the root node), at [b], and at the second [t]. *)
Definition w136 : env := Prop_XSyntax.some_env t131.
Definition hv136 : dict hval := [(lit "k", VInt 7)].
Definition ask136 (i : ref) (s : string) : list hval * fin := obj_xpath e131 w136 hv136 (fun _ => empty_cache) v133 0 (Obj (HNode i) Made) (Text (lit s)).
Example C136_case : (forall z : hval, history e131 ((fun _ => empty_cache) z)) /\ HeapNavSpec.document e131 0 (doc w136) /\ proper w136 /\ same_vars e131 0 (vars w136) hv136 /\ good_numbers e131 v133 /\
  xparse w136 = uxpath_parse Prop_XSyntax.plain_env /\
  (exists e, expression Prop_XSyntax.plain_env (lit "../d") e /\ follow e131 0 [1] = Some 1 /\ kind_of (kind_here e131 1) e = Some KElem /\ once e = true /\ fine w136 False (Parsed e)) /\
  map (fun q => ask136 (fst q) (snd q)) [(0, "a/b"); (0, "b"); (1, "b"); (1, "c/../../d"); (2, "//d"); (5, "../c"); (5, ".."); (5, "/a"); (1, "preceding-sibling::node()"); (1, "$k")]%string =
    [([Obj (HNode 1) Made], Done); ([], Done); ([], Done); ([Obj (HNode 3) Made], Done); ([Obj (HNode 3) Made], Done); ([], Done); ([Obj (HNode 0) Made], Done); ([], Exn AssertionErr);
     ([Obj (HNode 4) Made], Done); ([VInt 7], Done)] /\
  (let p := EStep AxChild TStar in fst (obj_xpath e131 w136 hv136 (fun _ => empty_cache) v133 0 (Obj (HNode 1) Made) (Parsed p)) = [Obj (HNode 2) Made] /\ starts_here e131 (Obj (HNode 2) Made)).
Proof.
  split; [intros z; constructor; exact (editing_well_linked _ e131_edits)|]. split; [exact e131_document|]. split; [apply check_proper; reflexivity|].
  split; [repeat constructor|]. split; [exact v133_good|]. split; [reflexivity|]. split; [|split; [vm_compute; reflexivity|]].
  - eexists. split; [apply uxpath_parse_ok; vm_compute; reflexivity|]. split; [vm_compute; reflexivity|]. split; [vm_compute; reflexivity|]. split; [vm_compute; reflexivity|]. eapply (kind_careful False _ KElem). vm_compute. reflexivity.
  - split; [vm_compute; reflexivity|]. split; [vm_compute; reflexivity|]. left. exists (HNode 2), Made, 1. split; vm_compute; reflexivity.
Qed.
Example C136_text : exists text t s1 r e, edits empty_heap (bheap (new_builder empty_heap)) /\ tree_parse (new_builder empty_heap) text s1 r /\
  (forall j, j < nxt (bheap (new_builder empty_heap)) -> hp (bheap s1) j = hp (bheap (new_builder empty_heap)) j) /\ lenient_doc text t /\
  expression Prop_XSyntax.plain_env (lit "//b[not(@x)]") e /\ kind_of KElem e = Some KElem /\ subtree t [1] = Some (XE (lit "b") [] []).
Proof.
  do 2 eexists. pose proof (ParserMore.strict_doc_lenient _ _ ParserClass.strict_doc_case) as L.
  destruct (proj1 (Prop_Tree.C20_tree_of_document _ _ L) (new_builder empty_heap)) as (s1 & r & Hp). exists s1, r. eexists.
  split; [constructor|]. split; [exact Hp|]. split; [intros j Hj; inversion Hj|]. split; [exact L|]. split; [apply uxpath_parse_ok; vm_compute; reflexivity|]. split; vm_compute; reflexivity.
Qed.
