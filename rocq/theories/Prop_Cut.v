(** Theorems about what the tree builders make of documents that break off. *)
From Verif Require Import PyStr CharClass Parser XTree Grammar ParserSpec TreeUtil Expat ExpatSpec ExpatFacts.
From Verif Require Import Tree TreeSpec TreeFacts Heap Builder HeapSpec CutSpec CutFacts.

(** ** C130 *)
Theorem C130_microxml (p f : str) u : lenient_doc (p ++ f) u -> ~ blank f ->
  (forall s, exists s' r, tree_parse s p s' r) /\
  (forall s s' r, tree_parse s p s' r -> (r = None /\ fst (feed [p]) = []) \/ exists i t, r = Some i /\ holds_tree (bheap s') i t /\ cut t u).
Proof. exact (micro_cut p f u). Qed.
Print Assumptions C130_microxml.
(** [cs1] are the calls that expat makes for the beginning of an XML document. *)
Theorem C130_xml cs1 cs2 u h s r : report (cs1 ++ cs2) [u] -> (exists n a ks, u = XE n a ks) -> xml_tree_parse (new_builder h) (fst (callbacks [] cs1)) s r ->
  snd (callbacks [] cs1) <> None /\
  ((r = None /\ fst (callbacks [] cs1) = []) \/ exists i t, r = Some i /\ holds_tree (bheap s) i t /\ cut t u).
Proof. exact (xml_cut cs1 cs2 u h s r). Qed.
Print Assumptions C130_xml.
(** Every beginning of the tree is the result for some beginning of the calls. *)
Theorem C130_every_cut cs u t h : report cs [u] -> cut t u -> exists cs1 cs2, cs = cs1 ++ cs2 /\ fst (callbacks [] cs1) <> [] /\
  forall s r, xml_tree_parse (new_builder h) (fst (callbacks [] cs1)) s r -> exists i, r = Some i /\ holds_tree (bheap s) i t.
Proof. exact (xml_every_cut cs u t h). Qed.
Print Assumptions C130_every_cut.

Definition whole : xtree := XE (lit "a") [] [XT (lit "1"); XE (lit "b") [] [XT (lit "2"); XE (lit "c") [] []]; XE (lit "d") [] []].
Definition broken : xtree := XE (lit "a") [] [XT (lit "1"); XE (lit "b") [] [XT (lit "2")]].
Lemma whole_writable : writable whole.
Proof.
  assert (N : forall c, is_namestart c = true -> name [c]) by (intros c H; exists c, []; repeat split; auto; intros x []).
  unfold whole. constructor; [apply N; reflexivity|constructor|intros ? ? []|]. intros k [<-|[<-|[<-|[]]]].
  - constructor.
  - constructor; [apply N; reflexivity|constructor|intros ? ? []|]. intros k [<-|[<-|[]]]; constructor; [apply N; reflexivity|constructor|intros ? ? []|intros ? []].
  - constructor; [apply N; reflexivity|constructor|intros ? ? []|intros ? []].
Qed.
Definition built (evs : list event) : bstate := fold_left (fun s st => exec st s) (flat_map handler_stmts evs) (new_builder empty_heap).
Example C130_case : cut broken whole /\ (exists f, lenient_doc (lit "<a>1<b>2<c" ++ f) whole /\ ~ blank f) /\
  map (hp (bheap (built (fst (feed [lit "<a>1<b>2<c"]))))) [0; 1; 2; 3; 4] =
    [Some (OElem (lit "a") [] [1; 2] None); Some (OText (lit "1") (Some 0)); Some (OElem (lit "b") [] [3] (Some 0)); Some (OText (lit "2") (Some 2)); None].
Proof.
  split; [|split; [|vm_compute; reflexivity]].
  - refine (cut_below (lit "a") [] [XT (lit "1")] _ _ _ _). exact (cut_here (lit "b") [] [XT (lit "2")] _).
  - exists (skipn 10 (xml_encode whole)). split.
    + assert (E : lit "<a>1<b>2<c" ++ skipn 10 (xml_encode whole) = xml_encode whole) by (vm_compute; reflexivity). rewrite E.
      assert (E' : normal whole = whole) by (vm_compute; reflexivity). rewrite <- E' at 2. apply encode_doc, whole_writable.
    + intros B. specialize (B 47%N). assert (I : In 47%N (skipn 10 (xml_encode whole))) by (vm_compute; auto). apply B in I. vm_compute in I. discriminate.
Qed.
Example C130_xml_case : exists cs2, report ([CbStart (lit "u a") []; CbChars (lit "1"); CbChars (lit "2")] ++ cs2) [XE (lit "a") [] [XT (lit "1"); XT (lit "2"); XT (lit "3")]].
Proof.
  exists [CbChars (lit "3"); CbEnd (lit "u a")]. change (lit "u a") with (expanded (Some (lit "u"), lit "a")).
  refine (rp_elem (Some (lit "u"), lit "a") [] [] [_; _; _] _ [] [] _ _ _ _ rp_nil).
  - split; cbn [fst snd]; (split; [discriminate|intros c Hc; cbn in Hc; repeat destruct Hc as [<-|Hc]; try reflexivity; destruct Hc]).
  - constructor.
  - apply (collapsed_distinct []). constructor.
  - apply rp_text, rp_text, rp_text, rp_nil.
Qed.
