(** Theorems about xmliter.sender, and about the moment at which a sender sends. *)
From Verif Require Import PyStr Parser XTree Tree TreeSpec Heap Builder HeapSpec Path Pattern PatternSpec TreeUtil TreeUtilSpec.
From Verif Require Import TreeIter TreeIterSpec TreeIterMore Expat ExpatSpec ExpatFacts XmlIter XmlIterSpec XmlIterFacts.

(** ** C113 *)
Theorem C113_exact p h css u s' stk x : no_deep p -> p <> [] -> allocated h -> report (concat css) [u] -> is_element u ->
  xparses [p] (new_xsender h [p]) css (s', stk) x ->
  x = None /\ stk = [] /\ kept_intact (new_sender h [p]) s' /\
  exists l, listing u (fun a v => is_element v /\ matches p (path_names u a)) l /\ sent_since (new_sender h [p]) s' 0 (map snd l).
Proof. exact (xml_exact p h css u s' stk x). Qed.
Print Assumptions C113_exact.
Theorem C113_deep pre st h css u s' stk x : no_deep pre -> st <> StDeep -> allocated h -> report (concat css) [u] -> is_element u ->
  xparses [pre ++ [StDeep; st]] (new_xsender h [pre ++ [StDeep; st]]) css (s', stk) x ->
  x = None /\ stk = [] /\ kept_intact (new_sender h [pre ++ [StDeep; st]]) s' /\
  exists l, listing u (outermost (pre ++ [StDeep; st]) u) l /\ sent_since (new_sender h [pre ++ [StDeep; st]]) s' 0 (map snd l).
Proof. exact (xml_deep pre st h css u s' stk x). Qed.
Print Assumptions C113_deep.
(** Where the source is cut, and where expat cuts text, makes no difference except to the cuts in the text that is sent. *)
Theorem C113_recut p h css css' u s1 k1 x1 s2 k2 x2 : p <> [] -> ~ ends_deep p -> allocated h ->
  report (concat css) [u] -> is_element u -> recut (concat css) (concat css') ->
  xparses [p] (new_xsender h [p]) css (s1, k1) x1 -> xparses [p] (new_xsender h [p]) css' (s2, k2) x2 ->
  x1 = None /\ x2 = None /\ exists ts1 ts2, sent_since (new_sender h [p]) s1 0 ts1 /\ sent_since (new_sender h [p]) s2 0 ts2 /\
    map joined ts1 = map joined ts2 /\ map xml_value ts1 = map xml_value ts2.
Proof. exact (xml_recut p h css css' u s1 k1 x1 s2 k2 x2). Qed.
Print Assumptions C113_recut.
(** A source that stops early *)
Theorem C113_prefix p h css more u s' stk x : p <> [] -> ~ ends_deep p -> allocated h -> report (concat css ++ more) [u] -> is_element u ->
  xparses [p] (new_xsender h [p]) css (s', stk) x ->
  x = None /\ exists ts, sent_since (new_sender h [p]) s' 0 ts /\
  forall s1 stk1 x1, xparses [p] (new_xsender h [p]) (css ++ [more]) (s1, stk1) x1 -> exists ts', sent_since (new_sender h [p]) s1 0 (ts ++ ts').
Proof. exact (xml_prefix p h css more u s' stk x). Qed.
Print Assumptions C113_prefix.
Theorem C113_runs ps css s : exists s' x, xparses ps s css s' x.
Proof. exact (xml_exists ps css s). Qed.
Print Assumptions C113_runs.
(** [<a xmlns="u"><b>12</b><c/></a>], whole, and cut inside the text *)
Definition inu (n : string) : qname := (Some (lit "u"), lit n).
Definition st (n : string) : cb := CbStart (expanded (inu n)) [].
Definition en (n : string) : cb := CbEnd (expanded (inu n)).
Definition whole : list (list cb) := [[CbNamespace; st "a"; st "b"; CbChars (lit "12"); en "b"; st "c"; en "c"; en "a"; CbNamespace]].
Definition cuts : list (list cb) := [[CbNamespace; st "a"; st "b"; CbChars (lit "1")]; [CbChars (lit "2"); en "b"]; [st "c"; en "c"; en "a"; CbNamespace]].
Ltac unspaced_tac := split; [discriminate|intros c Hc; cbn in Hc; repeat destruct Hc as [<-|Hc]; try reflexivity; destruct Hc].
Ltac good_tac := split; cbn [fst snd]; try exact I; unspaced_tac.
Lemma small n cs0 ks0 cs ks : good_name (inu n) -> report cs0 ks0 -> report cs ks -> report (st n :: cs0 ++ en n :: cs) (XE (lit n) [] ks0 :: ks).
Proof. intros G R0 R. refine (rp_elem (inu n) [] [] cs0 ks0 cs ks G _ _ R0 R); [constructor|apply (collapsed_distinct []); constructor]. Qed.
Example C113_case :
  report (concat whole) [XE (lit "a") [] [XE (lit "b") [] [XT (lit "12")]; XE (lit "c") [] []]] /\ recut (concat whole) (concat cuts) /\
  report (concat cuts) [XE (lit "a") [] [XE (lit "b") [] [XT (lit "1"); XT (lit "2")]; XE (lit "c") [] []]] /\
  (exists s', xparses [[StName (lit "a"); StName (lit "b")]] (new_xsender empty_heap [[StName (lit "a"); StName (lit "b")]]) cuts (s', []) None /\
     map (fun x => map (hp (snd x)) [0; 1; 2]) (tsent s') =
       [[Some (OElem (lit "b") [] [1; 2] None); Some (OText (lit "1") (Some 0)); Some (OText (lit "2") (Some 0))]]).
Proof.
  assert (GA : good_name (inu "a")) by good_tac. assert (GB : good_name (inu "b")) by good_tac. assert (GC : good_name (inu "c")) by good_tac.
  split; [|split; [|split]].
  - apply rp_ns. refine (small "a" [_; _; _; _; _] _ [_] _ GA _ (rp_ns _ _ rp_nil)).
    refine (small "b" [_] _ [_; _] _ GB (rp_text _ _ _ rp_nil) _). exact (small "c" [] [] [] [] GC rp_nil rp_nil).
  - exact (rc_cut [CbNamespace; st "a"; st "b"] (lit "1") (lit "2") [en "b"; st "c"; en "c"; en "a"; CbNamespace]).
  - apply rp_ns. refine (small "a" [_; _; _; _; _; _] _ [_] _ GA _ (rp_ns _ _ rp_nil)).
    refine (small "b" [_; _] _ [_; _] _ GB (rp_text _ _ _ (rp_text _ _ _ rp_nil)) _). exact (small "c" [] [] [] [] GC rp_nil rp_nil).
  - set (p := [StName (lit "a"); StName (lit "b")]).
    set (s0 := new_handler (new_sender empty_heap [p])).
    set (s1 := handle1 (stateses [p]) s0 (fst (callbacks [] (nth 0 cuts [])))).
    set (s2 := handle1 (stateses [p]) (fst s1) (fst (callbacks [lit "a"; lit "b"] (nth 1 cuts [])))).
    set (s3 := handle1 (stateses [p]) (fst s2) (fst (callbacks [lit "a"] (nth 2 cuts [])))).
    exists (fst s3). split; [|vm_compute; reflexivity].
    assert (Q : forall s k cs evs k' r, callbacks k cs = (evs, Some k') -> handle1 (stateses [p]) s evs = r -> snd r = None -> xparse [p] (s, k) cs (fst r, k') None).
    { intros s k cs evs k' r E H N. apply (xq_ok [p] s k cs evs k' (fst r) E). rewrite <- N, <- H. apply handle1_ok. }
    refine (xs_cons _ _ _ _ _ _ _ (Q s0 [] (nth 0 cuts []) _ [lit "a"; lit "b"] s1 _ eq_refl _) _); [vm_compute; reflexivity|vm_compute; reflexivity|].
    refine (xs_cons _ _ _ _ _ _ _ (Q (fst s1) _ (nth 1 cuts []) _ [lit "a"] s2 _ eq_refl _) _); [vm_compute; reflexivity|vm_compute; reflexivity|].
    refine (xs_cons _ _ _ _ _ _ _ (Q (fst s2) _ (nth 2 cuts []) _ [] s3 _ eq_refl _) (xs_nil _ _)); vm_compute; reflexivity.
Qed.

(** ** C114 *)
Theorem C114_exact p t l1 a v l2 : no_deep p -> p <> [] ->
  listing t (fun a u => is_element u /\ matches p (path_names t a)) (l1 ++ (a, v) :: l2) -> sent_at_end p t l1 a v.
Proof. exact (timely_exact p t l1 a v l2). Qed.
Print Assumptions C114_exact.
Theorem C114_deep pre st t l1 a v l2 : no_deep pre -> st <> StDeep -> is_element t -> listing t (outermost (pre ++ [StDeep; st]) t) (l1 ++ (a, v) :: l2) ->
  sent_at_end (pre ++ [StDeep; st]) t l1 a v.
Proof. exact (timely_deep pre st t l1 a v l2). Qed.
Print Assumptions C114_deep.
(** The second of two: sent with its end tag, although the document goes on. *)
Definition doc2 : xtree := XE (lit "a") [] [XE (lit "b") [] [XT (lit "1")]; XT (lit "x"); XE (lit "b") [] [XE (lit "d") [] []]; XE (lit "c") [] []].
Example C114_case : let p := [StName (lit "a"); StName (lit "b")] in
  listing doc2 (fun a u => is_element u /\ matches p (path_names doc2 a)) ([([0], XE (lit "b") [] [XT (lit "1")])] ++ ([2], XE (lit "b") [] [XE (lit "d") [] []]) :: []) /\
  events_before [] doc2 [2] = [EvStart (lit "a") [] []; EvStart (lit "b") [] [lit "a"]; EvChars (lit "1"); EvEnd (lit "b") [lit "a"]; EvChars (lit "x")] /\
  map (fun k => length (tsent (fst (handle1 (stateses [p]) (new_handler (new_sender empty_heap [p])) (firstn k (doc_events doc2)))))) (seq 0 12) =
    [0; 0; 0; 0; 1; 1; 1; 1; 1; 2; 2; 2].
Proof.
  intros p. split; [|split; vm_compute; reflexivity].
  assert (D : no_deep p) by (intros Hx; cbn in Hx; repeat destruct Hx as [Hx|Hx]; try discriminate; auto).
  pose proof (exact_found p doc2 D ltac:(discriminate)) as L. vm_compute in L. vm_compute. exact L.
Qed.
