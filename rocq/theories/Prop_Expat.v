(** Theorems about the conversion of XML 1.0 (xml.py). *)
From Verif Require Import PyStr Parser XTree ParserSpec TreeUtil Expat ExpatSpec ExpatFacts.
From Verif Require Import Heap Builder HeapSpec BuilderFacts.

(** ** C70 *)
Theorem C70_events cs u : report cs [u] -> callbacks [] cs = (doc_events u, Some []).
Proof. exact (report_document cs u). Qed.
Print Assumptions C70_events.
(** Content inside open elements *)
Theorem C70_content cs ks stk : report cs ks -> callbacks stk cs = (forest_events stk ks, Some stk).
Proof. exact (fun H => report_events cs ks H stk). Qed.
Print Assumptions C70_content.
(** A document that ends early or is malformed further on *)
Theorem C70_prefix cs1 cs2 n a ks : report (cs1 ++ cs2) [XE n a ks] -> exists evs stk rest,
  callbacks [] cs1 = (evs, Some stk) /\ doc_events (XE n a ks) = evs ++ rest /\ well_nested_prefix evs.
Proof. exact (report_prefix cs1 cs2 n a ks). Qed.
Print Assumptions C70_prefix.
Theorem C70_tree cs n a ks h s r : report cs [XE n a ks] -> allocated h -> xml_tree_parse (new_builder h) (fst (callbacks [] cs)) s r ->
  exists i, r = Some i /\ holds_tree (bheap s) i (XE n a ks).
Proof. exact (report_tree cs n a ks h s r). Qed.
Print Assumptions C70_tree.
Definition in_ns (n : string) : qname := (Some (lit "http://x"), lit n).
Ltac unspaced_tac := split; [discriminate|intros c Hc; cbn in Hc; repeat destruct Hc as [<-|Hc]; try reflexivity; destruct Hc].
Ltac good_tac := split; cbn [fst snd]; try exact I; unspaced_tac.
Example C70_case : report
  [CbNamespace; CbStart (expanded (in_ns "a")) (reported [((None, lit "x"), lit "1")]); CbChars (lit "u"); CbChars (lit "v");
   CbStart (expanded (None, lit "b")) []; CbEnd (expanded (None, lit "b")); CbEnd (expanded (in_ns "a")); CbNamespace]
  [XE (lit "a") [(lit "x", lit "1")] [XT (lit "u"); XT (lit "v"); XE (lit "b") [] []]] /\ expanded (in_ns "a") = lit "http://x a".
Proof.
  split; [|reflexivity]. apply rp_ns.
  refine (rp_elem (in_ns "a") [((None, lit "x"), lit "1")] _ [_; _; _; _] _ _ _ _ _ _ _ _); [good_tac|constructor; [good_tac|constructor]| | |apply rp_ns, rp_nil].
  - apply (collapsed_distinct [((None, lit "x"), lit "1")]). repeat constructor. intros [].
  - apply rp_text, rp_text. refine (rp_elem (None, lit "b") [] [] [] [] [] [] _ _ _ rp_nil rp_nil); [good_tac|constructor|apply (collapsed_distinct []); constructor].
Qed.

(** ** C71 *)
(** [ws] are the words of the namespace name. *)
Theorem C71_spaced ns ws l x stk : words ns ws -> unspaced l ->
  callback stk (CbStart (expanded (Some ns, l)) []) = Some ([EvStart l [] stk], stk ++ [l]) /\
  callback (stk ++ [x]) (CbEnd (expanded (Some ns, l))) =
    match ws with
    | [] => None
    | [_] => Some ([EvEnd l stk], stk)
    | _ :: w :: _ => Some ([EvEnd w stk], stk)
    end.
Proof. exact (spaced_end ns ws l x stk). Qed.
Print Assumptions C71_spaced.
Theorem C71_words s : exists ws, words s ws /\ forall ws', words s ws' -> ws' = ws.
Proof. exact (words_unique s). Qed.
Print Assumptions C71_words.
Theorem C71_distinct ats : NoDup (map (fun x => snd (fst x)) ats) -> collapsed ats (map (fun x : qname * str => (snd (fst x), snd x)) ats).
Proof. exact (collapsed_distinct ats). Qed.
Print Assumptions C71_distinct.
Theorem C71_one ats : exists d, collapsed ats d /\ forall d', collapsed ats d' -> d' = d.
Proof. exact (collapsed_one ats). Qed.
Print Assumptions C71_one.
(** The attributes of the start event *)
Theorem C71_attributes q ats d stk : good_name q -> Forall (fun x => good_name (fst x)) ats -> collapsed ats d ->
  callback stk (CbStart (expanded q) (reported ats)) = Some ([EvStart (snd q) d stk], stk ++ [snd q]).
Proof. exact (start_event q ats d stk). Qed.
Print Assumptions C71_attributes.
Theorem C71_refuted : exists ats d, NoDup (map fst (reported ats)) /\ Forall (fun x => good_name (fst x)) ats /\ collapsed ats d /\ length d < length ats.
Proof.
  exists [((None, lit "x"), lit "1"); (in_ns "x", lit "2")]. destruct (collapsed_one [((None, lit "x"), lit "1"); (in_ns "x", lit "2")]) as (d & H & _). exists d.
  split; [|split; [constructor; [good_tac|constructor; [good_tac|constructor]]|split; [exact H|]]].
  - constructor; [intros [E|[]]; discriminate|]. constructor; [intros []|constructor].
  - destruct H as [F _]. cbn in F. change [lit "x"; lit "x"] with ([lit "x"] ++ [lit "x"]) in F.
    assert (K : firsts ([] ++ [lit "x"]) ([] ++ [lit "x"])) by (apply fi_new; [constructor|intros []]).
    pose proof (firsts_fun _ _ F _ (fi_old _ _ (lit "x") K (or_introl eq_refl))) as E. rewrite <- (map_length fst), E. cbn. lia.
Qed.
Print Assumptions C71_refuted.
Example C71_case : words (lit "my ns") [lit "my"; lit "ns"] /\
  callbacks [] [CbStart (expanded (Some (lit "my ns"), lit "a")) []; CbEnd (expanded (Some (lit "my ns"), lit "a"))] = ([EvStart (lit "a") [] []; EvEnd (lit "ns") []], Some []) /\
  callbacks [] [CbStart (lit "a") [(lit "x", lit "1"); (lit "u x", lit "2")]] = ([EvStart (lit "a") [(lit "x", lit "2")] []], Some [lit "a"]).
Proof.
  split; [|split; reflexivity]. apply (wd_cons [] (lit "my") 32%N (lit "ns") [lit "ns"]); [intros ? []|unspaced_tac|reflexivity|]. apply words_one. unspaced_tac.
Qed.
