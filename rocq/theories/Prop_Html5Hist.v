(** Theorems about whole histories of html5lib's calls, and about microx with --html and --lax. *)
From Verif Require Import PyStr Parser XTree Heap HeapSpec HeapFacts Builder BuilderFacts Expat Html5 Html5Facts Html5Hist Html5HistSpec Html5HistFacts.
From Verif Require Import XPath XGram XLex XLexSpec XQuery XQueryFacts Microx MicroxSpec MicroxMain MicroxMainSpec MicroxHtml MicroxHtmlSpec MicroxHtmlFacts.

(** ** C115 *)
(** Whatever html5lib does, the nodes stay a forest. *)
Theorem C115_forest h h' : hsteps h h' -> forest h -> forest h'.
Proof. exact (hsteps_forest h h'). Qed.
Print Assumptions C115_forest.
Theorem C115_start h : hsteps empty_heap h -> forest h.
Proof. exact (fun H => hsteps_forest empty_heap h H empty_forest). Qed.
Print Assumptions C115_start.
(** Every child is a node that knows its parent, is in no other list and does not contain its parent. *)
Theorem C115_child h p i : hsteps empty_heap h -> child h p i -> parent_is h i (Some p) /\ (forall q, child h q i -> q = p) /\ ~ below h i p.
Proof. intros H. exact (forest_child h p i (C115_start h H)). Qed.
Print Assumptions C115_child.
(** A node without parent is the root of one finite tree. *)
Theorem C115_document h i : hsteps empty_heap h -> parent_is h i None -> exists t, holds_tree h i t /\ forall t', holds_tree h i t' -> t' = t.
Proof. intros H. exact (forest_document h i (C115_start h H)). Qed.
Print Assumptions C115_document.
(** parse_lax_xml gives a document: the subtree that was the first child of the body. *)
Theorem C115_lax h t h' top : hsteps empty_heap h -> parse_lax h (Some t) = LaxOk h' top ->
  forest h' /\ exists u p ids, holds h p top u ids /\ holds_tree h' top u.
Proof. intros H. exact (forest_lax h t h' top (C115_start h H)). Qed.
Print Assumptions C115_lax.
(** A history: <a><b>x</b></a> in a body; b is taken out, cloned, its children go to the clone, which is put in its place after a comment. *)
Definition new (h : heap) (n : string) : heap := fst (alloc h (OElem (lit n) [] [] None)).
Definition result (r : edit_res) : heap := match r with EOk h => h | EExn h _ => h end.
Definition h0 : heap := new (new (new (new (new empty_heap "html") "head") "body") "a") "b".
Definition h1 : heap := result (h_appendChild (result (h_appendChild h0 0 (HRef 1))) 0 (HRef 2)).
Definition h2 : heap := result (h_appendChild (result (h_appendChild h1 2 (HRef 3))) 3 (HRef 4)).
Definition h3 : heap := result (h_insertText h2 4 (lit "x") None).
Definition h4 : heap := result (h_removeChild h3 3 (HRef 4)).
Definition h5 : heap := match h_cloneNode h4 4 with Some (h, _) => h | None => h4 end.
Definition h6 : heap := result (h_reparentChildren h5 4 6).
Definition h7 : heap := result (h_appendChild h6 3 (HComment (lit "c"))).
Definition h8 : heap := result (h_appendChild h7 3 (HRef 6)).
Definition without (k : ref) (h : heap) : heap := mkH (fun j => if Nat.eqb j k then None else hp h j) (nxt h).
Definition h9 : heap := without 4 h8.
Definition tree9 : xtree := XE (lit "html") [] [XE (lit "head") [] []; XE (lit "body") [] [XE (lit "a") [] [XT []; XE (lit "b") [] [XT (lit "x")]]]].
Lemma history_snoc h h1 h2 : hsteps h h1 -> hstep h1 h2 -> hsteps h h2.
Proof. induction 1; intros S; econstructor; eauto. constructor. Qed.
Lemma step_append h self i n a ks h' : hsteps empty_heap h -> hp h i = Some (OElem n a ks None) -> i <> self ->
  (forall k, In k ks -> k <> self /\ exists s p, hp h k = Some (OText s p)) -> h_appendChild h self (HRef i) = EOk h' -> hsteps empty_heap h'.
Proof.
  intros S E N K H. eapply history_snoc; [exact S|]. apply C115_start in S as F. apply (hs_append h self (HRef i) h'); [|exact H]. intros _. split.
  - intros q C. destruct F as (_ & Hl & _). apply Hl in C as (o & Ho & Hp). rewrite E in Ho. injection Ho as <-. discriminate.
  - intros B. destruct (below_first h i self B) as [->|(k & (o & Ho & Hk) & B')]; [congruence|]. rewrite E in Ho. injection Ho as <-. destruct (K k Hk) as (Nk & s & p & Ek).
    destruct (below_first h k self B') as [->|(k' & (o & Ho & Hk') & _)]; [congruence|]. rewrite Ek in Ho. injection Ho as <-. destruct Hk'.
Qed.
Lemma hist0 : hsteps empty_heap h0.
Proof.
  unfold h0. eapply history_snoc; [|exact (hs_new _ false (Some (lit "b")) None)]. eapply history_snoc; [|exact (hs_new _ false (Some (lit "a")) None)].
  eapply history_snoc; [|exact (hs_new _ false (Some (lit "body")) None)]. eapply history_snoc; [|exact (hs_new _ false (Some (lit "head")) None)].
  eapply history_snoc; [constructor|exact (hs_new _ false (Some (lit "html")) None)].
Qed.
Lemma ok_result r : match r with EOk _ => true | EExn _ _ => false end = true -> r = EOk (result r).
Proof. destruct r; [reflexivity|discriminate]. Qed.
Ltac go_tac := vm_compute; reflexivity.
Ltac look H := match type of H with ?l = _ => let v := eval vm_compute in l in let E := fresh in assert (E : l = v) by go_tac; rewrite E in H; clear E end.
Ltac ok_tac := apply ok_result; go_tac.
Lemma hist2 : hsteps empty_heap h2.
Proof.
  assert (A : hsteps empty_heap (result (h_appendChild h0 0 (HRef 1)))) by (eapply (step_append h0 0 1); [exact hist0|go_tac|discriminate|intros k []|ok_tac]).
  assert (B : hsteps empty_heap h1) by (eapply (step_append _ 0 2); [exact A|go_tac|discriminate|intros k []|ok_tac]).
  assert (C : hsteps empty_heap (result (h_appendChild h1 2 (HRef 3)))) by (eapply (step_append h1 2 3); [exact B|go_tac|discriminate|intros k []|ok_tac]).
  eapply (step_append _ 3 4); [exact C|go_tac|discriminate|intros k []|ok_tac].
Qed.
Lemma clone5 : h_cloneNode h4 4 = Some (h5, 6).
Proof. unfold h5. assert (E : option_map snd (h_cloneNode h4 4) = Some 6) by go_tac. destruct (h_cloneNode h4 4) as [(h & j)|]; [injection E as ->; reflexivity|discriminate]. Qed.
Lemma hist7 : hsteps empty_heap h7.
Proof.
  eapply history_snoc; [|apply (hs_append h6 3 (HComment (lit "c")) h7 I); ok_tac].
  eapply history_snoc; [|apply (hs_reparent h5 4 6 h6); [|ok_tac]].
  - eapply history_snoc; [|apply (hs_clone h4 4 h5 6); exact clone5]. eapply history_snoc; [|apply (hs_remove h3 3 (HRef 4) h4); ok_tac].
    eapply history_snoc; [exact hist2|apply (hs_text h2 4 (lit "x") None); ok_tac].
  - intros B. destruct (below_first _ _ _ B) as [E|(k & (o & Ho & Hk) & B')]; [discriminate E|]. look Ho. injection Ho as <-. destruct Hk as [<-|[]].
    destruct (below_first _ _ _ B') as [E|(k & (o & Ho & Hk) & _)]; [discriminate E|]. look Ho. injection Ho as <-. destruct Hk.
Qed.
Lemma hist8 : hsteps empty_heap h8.
Proof. eapply (step_append h7 3 6); [exact hist7|go_tac|discriminate| |ok_tac]. intros k [<-|[]]. split; [discriminate|]. do 2 eexists. go_tac. Qed.
Lemma without_hp k h i : hp (without k h) i = if Nat.eqb i k then None else hp h i.
Proof. reflexivity. Qed.
Lemma without_some k h i o : hp (without k h) i = Some o -> hp h i = Some o.
Proof. rewrite without_hp. destruct (Nat.eqb i k); [discriminate|auto]. Qed.
Lemma without_gone k h : (forall p i, child (without k h) p i -> exists o, hp (without k h) i = Some o) -> Html5Hist.collected h (without k h).
Proof. intros H. split; [reflexivity|]. split; [|exact H]. intros i. rewrite without_hp. destruct (Nat.eqb i k); auto. Qed.
Lemma hist9 : hsteps empty_heap h9.
Proof.
  eapply history_snoc; [exact hist8|apply (hs_gone h8 h9), without_gone].
  intros p i (o & Ho & Hi). assert (P : p < 9).
  { assert (E : nxt h8 = 9) by go_tac. destruct (C115_start _ hist8) as (A & _). apply without_some, A in Ho. rewrite E in Ho. exact Ho. }
  do 9 (destruct p as [|p]; [look Ho; try discriminate Ho; injection Ho as <-; cbn in Hi; repeat destruct Hi as [<-|Hi]; try destruct Hi; eexists; go_tac|]).
  exfalso. clear - P. lia.
Qed.
Ltac holds_tac := repeat (first [eapply hd_elem; [go_tac|] | eapply hd_text; go_tac | eapply ha_cons | eapply ha_nil]).
Example C115_case : hsteps empty_heap h9 /\ holds_tree h9 0 tree9 /\ exists h', parse_lax h9 (Some 0) = LaxOk h' 3 /\ holds_tree h' 3 (XE (lit "a") [] [XT []; XE (lit "b") [] [XT (lit "x")]]).
Proof.
  split; [exact hist9|]. split; [eexists; split; [holds_tac|vm_compute; repeat constructor; cbn; intuition discriminate]|].
  exists (match parse_lax h9 (Some 0) with LaxOk h _ => h | _ => h9 end).
  split; [|eexists; split; [holds_tac|vm_compute; repeat constructor; cbn; intuition discriminate]].
  assert (E : match parse_lax h9 (Some 0) with LaxOk _ j => j | _ => 0 end = 3) by go_tac. destruct (parse_lax h9 (Some 0)); try discriminate. rewrite E. reflexivity.
Qed.

(** ** C116 *)
(** --html, with or without --lax: every source's document is processed in turn, unlike C107. *)
Theorem C116_html v tf fs n h a c fe sh lax srcs ts : asks v a c fe -> shows a sh -> absent (o_partition a) -> Forall2 html_doc srcs ts ->
  forall o, microx_flags v tf fs n h a true lax srcs o <-> exists ls f, in_turn (fun t => run (world v [] tf fs t) n c fe (o_limit a) sh) ts (ls, f) /\ o = (ls, HEnd f).
Proof. exact (html_flag v tf fs n h a c fe sh lax srcs ts). Qed.
Print Assumptions C116_html.
(** --lax: the document is the first node of the body; if it is a text, --expr fails. *)
Theorem C116_lax v tf fs n h a c fe sh srcs us : asks v a c fe -> shows a sh -> absent (o_partition a) -> Forall2 lax_doc srcs us ->
  forall o, microx_flags v tf fs n h a false true srcs o <->
    exists ls f, in_turn (fun u => match u, c with XT _, CmdExpr _ => ([], Exn AssertionErr) | _, _ => run (world v [] tf fs u) n c fe (o_limit a) sh end) us (ls, f) /\ o = (ls, HEnd f).
Proof. intros A S P D o. exact (lax_flag v tf fs n h a c fe sh srcs us o A S P D). Qed.
Print Assumptions C116_lax.
(** Finding: a source without anything in its body ends the program with an IndexError; the sources after it are not looked at. *)
Theorem C116_empty v tf fs n h a c fe sh srcs us s rest : asks v a c fe -> shows a sh -> absent (o_partition a) -> Forall2 lax_doc srcs us -> lax_empty s ->
  forall ls, in_turn (fun u => match u, c with XT _, CmdExpr _ => ([], Exn AssertionErr) | _, _ => run (world v [] tf fs u) n c fe (o_limit a) sh end) us (ls, Done) ->
  forall o, microx_flags v tf fs n h a false true (srcs ++ s :: rest) o <-> o = (ls, HIndexError).
Proof.
  intros A S P D X ls I o. rewrite (lax_flag_empty v tf fs n h a c fe sh srcs us s rest o A S P D X). split.
  - intros (ls' & f & I' & ->). pose proof (MicroxFacts.in_turn_fun _ _ _ _ I I') as E. injection E as <- <-. reflexivity.
  - intros ->. exists ls, Done. split; [exact I|reflexivity].
Qed.
Print Assumptions C116_empty.
(** Finding: with --partition the two flags do nothing: the sources are read as XML. *)
Theorem C116_partition v tf fs n h a html lax srcs o : ~ absent (o_partition a) \/ (html = false /\ lax = false) ->
  microx_flags v tf fs n h a html lax srcs o <-> exists ls f, microx v tf fs n h a (map s_cbs srcs) (ls, f) /\ o = (ls, HEnd f).
Proof. intros C. apply flags_ignored. destruct C; auto. Qed.
Print Assumptions C116_partition.
Theorem C116_commands v tf fs n h a html lax srcs o : how_many a <> 1 -> microx_flags v tf fs n h a html lax srcs o <-> o = ([], HEnd (Exn ValueErr)).
Proof. exact (flags_commands v tf fs n h a html lax srcs o). Qed.
Print Assumptions C116_commands.
(** Two sources, <a><!--c--><b>x</b></a> and one with an empty body; //b/text() *)
Definition s1 : source := mkS [] h9 [RDoctype; RElement 0].
Definition s2 : source := mkS [] h1 [RElement 0].
Definition tree1 : xtree := XE (lit "html") [] [XE (lit "head") [] []; XE (lit "body") [] []].
Lemma s1_doc : html_doc s1 tree9.
Proof. split; [exact hist9|]. exists 0. split; [reflexivity|]. split; [exact (proj1 (proj2 C115_case))|]. do 4 eexists. go_tac. Qed.
Lemma s2_doc : html_doc s2 tree1.
Proof.
  split; [|exists 0; split; [reflexivity|]; split; [eexists; split; [holds_tac|vm_compute; repeat constructor; cbn; intuition discriminate]|do 4 eexists; go_tac]].
  eapply (step_append _ 0 2); [eapply (step_append h0 0 1); [exact hist0|go_tac|discriminate|intros k []|ok_tac]|go_tac|discriminate|intros k []|ok_tac].
Qed.
Definition lex0 : lexenv := mkLx (fun _ => None) (fun _ => FFin 0 0).
Definition opts (s : string) : options := mkO (Some (lit s)) None None None None None None.
Example C116_case : exists e, asks lex0 (opts "//b/text()") (CmdExpr e) None /\ shows (opts "//b/text()") [] /\ absent (o_partition (opts "//b/text()")) /\
  Forall2 html_doc [s2; s1] [tree1; tree9] /\ Forall2 lax_doc [s1] [XE (lit "a") [] [XT []; XE (lit "b") [] [XT (lit "x")]]] /\ lax_empty s2 /\
  (forall h, microx_flags lex0 (fun _ => None) (fun _ => []) 9 h (opts "//b/text()") true true [s2; s1] ([lit "x"], HEnd Done)) /\
  (forall h, microx_flags lex0 (fun _ => None) (fun _ => []) 9 h (opts "//b/text()") false true [s1; s2] ([lit "x"], HIndexError)).
Proof.
  let r := eval vm_compute in (uxpath_parse lex0 (lit "//b/text()")) in match r with inl ?x => exists x; assert (A : asks lex0 (opts "//b/text()") (CmdExpr x) None) end.
  { apply (as_expr lex0 _ (lit "//b/text()")); [discriminate|reflexivity|left; reflexivity|left; reflexivity|apply uxpath_parse_ok; vm_compute; reflexivity|left; split; [left; reflexivity|reflexivity]]. }
  assert (S : shows (opts "//b/text()") []) by (left; split; [left; reflexivity|reflexivity]).
  assert (P : absent (o_partition (opts "//b/text()"))) by (left; reflexivity).
  assert (D : Forall2 html_doc [s2; s1] [tree1; tree9]) by (constructor; [exact s2_doc|constructor; [exact s1_doc|constructor]]).
  assert (L : Forall2 lax_doc [s1] [XE (lit "a") [] [XT []; XE (lit "b") [] [XT (lit "x")]]]) by (constructor; [do 7 eexists; exact s1_doc|constructor]).
  assert (X : lax_empty s2) by (do 6 eexists; exact s2_doc).
  split; [exact A|]. split; [exact S|]. split; [exact P|]. split; [exact D|]. split; [exact L|]. split; [exact X|]. split; intros h.
  - apply (C116_html lex0 _ _ 9 h _ _ _ _ true _ _ A S P D). exists [lit "x"], Done. split; [|reflexivity]. apply (it_ok _ _ _ [] [lit "x"]); [go_tac|]. apply (it_ok _ _ _ [lit "x"] []); [go_tac|constructor].
  - apply (C116_empty lex0 _ _ 9 h _ _ _ _ _ _ s2 [] A S P L X [lit "x"]); [|reflexivity]. apply (it_ok _ _ _ [lit "x"] []); [go_tac|constructor].
Qed.
