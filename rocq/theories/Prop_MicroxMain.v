(** Theorems about the sources and the command line of exec/microx. *)
From Coq Require Import Permutation.
From Verif Require Import PyStr Parser XTree Tree Heap HeapSpec Builder Expat ExpatSpec ExpatFacts Path Pattern PatternSpec TreeIter TreeIterSpec.
From Verif Require Import XPath XPathSpec XGram XLex XLexSpec XLexFacts XQuery XQueryFacts XPaths Microx MicroxSpec MicroxMain MicroxMainSpec MicroxMainFacts MicroxPart MicroxUse.

(** Documents and environments of the examples *)
Definition env0 : lexenv := mkLx (fun _ => None) (fun _ => FFin 0 0).
Definition floats (_ : str) : option flt := None.
Definition shown_float (_ : flt) : str := [].
Definition bare (n : string) : str := lit n.
Definition el (n : string) (cs : list cb) : list cb := CbStart (bare n) [] :: cs ++ [CbEnd (bare n)].
Lemma report_app cs ks cs' ks' : report cs ks -> report cs' ks' -> report (cs ++ cs') (ks ++ ks').
Proof.
  intros H H'. induction H as [|cs ks H IH|s cs ks H IH|q ats d cs0 ks0 cs ks Q A C H0 IH0 H IH]; [exact H'|apply rp_ns, IH|apply rp_text, IH|].
  cbn [app]. rewrite <- app_assoc. cbn [app]. now apply rp_elem.
Qed.
Lemma report_el n cs ks : good_name (None, lit n) -> report cs ks -> report (el n cs) [XE (lit n) [] ks].
Proof. intros G H. apply (rp_elem (None, lit n) [] [] cs ks [] [] G (Forall_nil _)); [apply (collapsed_distinct []); constructor|exact H|constructor]. Qed.
Lemma start_allocated : allocated empty_heap. Proof. intros j o H. discriminate. Qed.
Definition with_expr (s : string) : options := mkO (Some (lit s)) None None None None None None.
Definition with_match (s : string) : options := mkO None (Some (lit s)) None None None None None.
Definition with_find (s at_ : string) : options := mkO None None (Some (lit s)) None None None (Some (lit at_)).
Definition with_parts (s p : string) : options := mkO (Some (lit s)) None None None (Some (lit p)) None None.
Ltac unspaced_tac := split; [discriminate|intros c Hc; cbn in Hc; repeat destruct Hc as [<-|Hc]; try reflexivity; destruct Hc].
Ltac good_tac := split; cbn [fst snd]; try exact I; unspaced_tac.
(** <a><b>x</b><c><b/></c></a>, <b/> *)
Definition src1 : list cb := el "a" (el "b" [CbChars (lit "x")] ++ el "c" (el "b" [])).
Definition doc1 : xtree := XE (lit "a") [] [XE (lit "b") [] [XT (lit "x")]; XE (lit "c") [] [XE (lit "b") [] []]].
Definition src2 : list cb := el "b" [].
Definition doc2 : xtree := XE (lit "b") [] [].
Lemma src1_doc : report src1 [doc1].
Proof.
  apply report_el; [good_tac|]. apply (report_app _ [_] _ [_]); (apply report_el; [good_tac|]); [apply rp_text, rp_nil|]. apply report_el; [good_tac|constructor].
Qed.
Lemma src2_doc : report src2 [doc2].
Proof. apply report_el; [good_tac|constructor]. Qed.
Lemma asks_expr s e a : lit s <> [] -> o_expr a = Some (lit s) -> o_match a = None -> o_find_text a = None -> o_foreach a = None ->
  uxpath_parse env0 (lit s) = inl e -> asks env0 a (CmdExpr e) None.
Proof. intros N E1 E2 E3 E4 P. apply (as_expr env0 a (lit s)); [exact N|exact E1|left; exact E2|left; exact E3|apply uxpath_parse_ok; exact P|left; split; [left; exact E4|reflexivity]]. Qed.

(** ** C107 *)
(** Finding: all sources are read with one builder, which keeps the first document; its results are printed once per source. *)
Theorem C107_sources v tf fs n h a c fe sh cs t srcs o : asks v a c fe -> shows a sh -> absent (o_partition a) -> report cs [t] -> is_element t -> allocated h ->
  Forall (fun cs => exists ks, report cs ks) srcs ->
  microx v tf fs n h a (cs :: srcs) o <-> in_turn (fun _ => run (world v [] tf fs t) n c fe (o_limit a) sh) (cs :: srcs) o.
Proof. intros A S P R T H W. exact (microx_sources v tf fs n h a c fe sh cs t srcs o A S P R T H (report_well srcs W)). Qed.
Print Assumptions C107_sources.
(** One source: what the command prints for its document. *)
Theorem C107_one v tf fs n h a c fe sh cs t o : asks v a c fe -> shows a sh -> absent (o_partition a) -> report cs [t] -> is_element t -> allocated h ->
  microx v tf fs n h a [cs] o <-> o = run (world v [] tf fs t) n c fe (o_limit a) sh.
Proof. intros A S P R T H. apply shows_attrs in S. subst sh. exact (one_source v tf fs n h a c fe cs t o A P R T H). Qed.
Print Assumptions C107_one.
(** So the results of the second document are not printed. *)
Theorem C107_refuted : exists v tf fs n h a c fe cs t cs' t' o, asks v a c fe /\ shows a [] /\ absent (o_partition a) /\ report cs [t] /\ report cs' [t'] /\ is_element t /\ is_element t' /\ allocated h /\
  microx v tf fs n h a [cs; cs'] o /\ ~ in_turn (fun u => run (world v [] tf fs u) n c fe (o_limit a) []) [t; t'] o.
Proof.
  exists env0, floats, shown_float, 3, empty_heap, (with_expr "/b"), (CmdExpr (EAbs false (Some (EStep AxChild (TName (lit "b")))))), None, src1, doc1, src2, doc2, ([], Done).
  assert (A : asks env0 (with_expr "/b") (CmdExpr (EAbs false (Some (EStep AxChild (TName (lit "b")))))) None) by (apply (asks_expr "/b"); [discriminate|reflexivity..|vm_compute; reflexivity]).
  split; [exact A|]. split; [left; split; [left; reflexivity|reflexivity]|]. split; [left; reflexivity|]. split; [exact src1_doc|]. split; [exact src2_doc|].
  split; [do 3 eexists; reflexivity|]. split; [do 3 eexists; reflexivity|]. split; [exact start_allocated|]. split.
  - refine (proj2 (C107_sources _ _ _ _ _ _ _ _ [] _ doc1 _ _ A _ _ src1_doc _ start_allocated _) _).
    + left; split; [left; reflexivity|reflexivity].
    + left; reflexivity.
    + do 3 eexists; reflexivity.
    + constructor; [exists [doc2]; exact src2_doc|constructor].
    + apply (it_ok _ _ _ [] [] Done); [vm_compute; reflexivity|]. apply (it_ok _ _ _ [] [] Done); [vm_compute; reflexivity|constructor].
  - intros I. inversion I as [|x l ls ls' f E I'|x l ls f E E']; subst.
    + inversion I' as [|x l ms ms' f' E' I''|x l ms f' E' N']; subst; vm_compute in E'; inversion E'; subst; destruct ls; discriminate.
    + congruence.
Qed.
Print Assumptions C107_refuted.

(** ** C108 *)
(** --partition: in every source the elements of that name that are not inside another one are the documents. *)
Theorem C108_parts v tf fs n h a c fe sh p srcs us : asks v a c fe -> shows a sh -> o_partition a = Some p -> p <> [] -> p <> lit "*" -> p <> lit "**" ->
  Forall2 (fun cs u => report cs [u] /\ is_element u) srcs us ->
  exists ls, Forall2 (fun t l => listing t (fun b u => (exists at_ ks, u = XE p at_ ks) /\ forall b' at_ ks, above b' b -> subtree t b' <> Some (XE p at_ ks)) l) us ls /\
    forall o, microx v tf fs n h a srcs o <-> in_turn (fun t => run (world v [] tf fs t) n c fe (o_limit a) sh) (map snd (concat ls)) o.
Proof.
  intros A S P N1 N2 N3 F. destruct (microx_parts v tf fs n h a c fe sh p srcs us A S P N1 N2 N3 F) as (ls & L & H). exists ls. split; [|exact H].
  clear - L. induction L as [|u l us ls L _ IH]; constructor; [apply listing_named, L|exact IH].
Qed.
Print Assumptions C108_parts.
(** With '*' the documents are the sources; with '**' the first source ends the program. *)
Theorem C108_star v tf fs n h a c fe sh srcs us : asks v a c fe -> shows a sh -> o_partition a = Some (lit "*") ->
  Forall2 (fun cs u => report cs [u] /\ is_element u) srcs us ->
  forall o, microx v tf fs n h a srcs o <-> in_turn (fun t => run (world v [] tf fs t) n c fe (o_limit a) sh) us o.
Proof. exact (microx_star v tf fs n h a c fe sh srcs us). Qed.
Print Assumptions C108_star.
Theorem C108_deep v tf fs n h a c fe cs u srcs : asks v a c fe -> o_partition a = Some (lit "**") -> report cs [u] -> is_element u ->
  forall o, microx v tf fs n h a (cs :: srcs) o <-> o = ([], Exn TypeErr).
Proof. exact (microx_deep v tf fs n h a c fe cs u srcs). Qed.
Print Assumptions C108_deep.
Example C108_star_case : exists e, asks env0 (with_parts "b/text()" "*") (CmdExpr e) None /\ asks env0 (with_parts "b/text()" "**") (CmdExpr e) None /\ report src1 [doc1] /\ is_element doc1.
Proof.
  eexists. split; [apply (asks_expr "b/text()"); [discriminate|reflexivity..|vm_compute; reflexivity]|].
  split; [apply (asks_expr "b/text()"); [discriminate|reflexivity..|vm_compute; reflexivity]|]. split; [exact src1_doc|do 3 eexists; reflexivity].
Qed.
Example C108_case : let a := with_parts "b/text()" "b" in exists e, asks env0 a (CmdExpr e) None /\ shows a [] /\
  Forall2 (fun cs u => report cs [u] /\ is_element u) [src1; src2] [doc1; doc2] /\
  run (world env0 [] floats shown_float (XE (lit "b") [] [XT (lit "x")])) 3 (CmdExpr e) None None [] = ([lit "x"], Done).
Proof.
  cbv zeta. eexists. split; [apply (asks_expr "b/text()"); [discriminate|reflexivity..|vm_compute; reflexivity]|]. split; [left; split; [left; reflexivity|reflexivity]|].
  split; [|vm_compute; reflexivity]. constructor; [split; [exact src1_doc|do 3 eexists; reflexivity]|]. constructor; [split; [exact src2_doc|do 3 eexists; reflexivity]|constructor].
Qed.

(** ** C109 *)
(** Not exactly one command: nothing is printed. *)
Theorem C109_commands v tf fs n h a srcs o : how_many a <> 1 -> microx v tf fs n h a srcs o <-> o = ([], Exn ValueErr).
Proof. exact (microx_commands v tf fs n h a srcs o). Qed.
Print Assumptions C109_commands.
(** An expression that cannot be read ends the program before any source is opened. *)
Theorem C109_syntax v tf fs n h a srcs : how_many a = 1 -> (forall c fe, ~ asks v a c fe) ->
  exists x, (x = RuntimeErr \/ x = TypeErr) /\ forall o, microx v tf fs n h a srcs o <-> o = ([], Exn x).
Proof. exact (microx_syntax v tf fs n h a srcs). Qed.
Print Assumptions C109_syntax.
(** A path of names prints these elements. *)
Theorem C109_path v tf fs k h a cs t n ns s : report cs [t] -> is_element t -> allocated h -> XLexSpec.name n -> Forall XLexSpec.name ns ->
  s = slash_names (n :: ns) \/ s = n ++ slash_names ns -> only_expr a s ->
  exists l, listing t (fun b u => is_element u /\ path_names t b = n :: ns) l /\
    forall o, microx v tf fs k h a [cs] o <-> o = (map (fun x => xml_encode (snd x)) l, Done).
Proof. exact (expr_path v tf fs k h a cs t n ns s). Qed.
Print Assumptions C109_path.
(** //n prints each element of that name once. *)
Theorem C109_anywhere v tf fs k h a cs t n : report cs [t] -> is_element t -> (forall b s, subtree t b = Some (XT s) -> s <> []) -> allocated h -> XLexSpec.name n -> only_expr a (lit "//" ++ n) ->
  exists l out, listing t (fun _ u => exists at_ ks, u = XE n at_ ks) l /\ Permutation out l /\
    forall o, microx v tf fs k h a [cs] o <-> o = (map (fun x => xml_encode (snd x)) out, Done).
Proof. exact (expr_anywhere v tf fs k h a cs t n). Qed.
Print Assumptions C109_anywhere.
(** Finding: --match n prints the children of that name of every element, so never the document element. *)
Theorem C109_match v tf fs k h a cs t n : report cs [t] -> is_element t -> allocated h -> XLexSpec.name n -> only_match a n ->
  exists l, listing t (fun _ u => is_element u) l /\ forall q : xtree -> bool, (forall u, q u = true <-> exists at_ ks, u = XE n at_ ks) ->
    forall o, microx v tf fs k h a [cs] o <-> o = (flat_map (fun x => map xml_encode (filter q (kids_of (snd x)))) l, Done).
Proof. exact (match_name v tf fs k h a cs t n). Qed.
Print Assumptions C109_match.
(** --find-text *)
Theorem C109_find v tf fs k h a cs t s sh : report cs [t] -> is_element t -> allocated h -> s <> [] -> only_find a s -> shows a sh ->
  exists l, listing t (fun _ u => is_element u) l /\ forall q : str -> bool, (forall x, q x = true <-> contains x s) ->
    forall o, microx v tf fs k h a [cs] o <->
      o = (flat_map (fun x => repeat (xpath_to (world v [] tf fs t) sh (fst x)) (length (filter (fun y => match y with XT x => q x | XE _ _ _ => false end) (kids_of (snd x))))) l, Done).
Proof. exact (find_text v tf fs k h a cs t s sh). Qed.
Print Assumptions C109_find.
Example C109_case : how_many (mkO (Some (lit "a")) (Some (lit "b")) None None None None None) <> 1 /\ how_many (mkO (Some []) None None None None None None) <> 1 /\
  (how_many (with_expr "a//") = 1 /\ forall c fe, ~ asks env0 (with_expr "a//") c fe) /\
  only_expr (with_expr "/a/c/b") (slash_names [lit "a"; lit "c"; lit "b"]) /\ only_expr (with_expr "//b") (lit "//" ++ lit "b") /\ only_match (with_match "b") (lit "b") /\
  only_find (with_find "x" "id,n") (lit "x") /\ shows (with_find "x" "id,n") [lit "id"; lit "n"] /\
  (forall b s, subtree doc1 b = Some (XT s) -> s <> []) /\ XLexSpec.name (lit "b").
Proof.
  split; [discriminate|]. split; [discriminate|]. split.
  { split; [reflexivity|]. intros c fe A. inversion A as [s e fe' N E1 E2 E3 X I|s e fe' N E1 E2 E3 X I|s fe' N E1 E2 E3 I]; subst; try discriminate.
    injection E1 as <-. apply uxpath_parse_ok in X. vm_compute in X. discriminate. }
  assert (H : forall s : string, absent None) by (left; reflexivity).
  split; [repeat split; left; reflexivity|]. split; [repeat split; left; reflexivity|]. split; [repeat split; left; reflexivity|]. split; [repeat split; left; reflexivity|].
  split; [right; do 2 eexists; split; [reflexivity|]; apply (cp_more (lit "id") (lit "n") [lit "n"]); [intros Hx; cbn in Hx; intuition discriminate|apply cp_last; intros Hx; cbn in Hx; intuition discriminate]|].
  split.
  - intros b s E ->. destruct b as [|[|[|i]] [|[|j] [|[|] [|]]]]; try discriminate E; cbn in E; try (destruct j; discriminate E); try (destruct i; discriminate E).
    all: repeat match type of E with context [nth_error _ ?x] => destruct x; try discriminate E; cbn in E end.
  - exists (lit "b"), []. split; [reflexivity|]. split; [now apply start_char_iff|constructor].
Qed.
