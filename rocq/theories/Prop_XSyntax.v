(** Theorems about the syntax of MicroXPath (uxpath/lexrules.py, uxpath/parserules.py, PLY's tables)
    and about queries given as texts. *)
From Verif Require Import PyStr XTree Heap HeapSpec Builder Path Pattern TreeIter TreeIterSpec ParserMore ParserClass.
From Verif Require Import PyStr XTree Grammar Parser XPath XPathSpec XPathFun Lalr XGram XGramSpec XTok XReads XCompose XLex XLexSpec XLexFacts XText XSerial XFind XQuery XQueryFacts XPaths.
From Coq Require Import Permutation.

(** Nothing but ASCII digits; all decimal fractions are zero. *)
Definition plain_env : lexenv := mkLx (fun _ => None) (fun _ => FFin 0 0).
Definition wd (s : string) : token := Word (lit s).
Definition kid (s : string) : expr := EStep AxChild (TName (lit s)).

(** ** C99 *)
(** The tables built from the productions and the precedences read exactly the declared language. *)
Theorem C99_parse l e : parse_tokens (mkI (map emb l) false) = POk e <-> reads 0 l e.
Proof. exact (parse_reads l e). Qed.
Print Assumptions C99_parse.
Theorem C99_one_reading l e e' : reads 0 l e -> reads 0 l e' -> e = e'.
Proof. exact (one_reading l e e'). Qed.
Print Assumptions C99_one_reading.
Theorem C99_error l : (forall e, ~ reads 0 l e) -> parse_tokens (mkI (map emb l) false) = PExn RuntimeErr.
Proof. exact (parse_otherwise l). Qed.
Print Assumptions C99_error.
Theorem C99_broken l : exists x, parse_tokens (mkI (map emb l) true) = PExn x /\ (x = RuntimeErr \/ x = TypeErr).
Proof. exact (parse_broken l). Qed.
Print Assumptions C99_broken.
Example C99_case : reads 0 [P Minus; wd "a"; P Slashes; wd "b"; P Bar; wd "count"; P LPar; wd "c"; P RPar; P LBrk; Int 1; P RBrk]
    (EPred (ENeg (EBin (EBin (kid "a") OpDeep (kid "b")) OpUnion (ECall (lit "count") [kid "c"]))) [ELit (LInt 1)]) /\
  (forall e, ~ reads 0 [wd "a"; P Slash; P RPar] e).
Proof.
  split.
  - apply parse_reads. vm_compute. reflexivity.
  - intros e H. apply parse_reads in H. vm_compute in H. discriminate.
Qed.

(** ** C100 *)
(** A predicate in brackets applies to all that stands before it. *)
Theorem C100_predicate l a p e : reads 0 l a -> reads 0 p e -> reads 0 (l ++ P LBrk :: p ++ [P RBrk]) (with_predicate a e).
Proof. exact (reads_predicate l a p e). Qed.
Print Assumptions C100_predicate.
(** A step continues the path at the end, if there is one, or else applies to all before it. *)
Theorem C100_step l a d ts st : reads 0 l a -> one_step true ts st -> reads 0 (l ++ sep d :: ts) (with_step a d st).
Proof. exact (reads_with_step l a d ts st). Qed.
Print Assumptions C100_step.
(** Of two operators the tighter one is applied first, and of two equally tight ones the left one. *)
Theorem C100_operators la a o1 op1 lb b o2 op2 lc c : operand la a -> operand lb b -> operand lc c -> operator o1 = Some op1 -> operator o2 = Some op2 ->
  reads 0 (la ++ o1 :: lb ++ o2 :: lc) (if strength op1 <? strength op2 then EBin a op1 (EBin b op2 c) else EBin (EBin a op1 b) op2 c).
Proof. exact (two_operators la a o1 op1 lb b o2 op2 lc c). Qed.
Print Assumptions C100_operators.
Theorem C100_minus la a o op lb b : operand la a -> operand lb b -> operator o = Some op ->
  reads 0 (P Minus :: la ++ o :: lb) (if minus_strength <? strength op then ENeg (EBin a op b) else EBin (ENeg a) op b).
Proof. exact (minus_operator la a o op lb b). Qed.
Print Assumptions C100_minus.
Lemma word_operand s : operand [wd s] (kid s).
Proof. split; [apply R_path, XGramSpec.P_step, S_name|reflexivity]. Qed.
Example C100_case : operand [wd "a"] (kid "a") /\ operand [P LPar; wd "a"; P Plus; Int 1; P RPar] (ESeq [EBin (kid "a") (OpOther (lit "+")) (ELit (LInt 1))]) /\
  reads 0 [wd "x"; P Eq_; wd "y"; P LBrk; Int 1; P RBrk] (EPred (EBin (kid "x") OpEq (kid "y")) [ELit (LInt 1)]) /\
  reads 0 [wd "x"; P LBrk; Int 1; P RBrk; P LBrk; Int 2; P RBrk] (EPred (kid "x") [ELit (LInt 1); ELit (LInt 2)]) /\
  reads 0 [wd "x"; P LBrk; Int 1; P RBrk; P Slash; wd "y"] (EBin (EPred (kid "x") [ELit (LInt 1)]) OpPath (kid "y")) /\
  reads 0 [wd "a"; wd "or"; wd "b"; wd "and"; wd "c"] (EBin (EBin (kid "a") OpOr (kid "b")) OpAnd (kid "c")) /\
  reads 0 [wd "a"; P Lt_; wd "b"; P Plus; wd "c"] (EBin (kid "a") OpLt (EBin (kid "b") (OpOther (lit "+")) (kid "c"))).
Proof.
  split; [apply word_operand|]. split.
  { split; [|reflexivity]. apply R_seq. apply (A_some [wd "a"; P Plus; Int 1]). apply L_one. apply parse_reads. vm_compute. reflexivity. }
  repeat split; apply parse_reads; vm_compute; reflexivity.
Qed.

(** ** C101 *)
(** The lexer always takes the longest token. *)
Theorem C101_lexer v s l b : tokens v s = mkI (map emb l) b <-> scans (wide_digit v) (float_of v) s l b.
Proof. exact (tokens_scans v s l b). Qed.
Print Assumptions C101_lexer.
Theorem C101_total v s : exists l b, tokens v s = mkI (map emb l) b /\ scans (wide_digit v) (float_of v) s l b.
Proof. exact (tokens_total v s). Qed.
Print Assumptions C101_total.
Theorem C101_one_scan v s l b l' b' : scans (wide_digit v) (float_of v) s l b -> scans (wide_digit v) (float_of v) s l' b' -> l = l' /\ b = b'.
Proof. exact (scans_fun v s l b l' b'). Qed.
Print Assumptions C101_one_scan.
Theorem C101_one_token v k k' s : spells (wide_digit v) (float_of v) k s -> spells (wide_digit v) (float_of v) k' s -> k = k'.
Proof. exact (spells_fun v k k' s). Qed.
Print Assumptions C101_one_token.
(** Tokens with blanks between them are read back. *)
Theorem C101_spaced v l ss : Forall2 (spells (wide_digit v) (float_of v)) l ss -> scans (wide_digit v) (float_of v) (flat_map (fun s => s ++ [32%N]) ss) l false.
Proof. exact (spaced v l ss). Qed.
Print Assumptions C101_spaced.
Theorem C101_blanks v s l b w : scans (wide_digit v) (float_of v) s l b -> Forall blank w -> scans (wide_digit v) (float_of v) (w ++ s) l b.
Proof. exact (blanks_anywhere v s l b w). Qed.
Print Assumptions C101_blanks.
Example C101_case : scans (wide_digit plain_env) (float_of plain_env) (lit "a-b::c  <=12 'x'..") [wd "a-b"; P Colons; wd "c"; P Le_; Int 12; Quoted (lit "x"); P Dots] false /\
  scans (wide_digit plain_env) (float_of plain_env) (lit "1.5.. text()#") [Flt (FFin 0 0); P Dots; wd "text"; P LPar; P RPar] true.
Proof. split; apply tokens_scans; vm_compute; reflexivity. Qed.

(** ** C102 *)
Theorem C102_parse v s e : parse_text v s = POk e <-> exists l, scans (wide_digit v) (float_of v) s l false /\ reads 0 l e.
Proof. exact (parse_text_reads v s e). Qed.
Print Assumptions C102_parse.
(** Parsing always ends, with an expression or with one of two errors. *)
Theorem C102_total v s : (exists e, parse_text v s = POk e) \/ parse_text v s = PExn RuntimeErr \/ parse_text v s = PExn TypeErr.
Proof. exact (parse_text_total v s). Qed.
Print Assumptions C102_total.
Theorem C102_syntax_error v s l : scans (wide_digit v) (float_of v) s l false -> (forall e, ~ reads 0 l e) -> parse_text v s = PExn RuntimeErr.
Proof. exact (parse_text_syntax v s l). Qed.
Print Assumptions C102_syntax_error.
Theorem C102_bad_start v s : scans (wide_digit v) (float_of v) s [] true -> parse_text v s = PExn TypeErr.
Proof. exact (parse_text_bad v s). Qed.
Print Assumptions C102_bad_start.
Example C102_case : parse_text plain_env (lit "//a[@href = ""x""]/text()") =
    POk (EBin (EPred (EAbs true (Some (kid "a"))) [EBin (EStep AxAttribute (TName (lit "href"))) OpEq (ELit (LStr (lit "x")))]) OpPath (EStep AxChild TText)) /\
  parse_text plain_env (lit "a[b") = PExn RuntimeErr /\ parse_text plain_env (lit "#a") = PExn TypeErr.
Proof. repeat split; vm_compute; reflexivity. Qed.

(** ** C103 Findings *)
(** There is no multiplication: the lexer has no token for it, and [*] is always a node test. *)
Theorem C103_no_times v s e : parse_text v s = POk e -> times_free e.
Proof. intros H. apply parse_text_reads in H as (l & _ & R). exact (proj1 times_free_all 0 l e R). Qed.
Print Assumptions C103_no_times.
Theorem C103_times_refuted : exists v s, s = lit "2 * 3" /\ parse_text v s = PExn RuntimeErr.
Proof. exists plain_env, (lit "2 * 3"). split; [reflexivity|vm_compute; reflexivity]. Qed.
Print Assumptions C103_times_refuted.
(** The capital letters from U+00C0 to U+00D6 do not begin names. *)
Theorem C103_capitals v c s : (192 <= c <= 214)%N -> (forall r, c :: s <> odd_start ++ r) -> parse_text v (c :: s) = PExn TypeErr.
Proof. exact (capital_letter v c s). Qed.
Print Assumptions C103_capitals.
(** After the root, a word cannot be an operator. *)
Theorem C103_root x s : parse_tokens (mkI (map emb [P Slash; Word x; Word s]) false) = PExn RuntimeErr.
Proof. exact (root_operator x s). Qed.
Print Assumptions C103_root.
Theorem C103_axis x l1 l2 : (forall ax, x <> axis_word ax) -> parse_tokens (mkI (map emb (l1 ++ Word x :: P Colons :: l2)) false) = PExn RuntimeErr.
Proof. exact (unknown_axis x l1 l2). Qed.
Print Assumptions C103_axis.
(** text() or node() alone is no step to the children but a test of the context node; whatever is in
    the parentheses is ignored. *)
Theorem C103_lone_type (b : bool) ts es : arguments ts es -> reads 0 (Word (if b then lit "node" else lit "text") :: ts) (ETest (if b then TNode else TText)).
Proof. exact (lone_type b ts es). Qed.
Print Assumptions C103_lone_type.
Theorem C103_lone_text w n c : eval w (S n) (ETest TText) c = (match as_str w c with Some _ => [c] | None => [] end, Done).
Proof. exact (lone_text_eval w n c). Qed.
Print Assumptions C103_lone_text.
(** A predicate after the right operand of an operator applies to the result of the operator. *)
Theorem C103_last_predicate_refuted : exists v, parse_text v (lit "a | b[1]") = POk (EPred (EBin (kid "a") OpUnion (kid "b")) [ELit (LInt 1)]) /\
  parse_text v (lit "a | b[1]") <> POk (EBin (kid "a") OpUnion (EPred (kid "b") [ELit (LInt 1)])).
Proof. exists plain_env. split; vm_compute; [reflexivity|discriminate]. Qed.
Print Assumptions C103_last_predicate_refuted.
Example C103_case : (forall r, [201%N; 116%N] <> odd_start ++ r) /\ (forall ax, lit "namespace" <> axis_word ax) /\ arguments [P LPar; wd "a"; P RPar] [kid "a"] /\
  parse_text plain_env (lit "text(a)") = POk (ETest TText) /\ parse_text plain_env (lit "/ or a") = PExn RuntimeErr /\
  parse_text plain_env (lit "a/namespace::b") = PExn RuntimeErr.
Proof.
  split; [discriminate|]. split; [intros []; discriminate|]. split; [apply (A_some [wd "a"]), L_one, parse_reads; vm_compute; reflexivity|].
  repeat split; vm_compute; reflexivity.
Qed.

(** ** C104 *)
(** An expression without string literals, written out, is read as the same expression. *)
Theorem C104_round_trip w v s e : parse_text v s = POk e -> plain w v e -> parse_text v (serialize w e) = POk e.
Proof. exact (serialize_parses w v s e). Qed.
Print Assumptions C104_round_trip.
(** Findings: strings lose their quotes, a minus sign joins the name before it, and two slashes become one token. *)
Theorem C104_strings v w n : name n -> parse_text v (serialize w (ELit (LStr n))) = POk (EStep AxChild (TName n)).
Proof. exact (written_string v w n). Qed.
Print Assumptions C104_strings.
Theorem C104_minus v w a b : name a -> name b ->
  parse_text v (serialize w (EBin (EStep AxChild (TName a)) (OpOther (lit "-")) (EStep AxChild (TName b)))) = PExn RuntimeErr.
Proof. exact (written_minus v w a b). Qed.
Print Assumptions C104_minus.
Theorem C104_slashes v w a : name a -> reads 0 [P Slash; P Slash; Word a] (EBin (EAbs false None) OpPath (EStep AxChild (TName a))) /\
  parse_text v (serialize w (EBin (EAbs false None) OpPath (EStep AxChild (TName a)))) = POk (EAbs true (Some (EStep AxChild (TName a)))).
Proof. exact (written_slashes v w a). Qed.
Print Assumptions C104_slashes.
Theorem C104_round_trip_refuted : exists w v s e, parse_text v s = POk e /\ parse_text v (serialize w e) <> POk e.
Proof.
  exists (mkEnv (XT []) [] (fun _ => inr RuntimeErr) (fun _ => None) (fun _ => [])), plain_env, (lit "'n'"), (ELit (LStr (lit "n"))).
  split; vm_compute; [reflexivity|discriminate].
Qed.
Print Assumptions C104_round_trip_refuted.
Definition some_env (t : xtree) : env := world plain_env [(lit "k", IInt 7)] (fun _ => None) (fun _ => []) t.
Example C104_case : let s := lit "-a//b | count((c, @d))[position() = 2 or $k]" in exists e, parse_text plain_env s = POk e /\ plain (some_env (XT [])) plain_env e /\
  serialize (some_env (XT [])) e = lit "-child::a//child::b|count((child::c,@d))[position()=2 or $k]".
Proof. cbv zeta. eexists. split; [vm_compute; reflexivity|]. split; [cbn; tauto|]. vm_compute. reflexivity. Qed.

(** ** C105 *)
(** A query by text from a node: the expression is evaluated there, or, from the document element, at the root. *)
Theorem C105_text w v n i s e : xparse w = uxpath_parse v -> document_node w i -> expression v s e -> xml_xpath w n i (Text s) = eval w n e (start_item i).
Proof. exact (xml_xpath_text w v n i s e). Qed.
Print Assumptions C105_text.
Theorem C105_parsed w n i e : document_node w i -> xml_xpath w n i (Parsed e) = eval w n e (start_item i).
Proof. exact (xml_xpath_parsed w n i e). Qed.
Print Assumptions C105_parsed.
Theorem C105_fails w v n i s : xparse w = uxpath_parse v -> (forall e, ~ expression v s e) ->
  xml_xpath w n i (Text s) = ([], Exn RuntimeErr) \/ xml_xpath w n i (Text s) = ([], Exn TypeErr).
Proof. exact (xml_xpath_fails w v n i s). Qed.
Print Assumptions C105_fails.
(** Anything else than a text or an expression is rejected. *)
Theorem C105_neither w n i : xml_xpath w n i Neither = ([], Exn ValueErr).
Proof. reflexivity. Qed.
Print Assumptions C105_neither.
(** From a text that is in no element there is no root to start from. *)
Theorem C105_lone w n t e : doc w = XT t -> xml_xpath w n (INode []) (Parsed e) = ([], Exn AssertionErr).
Proof. exact (xml_xpath_lone w n t e). Qed.
Print Assumptions C105_lone.
Theorem C105_lone_text w v n t s e : doc w = XT t -> xparse w = uxpath_parse v -> expression v s e ->
  xml_xpath w n (INode []) (Text s) = ([], Exn AssertionErr).
Proof. exact (xml_xpath_lone_text w v n t s e). Qed.
Print Assumptions C105_lone_text.
(** From the document element names select from the root: it is its own "child". *)
Theorem C105_document_element w v n k : xparse w = uxpath_parse v -> XLexSpec.name k ->
  is_element (doc w) -> selects w (fun a u => a = [] /\ exists at_ ks, u = XE k at_ ks) (xml_xpath w n (INode []) (Text k)).
Proof. exact (element_from_root w v n k). Qed.
Print Assumptions C105_document_element.
(** qquery from a node does the same, but only for texts: an expression parsed beforehand fails, and an empty text node yields nothing. *)
Theorem C105_qquery w n i s : truthy w i = true -> qquery_node w n i (Text s) = xml_xpath w n i (Text s).
Proof. exact (qquery_text w n i s). Qed.
Print Assumptions C105_qquery.
Theorem C105_qquery_parsed w n i x : document_node w i -> truthy w i = true -> (forall s, x <> Text s) -> qquery_node w n i x = ([], Exn NameErr).
Proof. exact (qquery_parsed w n i x). Qed.
Print Assumptions C105_qquery_parsed.
Theorem C105_qquery_lone w n t x : doc w = XT t -> t <> [] -> (forall s, x <> Text s) -> qquery_node w n (INode []) x = ([], Exn AssertionErr).
Proof. exact (qquery_lone w n t x). Qed.
Print Assumptions C105_qquery_lone.
Theorem C105_qquery_empty w n a x : text_at w a = Some [] -> qquery_node w n (INode a) x = ([], Done).
Proof. exact (qquery_empty_text w n a x). Qed.
Print Assumptions C105_qquery_empty.
(** for-each parses its second argument in the same way. *)
Theorem C105_for_each w v n e y c s p items outs : xparse w = uxpath_parse v -> arg_string w (eval w (S n) y c) s -> expression v s p -> eval w (S n) e c = (items, Done) ->
  Forall2 (fun i o => exists j, moved w c i j /\ eval w n p j = (o, Done)) items outs -> eval w (S n) (ECall (lit "for-each") [e; y]) c = (concat outs, Done).
Proof. exact (foreach_text w v n e y c s p items outs). Qed.
Print Assumptions C105_for_each.
Definition small : xtree := XE (lit "a") [] [XT (lit "1"); XE (lit "b") [] [XT (lit "2")]; XT []].
Example C105_case : document_node (some_env small) (INode [1]) /\ document_node (some_env small) (INode []) /\
  expression plain_env (lit "text()/..") (EBin (ETest TText) OpPath (EAbbrev true)) /\ (forall e, ~ expression plain_env (lit "a//") e) /\
  xml_xpath (some_env small) 2 (INode []) (Text (lit "b")) = ([], Done) /\ xml_xpath (some_env small) 2 (INode []) (Text (lit "a/b")) = ([INode [1]], Done) /\
  xml_xpath (some_env small) 2 (INode [1]) (Text (lit "../text()")) = ([INode [0]], Done) /\
  qquery_node (some_env small) 2 (INode [2]) (Text (lit ".")) = ([], Done) /\
  doc (some_env (XT (lit "t"))) = XT (lit "t") /\ xml_xpath (some_env (XT (lit "t"))) 2 (INode []) (Text (lit "text()/..")) = ([], Exn AssertionErr) /\
  qquery_node (some_env (XT (lit "t"))) 2 (INode []) (Parsed (ETest TText)) = ([], Exn AssertionErr) /\
  eval (some_env small) 2 (ECall (lit "for-each") [EAbs true (Some (kid "b")); ELit (LStr (lit "$k"))]) IRoot = ([IInt 7], Done).
Proof.
  split; [discriminate|]. split; [do 3 eexists; reflexivity|]. split; [apply uxpath_parse_ok; vm_compute; reflexivity|].
  split; [intros e H; apply uxpath_parse_ok in H; vm_compute in H; discriminate|]. repeat split; vm_compute; reflexivity.
Qed.

(** ** C106 *)
(** The document and the expression given as texts: what the grammar of documents and the grammar of expressions say they are. *)
Theorem C106_query h v vs tf fs n text t s e : lenient_doc text t -> expression v s e ->
  forall r, qquery_str h (world v vs tf fs) n text (Text s) r <-> r = eval (world v vs tf fs t) n e IRoot.
Proof. exact (qquery_document h v vs tf fs n text t s e). Qed.
Print Assumptions C106_query.
(** A path of names selects, in document order, the elements at which the names from the document element down are these. *)
Theorem C106_path h v vs tf fs k text t n ns : lenient_doc text t -> XLexSpec.name n -> Forall XLexSpec.name ns ->
  exists l, listing t (fun a u => is_element u /\ path_names t a = n :: ns) l /\
    forall s r, s = slash_names (n :: ns) \/ s = n ++ slash_names ns -> qquery_str h (world v vs tf fs) k text (Text s) r <-> r = (nodes l, Done).
Proof. exact (path_query h v vs tf fs k text t n ns). Qed.
Print Assumptions C106_path.
(** [//n] selects each element of that name once; [count(//n)] is their number. *)
Theorem C106_anywhere h v vs tf fs k text t n : lenient_doc text t -> XLexSpec.name n ->
  exists l out, listing t (fun _ u => exists a ks, u = XE n a ks) l /\ Permutation out (nodes l) /\
    forall r, qquery_str h (world v vs tf fs) k text (Text (lit "//" ++ n)) r <-> r = (out, Done).
Proof. exact (anywhere_query h v vs tf fs k text t n). Qed.
Print Assumptions C106_anywhere.
Theorem C106_count h v vs tf fs k text t n : lenient_doc text t -> XLexSpec.name n ->
  exists l, listing t (fun _ u => exists a ks, u = XE n a ks) l /\
    forall r, qquery_str h (world v vs tf fs) k text (Text (lit "count(//" ++ n ++ lit ")")) r <-> r = ([IInt (Z.of_nat (length l))], Done).
Proof. exact (count_query h v vs tf fs k text t n). Qed.
Print Assumptions C106_count.
(** The same elements as the stream of subtrees for the pattern with these names. *)
Theorem C106_stream h v vs tf fs k text t n ns p s s' x r : lenient_doc text t -> XLexSpec.name n -> Forall XLexSpec.name ns -> p = map StName (n :: ns) -> served p s ->
  send_parse [p] s text s' x -> qquery_str h (world v vs tf fs) k text (Text (slash_names (n :: ns))) r ->
  exists l, sent_since s s' 0 (map snd l) /\ r = (nodes l, Done) /\ forall a u, In (a, u) l -> subtree t a = Some u.
Proof. exact (stream_query h v vs tf fs k text t n ns p s s' x r). Qed.
Print Assumptions C106_stream.
Example C106_case : exists text t, lenient_doc text t /\ expression plain_env (lit "count(/a/b) = '<'") (EBin (ECall (lit "count") [EAbs false (Some (EBin (kid "a") OpPath (kid "b")))]) OpEq (ELit (LStr (lit "<")))) /\
  Forall XLexSpec.name [lit "a"; lit "b"] /\ slash_names [lit "a"; lit "b"] = lit "/a/b" /\
  eval (some_env t) 1 (EAbs false (Some (EBin (kid "a") OpPath (kid "b")))) IRoot = ([INode [1]], Done).
Proof.
  do 2 eexists. split; [apply strict_doc_lenient, strict_doc_case|]. split; [apply uxpath_parse_ok; vm_compute; reflexivity|]. split; [|split; vm_compute; reflexivity].
  repeat constructor; [exists (lit "a"), []|exists (lit "b"), []]; (split; [reflexivity|]); (split; [now apply start_char_iff|constructor]).
Qed.
