(** Property C126: treeutil, MicroXPath and streaming select the same.  The correspondence is in AgreeSpec.v. *)
From Verif Require Import PyStr XTree Tree Grammar Path Nodes Pattern PatternSpec TreeUtil TreeUtilSpec.
From Verif Require Import Heap HeapSpec Builder TreeIter TreeIterSpec ParserMore ParserClass.
From Verif Require Import XPath XPathSpec XNavSpec XNavUse XGramSpec XLex XLexSpec XLexFacts XText XQuery XQueryFacts AgreeSpec AgreeFacts.

(** ** C126 *)
(** The children of an element: [*] and [name]; with an attribute, [*[@k]] and [*[@k='x']]; with a text, [node()[.='x']]. *)
Theorem C126_children w n a u : proper w -> subtree (doc w) a = Some u -> is_element u ->
  eval w n (EStep AxChild TStar) (INode a) = (items_at a (select_elements (SrcElem u)), Done) /\
  forall m, eval w n (EStep AxChild (TName m)) (INode a) = (items_at a (select_name (SrcElem u) m), Done).
Proof. intros W E U. split; [exact (agree_children w n a u W E U)|exact (agree_named w n a u W E U)]. Qed.
Print Assumptions C126_children.
Theorem C126_attribute w n a u k : proper w -> subtree (doc w) a = Some u -> is_element u -> k <> lit "*" ->
  eval w n (EPred (EStep AxChild TStar) [EStep AxAttribute (TName k)]) (INode a) = (items_at a (select_attribute (SrcElem u) k None), Done) /\
  forall x, eval w n (EPred (EStep AxChild TStar) [EBin (EStep AxAttribute (TName k)) OpEq (ELit (LStr x))]) (INode a) = (items_at a (select_attribute (SrcElem u) k (Some x)), Done).
Proof. intros W E U K. split; [exact (agree_with w n a u W E U k K)|intros x; exact (agree_with_value w n a u W E U k x K)]. Qed.
Print Assumptions C126_attribute.
Theorem C126_value w n a u x : proper w -> subtree (doc w) a = Some u -> is_element u ->
  eval w n (EPred (EStep AxChild TNode) [EBin (EAbbrev false) OpEq (ELit (LStr x))]) (INode a) = (items_at a (select_value (SrcElem u) x), Done).
Proof. intros W E U. exact (agree_value w n a u W E U x). Qed.
Print Assumptions C126_value.
(** What is below an element: [descendant::name]. *)
Theorem C126_below w n a u m : proper w -> subtree (doc w) a = Some u -> is_element u ->
  eval w n (EStep AxDescendant (TName m)) (INode a) = (items_at a (select_name (SrcItems (descendants u)) m), Done).
Proof. intros W E U. exact (agree_below w n a u W E U m). Qed.
Print Assumptions C126_below.
(** A path and select_pattern. *)
Theorem C126_pattern w n a u p e : proper w -> subtree (doc w) a = Some u -> is_element u -> path_for p e ->
  exists l, select_pattern u p = (l, false) /\ eval w n e (INode a) = (items_at a l, Done).
Proof. intros W E U. exact (agree_pattern w n a u W E U p e). Qed.
Print Assumptions C126_pattern.
(** A document given as a text: what the sender sends for a pattern is what the pattern, written as a path, selects. *)
Theorem C126_stream h v vs tf fs k text t p s s' x r : lenient_doc text t -> Forall plain_stage p -> p <> [] -> served p s ->
  send_parse [p] s text s' x -> qquery_str h (world v vs tf fs) k text (Text (pattern_text p)) r ->
  exists l, listing t (fun a u => is_element u /\ matches p (path_names t a)) l /\ sent_since s s' 0 (map snd l) /\ r = (nodes l, Done).
Proof. exact (agree_all h v vs tf fs k text t p s s' x r). Qed.
Print Assumptions C126_stream.
(** The pattern of the sender begins at the document element, that of select_pattern below it. *)
Theorem C126_select text t st p s s' x : lenient_doc text t -> no_alt p -> no_deep p -> p <> [] -> st = StAny \/ (exists n ats ks, t = XE n ats ks /\ st = StName n) ->
  served (st :: p) s -> send_parse [st :: p] s text s' x -> exists l, select_pattern t p = (l, false) /\ sent_since s s' 0 (map snd l).
Proof. exact (agree_select text t st p s s' x). Qed.
Print Assumptions C126_select.

Definition lex1 : lexenv := mkLx (fun _ => None) (fun _ => FFin 0 0).
Definition farm : xtree :=
  XE (lit "f") [] [XE (lit "a") [] [XT (lit "v"); XE (lit "b") [(lit "k", lit "1")] [XE (lit "b") [] [XT (lit "v")]]; XE (lit "c") [(lit "k", lit "2")] [XE (lit "b") [] []]]; XE (lit "b") [] []].
Definition farm_env : env := world lex1 [] (fun _ => None) (fun _ => []) farm.
Definition yard : xtree := XE (lit "a") [] [XT (lit "v"); XE (lit "b") [(lit "k", lit "1")] [XE (lit "b") [] [XT (lit "v")]]; XE (lit "c") [(lit "k", lit "2")] [XE (lit "b") [] []]].
Example C126_case : proper farm_env /\ subtree (doc farm_env) [0] = Some yard /\ is_element yard /\
  items_at [0] (select_elements (SrcElem yard)) = [INode [0; 1]; INode [0; 2]] /\ items_at [0] (select_name (SrcElem yard) (lit "c")) = [INode [0; 2]] /\
  items_at [0] (select_attribute (SrcElem yard) (lit "k") (Some (lit "1"))) = [INode [0; 1]] /\
  items_at [0] (select_value (SrcElem yard) (lit "v")) = [INode [0; 0]; INode [0; 1]] /\
  items_at [0] (select_name (SrcItems (descendants yard)) (lit "b")) = [INode [0; 1]; INode [0; 1; 0]; INode [0; 2; 0]] /\
  path_for ([StAny] ++ [StName (lit "b")]) (EBin (EStep AxChild TStar) OpPath (EStep AxChild (TName (lit "b")))) /\
  items_at [0] (fst (select_pattern yard [StAny; StName (lit "b")])) = [INode [0; 1; 0]; INode [0; 2; 0]].
Proof.
  split; [apply check_proper; reflexivity|]. split; [reflexivity|]. split; [do 3 eexists; reflexivity|]. do 5 (split; [vm_compute; reflexivity|]). split; [apply pf_path; constructor|reflexivity].
Qed.
Example C126_stream_case : exists text t, lenient_doc text t /\ Forall plain_stage [StName (lit "a"); StAny] /\ pattern_text [StName (lit "a"); StAny] = lit "/a/*" /\
  served [StName (lit "a"); StAny] (new_sender empty_heap [[StName (lit "a"); StAny]]) /\ select_pattern t [StAny] = ([([1], XE (lit "b") [] [])], false) /\
  exists e, expression lex1 (lit "/a/*") e /\ eval (world lex1 [] (fun _ => None) (fun _ => []) t) 0 e IRoot = ([INode [1]], Done).
Proof.
  do 2 eexists. split; [apply strict_doc_lenient, strict_doc_case|]. split.
  - repeat constructor. exists (lit "a"), []. split; [reflexivity|]. split; [now apply start_char_iff|constructor].
  - split; [reflexivity|]. split; [constructor; intros j o H; discriminate|]. split; [reflexivity|]. eexists. split; [apply uxpath_parse_ok; vm_compute; reflexivity|vm_compute; reflexivity].
Qed.
