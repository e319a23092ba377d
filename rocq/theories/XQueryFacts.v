(** Queries from texts. *)
From Verif Require Import PyStr XTree Grammar Parser XPath Lalr XGram XGramSpec XTok XReads XLex XLexSpec XLexFacts XText.
From Verif Require Import Heap HeapSpec Builder BuilderFacts BuilderMore XQuery.

(** [s], as an expression, is [e]. *)
Definition expression (v : lexenv) (s : str) (e : expr) : Prop := exists l, scans (wide_digit v) (float_of v) s l false /\ reads 0 l e.
Lemma uxpath_parse_ok v s e : uxpath_parse v s = inl e <-> expression v s e.
Proof.
  unfold expression. rewrite <- parse_text_reads. unfold uxpath_parse. destruct (parse_text v s) as [e'|x|]; split; congruence.
Qed.
Lemma uxpath_parse_fails v s : (forall e, ~ expression v s e) -> exists x, uxpath_parse v s = inr x /\ (x = RuntimeErr \/ x = TypeErr).
Proof.
  intros H. unfold uxpath_parse. destruct (parse_text_total v s) as [(e & E)|[E|E]].
  - exfalso. apply (H e). now apply parse_text_reads.
  - rewrite E. eauto.
  - rewrite E. eauto.
Qed.

(** Where the evaluation begins. *)
Definition start_item (i : item) : item := match i with INode [] => IRoot | _ => i end.
Definition document_node (w : env) (i : item) : Prop :=
  match i with IRoot => True | INode [] => exists n a ks, doc w = XE n a ks | INode a => node_at w a <> None | _ => False end.
Lemma start_of w i : document_node w i -> initial w (negb (has_parent i)) i = Some (start_item i).
Proof.
  intros H. destruct i as [|[|k a]| | | | |]; try contradiction; try reflexivity.
  destruct H as (n & at_ & ks & E). unfold initial, root_of, is_elem_at, node_at. cbn. rewrite E. reflexivity.
Qed.
Lemma xml_xpath_text w v n i s e : xparse w = uxpath_parse v -> document_node w i -> expression v s e -> xml_xpath w n i (Text s) = eval w n e (start_item i).
Proof.
  intros X D E. apply uxpath_parse_ok in E. cbn [xml_xpath]. rewrite X, E. unfold in_context. now rewrite (start_of w i D).
Qed.
Lemma no_start w t : doc w = XT t -> initial w (negb (has_parent (INode []))) (INode []) = None.
Proof. intros E. unfold initial, root_of, is_elem_at, node_at. cbn. rewrite E. reflexivity. Qed.
Lemma xml_xpath_lone w n t e : doc w = XT t -> xml_xpath w n (INode []) (Parsed e) = raise AssertionErr.
Proof. intros E. unfold xml_xpath, in_context. rewrite (no_start w t E). reflexivity. Qed.
Lemma xml_xpath_lone_text w v n t s e : doc w = XT t -> xparse w = uxpath_parse v -> expression v s e ->
  xml_xpath w n (INode []) (Text s) = raise AssertionErr.
Proof.
  intros E Ew H. apply uxpath_parse_ok in H. unfold xml_xpath. rewrite Ew, H. exact (xml_xpath_lone w n t e E).
Qed.
Lemma xml_xpath_parsed w n i e : document_node w i -> xml_xpath w n i (Parsed e) = eval w n e (start_item i).
Proof. intros D. cbn [xml_xpath]. unfold in_context. now rewrite (start_of w i D). Qed.
Lemma xml_xpath_fails w v n i s : xparse w = uxpath_parse v -> (forall e, ~ expression v s e) ->
  xml_xpath w n i (Text s) = raise RuntimeErr \/ xml_xpath w n i (Text s) = raise TypeErr.
Proof.
  intros X H. destruct (uxpath_parse_fails v s H) as (x & E & [-> | ->]); cbn [xml_xpath]; rewrite X, E; auto.
Qed.
Lemma qquery_text w n i s : truthy w i = true -> qquery_node w n i (Text s) = xml_xpath w n i (Text s).
Proof. intros T. unfold qquery_node. rewrite T. reflexivity. Qed.
Lemma qquery_parsed w n i x : document_node w i -> truthy w i = true -> (forall s, x <> Text s) -> qquery_node w n i x = raise NameErr.
Proof. intros D T Hx. unfold qquery_node. rewrite T, (start_of w i D). destruct x; [destruct (Hx s eq_refl)|reflexivity|reflexivity]. Qed.
Lemma qquery_lone w n t x : doc w = XT t -> t <> [] -> (forall s, x <> Text s) -> qquery_node w n (INode []) x = raise AssertionErr.
Proof.
  intros E Ht Hx. unfold qquery_node. cbn [truthy]. assert (T : text_at w [] = Some t) by (unfold text_at; cbn; rewrite E; reflexivity). rewrite T. destruct t; [congruence|].
  assert (I : initial w true (INode []) = None) by (unfold initial; cbn; unfold is_elem_at; cbn; rewrite E; reflexivity). cbn [has_parent negb]. rewrite I. destruct x; [destruct (Hx s eq_refl)|reflexivity|reflexivity].
Qed.
Lemma qquery_empty_text w n a x : text_at w a = Some [] -> qquery_node w n (INode a) x = nothing.
Proof. intros T. unfold qquery_node. cbn [truthy]. rewrite T. reflexivity. Qed.

(** A document and an expression, both as texts. *)
Lemma qquery_document h v vs tf fs n text t s e : lenient_doc text t -> expression v s e ->
  forall r, qquery_str h (world v vs tf fs) n text (Text s) r <-> r = eval (world v vs tf fs t) n e IRoot.
Proof.
  intros D E r. pose proof (lenient_doc_elem _ _ D) as El. destruct (tree_of_document text t D) as (Ex & Un).
  set (w := world v vs tf fs t).
  assert (Q : qquery_node w n (INode []) (Text s) = eval w n e IRoot).
  { assert (Dn : document_node w (INode [])) by exact El. rewrite qquery_text.
    - rewrite (xml_xpath_text w v n (INode []) s e); auto.
    - destruct El as (m & a & ks & ->). reflexivity. }
  split.
  - intros H. inversion H as [s' T|s' i t' T Ht]; subst.
    + destruct (Un _ _ _ T) as (i & X & _). discriminate.
    + destruct (Un _ _ _ T) as (i' & [= <-] & _ & Hh). rewrite (holds_tree_det _ _ _ _ Hh Ht) in *. exact Q.
  - intros ->. destruct (Ex (new_builder h)) as (s' & r' & T). destruct (Un _ _ _ T) as (i & -> & _ & Hh). rewrite <- Q. eapply Q_some; eassumption.
Qed.
(** A text without any document element: nothing, whatever the expression. *)
Lemma qquery_no_document h mk n text x s' : tree_parse (new_builder h) text s' None -> qquery_str h mk n text x nothing.
Proof. apply Q_none. Qed.
