(** Property C120: entry points that fail. *)
From Verif Require Import PyStr CharClass ParserSpec ParserClass Lex LexSpec Unusable UnusableFacts.

(** ** C120 *)
(** However ns_expat_callbacks is called, it is a TypeError, also from a sender of xmliter. *)
Theorem C120_ns_expat npos kws : make_ns npos kws = Some UType /\ make_xmliter CbNs = Some UType.
Proof. exact (conj (ns_never npos kws) (ns_never 1 [])). Qed.
Print Assumptions C120_ns_expat.
(** Which calls make an expat_callbacks: the handler by position or by keyword, and perhaps the flag. *)
Theorem C120_plain npos kws : make_expat npos kws = None <->
  (npos = 0 /\ In (lit "handler") kws /\ (forall k, In k kws -> k = lit "handler" \/ k = lit "prime_handler")) \/
  (npos = 1 /\ forall k, In k kws -> k = lit "prime_handler") \/ (npos = 2 /\ kws = []).
Proof. exact (plain_calls npos kws). Qed.
Print Assumptions C120_plain.
(** A sender of html5iter cannot parse, whatever the document. *)
Theorem C120_html5iter doc : html5iter_parse doc = Some UAttr.
Proof. reflexivity. Qed.
Print Assumptions C120_html5iter.
(** Whatever the HTML text was parsed to, there is no fragment. *)
Theorem C120_fragment (A : Type) (doc : option A) : markup_fragment doc = Some UAttr.
Proof. destruct doc; reflexivity. Qed.
Print Assumptions C120_fragment.
(** coax.run fails on every text with a character that is allowed and not "&" or "<". *)
Theorem C120_coax l s c : l_state l = SData -> In c s -> micro_char c -> c <> c_amp -> c <> c_lt -> coax_run l s = Some UName.
Proof. exact (coax_names l s c). Qed.
Print Assumptions C120_coax.
(** It is silent when there is no such character either, no carriage return, and none that begins a
    name (U+1FFFE does, and is not allowed). *)
Theorem C120_coax_silent l s : l_state l = SData -> ~ In c_cr s ->
  (forall c, In c s -> ~ micro_namestart c /\ (c = c_amp \/ c = c_lt \/ ~ micro_char c)) -> coax_run l s = None.
Proof. exact (coax_quiet l s). Qed.
Print Assumptions C120_coax_silent.
Example C120_silent : exists c, ~ micro_namestart c /\ ~ micro_char c /\ coax_run fresh [c; c_amp; c_lt; c] = None /\ coax_run fresh [c_cr] = Some UName.
Proof.
  exists 7%N. split; [unfold micro_namestart; lia|]. split; [intros H; apply character_iff in H; discriminate H|]. split; vm_compute; reflexivity.
Qed.
Example C120_case : binds ns_init 1 [] = true /\ binds ns_init 1 [lit "stream"] = true /\ make_expat 1 [] = None /\ make_expat 1 [lit "prime_handler"] = None /\
  make_expat 0 [] = Some UType /\ make_xmliter CbPlain = None /\ coax_run fresh (lit "<a>x</a>") = Some UName /\ coax_run fresh (lit "&&") = None /\
  In 120%N (lit "<a>x</a>") /\ micro_char 120 /\ l_state fresh = SData.
Proof.
  split; [reflexivity|]. split; [reflexivity|]. split; [reflexivity|]. split; [reflexivity|]. split; [reflexivity|]. split; [reflexivity|].
  split; [vm_compute; reflexivity|]. split; [vm_compute; reflexivity|]. split; [right; right; right; now left|]. split; [apply character_iff; reflexivity|reflexivity].
Qed.
(** A tag of coax.py cannot be made, whatever the arguments, unless the caller has put
    [g_ancestor_stack] into the module; arguments that fit no parameter are a TypeError. *)
Theorem C120_tags set npos kws : ~ In (lit "g_ancestor_stack") set ->
  (make_tag set npos kws = Some UName <->
    (npos = 0 /\ In (lit "name") kws /\ (forall k, In k kws -> k = lit "name" \/ k = lit "attrmap")) \/
    (npos = 1 /\ forall k, In k kws -> k = lit "attrmap") \/ (npos = 2 /\ kws = [])) /\
  (make_tag set npos kws = Some UName \/ make_tag set npos kws = Some UType).
Proof. exact (tags_never set npos kws). Qed.
Print Assumptions C120_tags.
Theorem C120_tags_set set npos kws : In (lit "g_ancestor_stack") set -> make_tag set npos kws = None \/ make_tag set npos kws = Some UType.
Proof. exact (tags_given set npos kws). Qed.
Print Assumptions C120_tags_set.
Example C120_tags_case : make_tag [] 1 [] = Some UName /\ make_tag [] 1 [lit "attrmap"] = Some UName /\ make_tag [] 0 [] = Some UType /\
  make_tag [lit "g_ancestor_stack"] 1 [] = None /\ make_tag [lit "x"] 1 [lit "name"] = Some UType.
Proof. vm_compute. repeat split. Qed.
(** A tag made after all cannot be written, whatever unparse_attrmap the caller puts into the module: bytes
    are added to a string. *)
Theorem C120_unparse enc attrs k name :
  (forall c, In c name -> (c < 55296)%N \/ (57343 < c)%N) /\ unparse_tag enc attrs k name = inr UType \/
  (exists c, In c name /\ (55296 <= c <= 57343)%N) /\ unparse_tag enc attrs k name = inr UEncode.
Proof.
  destruct (unparse_never enc attrs k name) as [(H & E)|((c & I & H) & E)]; [left|right]; (split; [|exact E]).
  - intros c I. specialize (H c I). unfold IsXml.is_surrogate, IsXml.in_range in H. apply andb_false_iff in H as [H|H]; apply N.leb_gt in H; auto.
  - exists c. split; [exact I|]. unfold IsXml.is_surrogate, IsXml.in_range in H. apply andb_true_iff in H as (H1 & H2). apply N.leb_le in H1, H2. auto.
Qed.
Print Assumptions C120_unparse.
Example C120_unparse_case : unparse_tag (fun s => s) (inl (PyText [])) EndTag (lit "p") = inr UType /\ unparse_tag (fun s => s) (inr UName) StartTag [55300%N] = inr UEncode /\
  py_then (inl (PyText (lit "a"))) (inl (PyText (lit "b"))) = inl (PyText (lit "ab")).
Proof. vm_compute. repeat split. Qed.
