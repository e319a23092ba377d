(** Properties C01-C19, C76-C78 (parser.py).  Every theorem is closed by a lemma proved
    elsewhere; the specifications are in ParserSpec.v, Grammar.v and XTree.v. *)
From Verif Require Import PyStr CharClass Parser ParserM XTree Grammar ParserSpec ParserFrag ParserInv ParserMore ParserVal ParserClass.

(** ** C01 *)
Theorem C01_chunking pieces : safe_cuts pieces = true -> feed pieces = feed [concat pieces].
Proof. exact (feed_pieces pieces). Qed.
Print Assumptions C01_chunking.

Theorem C01_parsefrags pieces : safe_cuts pieces = true -> py_parsefrags pieces = py_parsefrags [concat pieces].
Proof. exact (parsefrags_pieces pieces). Qed.
Print Assumptions C01_parsefrags.

Example C01_case :
  let ps := [lit "<"; lit "a b ="; lit "'x &amp; y' c"; lit "=""2"">t&l"; lit "t;<b"; lit "></"; lit "b ></a"; lit "> "] in
  safe_cuts ps = true /\
  fst (feed ps) = [EvStart (lit "a") [(lit "b", lit "x & y"); (lit "c", lit "2")] []; EvChars (lit "t<");
                   EvStart (lit "b") [] [lit "a"]; EvEnd (lit "b") [lit "a"]; EvEnd (lit "a") []].
Proof. vm_compute. repeat split. Qed.

(** Also for malformed documents: the error is the same. *)
Example C01_case_error :
  let ps := [lit "<a"; lit "></"; lit "b"; lit ">"] in
  safe_cuts ps = true /\ feed ps = ([EvStart (lit "a") [] []], Raised RtExpectedClose).
Proof. vm_compute. repeat split. Qed.

(** ** C02 *)
Theorem C02_cut_in_value (pre : str) evs open n d a q (v1 v2 k : str) :
  in_attr_value pre evs open n d a q ->
  (forall c, In c v1 -> value_char q c = true) -> ~ In c_eq (v1 ++ v2) ->
  feed [pre ++ v1; v2 ++ q :: k] = (evs, Raised RtExpectedEq).
Proof. exact (cut_in_value pre evs open n d a q v1 v2 k). Qed.
Print Assumptions C02_cut_in_value.

(** While the uncut text is fine. *)
Theorem C02_uncut_value (pre : str) evs open n d a q (v1 v2 : str) :
  in_attr_value pre evs open n d a q ->
  (forall c, In c (v1 ++ v2) -> value_char q c = true) ->
  exists g, feed [(pre ++ v1) ++ v2 ++ [q; c_gt]] =
    (evs ++ [EvStart n (dict_set d a (v1 ++ v2)) (rev open)], Suspended g).
Proof. exact (uncut_value pre evs open n d a q v1 v2). Qed.
Print Assumptions C02_uncut_value.

Example C02_case : in_attr_value (lit "<a x='") [] [] (lit "a") [] (lit "x") c_sq.
Proof.
  change (lit "<a x='") with ([] ++ c_lt :: [] ++ lit "a" ++ [] ++ [c_sp] ++ (c_x :: []) ++ [] ++ [c_eq; c_sq]).
  apply (iav [] [] [] [] (lit "a") [] [] [c_sp] c_x [] [] c_sq).
  - constructor. intros x [].
  - intros x [].
  - exists 97%N, []. repeat split. intros x [].
  - constructor. intros x [].
  - intros (c & r & H & _). discriminate.
  - intros x [<-|[]]. reflexivity.
  - discriminate.
  - exists c_x, []. repeat split. intros x [].
  - intros x [].
  - reflexivity.
Qed.
Example C02_case_run : feed [lit "<a x='" ++ lit "abc"; lit "def" ++ c_sq :: lit "></a>"] = ([], Raised RtExpectedEq).
Proof. vm_compute. reflexivity. Qed.

(** Both complete, with different attributes: the unrestricted claim is false. *)
Theorem C02_any_chunking_refuted : exists pieces,
  fst (feed pieces) = [EvStart (lit "a") [(lit "'", lit "' y='"); (lit "z", [])] []; EvEnd (lit "a") []] /\
  fst (feed [concat pieces]) = [EvStart (lit "a") [(lit "x", lit "=""" ); (lit "y", lit """ z=")] []; EvChars (lit "'"); EvEnd (lit "a") []] /\
  complete_document (fst (feed pieces)) /\ complete_document (fst (feed [concat pieces])).
Proof. exact any_chunking_refuted. Qed.
Print Assumptions C02_any_chunking_refuted.

(** ** C03 *)
Theorem C03_empty_pieces pieces : feed pieces = feed (filter (fun p => match p with [] => false | _ => true end) pieces).
Proof. exact (feed_empty_pieces pieces). Qed.
Print Assumptions C03_empty_pieces.
Example C03_case : feed [[]; lit "<a x='1"; []; lit "'>"] = feed [lit "<a x='1"; lit "'>"].
Proof. vm_compute. reflexivity. Qed.

(** ** C04 *)
Theorem C04_well_nested l : well_nested_prefix (fst (sends new_parser l)).
Proof. exact (sends_nested l). Qed.
Print Assumptions C04_well_nested.

Example C04_case : well_nested_prefix (fst (feed [lit "<a><b>x</b>y<c>"])) /\
  length (fst (feed [lit "<a><b>x</b>y<c>"])) = 6.
Proof. split; [apply C04_well_nested|vm_compute; reflexivity]. Qed.

(** ** C05 *)
Theorem C05_streaming (text more : str) : exists later, fst (feed [text ++ more]) = fst (feed [text]) ++ later.
Proof. exact (feed_streaming text more). Qed.
Print Assumptions C05_streaming.
Theorem C05_history l m : exists later, fst (sends new_parser (l ++ m)) = fst (sends new_parser l) ++ later.
Proof. exact (sends_history l m). Qed.
Print Assumptions C05_history.
Example C05_case : fst (feed [lit "<a>x<b>"]) = [EvStart (lit "a") [] []; EvChars (lit "x"); EvStart (lit "b") [] [lit "a"]].
Proof. vm_compute. reflexivity. Qed.

(** ** C06 *)
Theorem C06_parses_documents text t : strict_doc text t ->
  (exists g, feed [text] = (doc_events t, Suspended g)) /\
  py_parse text = Some (None :: map Some (doc_events t)).
Proof. exact (strict_parses text t). Qed.
Print Assumptions C06_parses_documents.

Example C06_case : strict_doc (lit " <a x='1' y =""&#x41;&lt;"">t<b></b >&amp;</a>
")
  (XE (lit "a") [(lit "x", lit "1"); (lit "y", lit "A<")] [XT (lit "t"); XE (lit "b") [] []; XT (lit "&")]).
Proof. exact strict_doc_case. Qed.

(** ** C07 *)
Theorem C07_complete_iff_lenient text evs :
  ((exists g, feed [text] = (evs, Suspended g)) /\ complete_document evs) <->
  (exists t, lenient_doc text t /\ evs = doc_events t).
Proof. exact (parse_complete_iff text evs). Qed.
Print Assumptions C07_complete_iff_lenient.
(** The document of a text is unique. *)
Theorem C07_unambiguous text t t' : lenient_doc text t -> lenient_doc text t' -> doc_events t = doc_events t'.
Proof. exact (lenient_doc_unique text t t'). Qed.
Print Assumptions C07_unambiguous.
Example C07_case : fst (feed [lit "< a b=>='1'>x>y< / a >"]) =
  [EvStart (lit "a") [(lit ">", lit "1")] []; EvChars (lit "xy"); EvEnd (lit "a") []].
Proof. vm_compute. reflexivity. Qed.

(** ** C08 *)
Theorem C08_reference_in_text (p : str) evs top open (raw1 v1 body raw2 v2 en : str) c :
  after_tag p evs (top :: open) -> cdata (droppable c_lt) is_datachar raw1 v1 -> refers body c ->
  cdata (droppable c_lt) is_datachar raw2 v2 -> lend en top ->
  exists g, feed [p ++ (raw1 ++ c_amp :: body ++ c_semi :: raw2) ++ en] =
    (evs ++ [EvChars (v1 ++ c :: v2); EvEnd top (rev open)], Suspended g).
Proof. exact (reference_in_text p evs top open raw1 v1 body raw2 v2 en c). Qed.
Print Assumptions C08_reference_in_text.

Theorem C08_reference_in_value (pre : str) evs open n d a q (raw1 v1 body raw2 v2 : str) c :
  in_attr_value pre evs open n d a q -> cdata (droppable q) (value_char q) raw1 v1 -> refers body c ->
  cdata (droppable q) (value_char q) raw2 v2 ->
  exists g, feed [pre ++ (raw1 ++ c_amp :: body ++ c_semi :: raw2) ++ [q; c_gt]] =
    (evs ++ [EvStart n (dict_set d a (v1 ++ c :: v2)) (rev open)], Suspended g).
Proof. exact (reference_in_value pre evs open n d a q raw1 v1 body raw2 v2 c). Qed.
Print Assumptions C08_reference_in_value.

Theorem C08_wrong_reference_in_text (p : str) evs top open (raw v body : str) e (k : str) :
  after_tag p evs (top :: open) -> cdata (droppable c_lt) is_datachar raw v -> wrong_reference body e ->
  feed [p ++ raw ++ c_amp :: body ++ c_semi :: k] = (evs, Raised e).
Proof. exact (wrong_reference_in_text p evs top open raw v body e k). Qed.
Print Assumptions C08_wrong_reference_in_text.

Theorem C08_wrong_reference_in_value (pre : str) evs open n d a q (raw v body : str) e (k : str) :
  in_attr_value pre evs open n d a q -> cdata (droppable q) (value_char q) raw v -> wrong_reference body e ->
  feed [pre ++ raw ++ c_amp :: body ++ c_semi :: k] = (evs, Raised e).
Proof. exact (wrong_reference_in_value pre evs open n d a q raw v body e k). Qed.
Print Assumptions C08_wrong_reference_in_value.

(** Every name or hexadecimal number is one or the other. *)
Theorem C08_reference_cases body :
  (exists ds, body = c_hash :: c_x :: ds /\ forall d, In d ds -> is_hex d = true) \/
  (forall c, In c body -> is_alnum c = true) ->
  (exists c, refers body c) \/ (exists e, wrong_reference body e).
Proof. exact (reference_cases body). Qed.
Print Assumptions C08_reference_cases.

Example C08_case : after_tag (lit "<a>") [EvStart (lit "a") [] []] [lit "a"].
Proof. exact after_tag_case. Qed.
Example C08_case_runs :
  fst (feed [lit "<a>x&#x20aC;&#x000000041;&quot;y</a>"]) = [EvStart (lit "a") [] []; EvChars (lit "x" ++ [0x20AC%N] ++ lit "A""y"); EvEnd (lit "a") []] /\
  feed [lit "<a>&#xFFFF;"] = ([EvStart (lit "a") [] []], Raised RtBadCharRef) /\
  feed [lit "<a>&#x110000;"] = ([EvStart (lit "a") [] []], Raised ValueErr) /\
  feed [lit "<a>&#xFFFFFFFFF;"] = ([EvStart (lit "a") [] []], Raised OverflowErr) /\
  feed [lit "<a>&nbsp;"] = ([EvStart (lit "a") [] []], Raised RtUnknownRef).
Proof. vm_compute. repeat split. Qed.

(** ** C09 *)
Theorem C09_hangs_iff_junk_first pieces : snd (feed pieces) = Hung <-> junk_first (concat pieces).
Proof. exact (feed_hang_iff pieces). Qed.
Print Assumptions C09_hangs_iff_junk_first.
Example C09_case : junk_first (lit " x<a></a>").
Proof. exists (lit " "), 120%N, (lit "<a></a>"). repeat split; try discriminate. intros c [<-|[]]. reflexivity. Qed.

(** ** C10 *)
Theorem C10_one_shot text evs g : feed [text] = (evs, Suspended g) -> complete_document evs ->
  sends new_parser [(text, true)] = (evs, Suspended GFinal) /\
  sends new_parser [(text, false); ([], true)] = (evs, Suspended GFinal) /\
  py_parse text = py_parsefrags [text].
Proof. exact (one_shot text evs g). Qed.
Print Assumptions C10_one_shot.
(** The converse fails: flagged as final, a text with an unfinished attribute value may
    be accepted with invented attributes. *)
Theorem C10_converse_refuted : exists text evs,
  sends new_parser [(text, true)] = (evs, Suspended GFinal) /\ complete_document evs /\
  (exists g, feed [text] = ([], Suspended g)).
Proof. exact one_shot_converse_refuted. Qed.
Print Assumptions C10_converse_refuted.
Example C10_case : complete_document (fst (feed [lit "<a>x<b></b></a>"])).
Proof. exact complete_case. Qed.

(** ** C11 *)
Theorem C11_truncated_suspends (p f : str) t : lenient_doc (p ++ f) t -> ~ blank f ->
  exists evs g later, feed [p] = (evs, Suspended g) /\ ~ complete_document evs /\ doc_events t = evs ++ later.
Proof. exact (truncated_suspends p f t). Qed.
Print Assumptions C11_truncated_suspends.
Theorem C11_closing_is_silent pieces evs g : feed pieces = (evs, Suspended g) ->
  sends new_parser (map (fun f => (f, false)) pieces ++ [([], true)]) = (evs, Suspended GFinal).
Proof. exact (close_suspended pieces evs g). Qed.
Print Assumptions C11_closing_is_silent.
Theorem C11_final_hangs (text : str) evs g :
  text <> [] -> feed [text] = (evs, Suspended g) -> ~ complete_document evs ->
  ends_in_value text = false -> ~ closes_tag text -> (forall t, text <> t ++ [c_eq]) ->
  sends new_parser [(text, true)] = (evs, Hung).
Proof. exact (truncated_one_shot text evs g). Qed.
Print Assumptions C11_final_hangs.
Example C11_case : sends new_parser [(lit "<a><b>text", true)] =
  ([EvStart (lit "a") [] []; EvStart (lit "b") [] [lit "a"]], Hung) /\
  ends_in_value (lit "<a><b>text") = false.
Proof. split; vm_compute; reflexivity. Qed.

(** ** C12 *)
Theorem C12_mismatched_end (p : str) evs top open (raw v en n k : str) :
  after_tag p evs (top :: open) -> cdata (droppable c_lt) is_datachar raw v ->
  lend en n -> n <> top ->
  feed [p ++ raw ++ en ++ k] = (evs ++ forest_events [] (text_node v), Raised RtExpectedClose).
Proof. exact (mismatched_end p evs top open raw v en n k). Qed.
Print Assumptions C12_mismatched_end.
Theorem C12_surplus_end (w en n k : str) : blank w -> lend en n -> feed [w ++ en ++ k] = ([], Raised IndexErr).
Proof. exact (surplus_end w en n k). Qed.
Print Assumptions C12_surplus_end.
Example C12_case : feed [lit "<a>x</ b >more"] = ([EvStart (lit "a") [] []; EvChars (lit "x")], Raised RtExpectedClose).
Proof. vm_compute. reflexivity. Qed.

(** ** C13 *)
Theorem C13_after_document pieces evs g more :
  feed pieces = (evs, Suspended g) -> complete_document evs ->
  exists o, feed (pieces ++ more) = (evs, o) /\
    (if forallb is_ws (concat more) then exists g', o = Suspended g' else o = Raised RtJunk).
Proof. exact (after_complete_document pieces evs g more). Qed.
Print Assumptions C13_after_document.
Example C13_case : snd (feed ([lit "<a></a>"] ++ [lit " "; lit "x"])) = Raised RtJunk.
Proof. vm_compute. reflexivity. Qed.

(** ** C14, C17 *)
Theorem C14_legal l : Forall legal_event (fst (sends new_parser l)).
Proof. exact (sends_legal l). Qed.
Print Assumptions C14_legal.
Example C14_case : fst (feed [[60; 97; 62; 0; 7; 120; 0xFFFF; 60; 98; 62]%N]) =
  [EvStart (lit "a") [] []; EvChars (lit "x"); EvStart (lit "b") [] [lit "a"]].
Proof. vm_compute. reflexivity. Qed.

(** ** C15 *)
Theorem C15_dropped_in_text (p : str) evs top open (raw en : str) :
  after_tag p evs (top :: open) -> ~ In c_lt raw -> ~ In c_amp raw -> lend en top ->
  exists g, feed [p ++ raw ++ en] =
    (evs ++ (match filter is_datachar raw with [] => [] | v => [EvChars v] end) ++ [EvEnd top (rev open)], Suspended g).
Proof. exact (dropped_in_text p evs top open raw en). Qed.
Print Assumptions C15_dropped_in_text.
Theorem C15_dropped_in_value (pre : str) evs open n d a q (raw : str) :
  in_attr_value pre evs open n d a q -> ~ In q raw -> ~ In c_amp raw ->
  exists g, feed [pre ++ raw ++ [q; c_gt]] =
    (evs ++ [EvStart n (dict_set d a (filter (value_char q) raw)) (rev open)], Suspended g).
Proof. exact (dropped_in_value pre evs open n d a q raw). Qed.
Print Assumptions C15_dropped_in_value.
(** Exactly which characters are dropped. *)
Theorem C15_dropped_characters c :
  (is_datachar c = false <-> ~ micro_char c \/ c = c_amp \/ c = c_lt \/ c = c_gt) /\
  (forall q, is_quote q = true ->
    (value_char q c = false <-> ~ micro_char c \/ c = c_tab \/ c = c_nl \/ c = c_amp \/ c = c_lt \/ c = c_gt \/ c = q)).
Proof. exact (dropped_characters c). Qed.
Print Assumptions C15_dropped_characters.
Example C15_case : fst (feed [lit "<a x='1<2>3'>a>b</a>"]) =
  [EvStart (lit "a") [(lit "x", lit "123")] []; EvChars (lit "ab"); EvEnd (lit "a") []].
Proof. vm_compute. reflexivity. Qed.

(** ** C16 *)
Theorem C16_bad_reference_stalls (p : str) evs top open (raw v b : str) (more : list str) :
  after_tag p evs (top :: open) -> cdata (droppable c_lt) is_datachar raw v -> bad_reference b ->
  exists g, feed ((p ++ raw ++ c_amp :: b) :: more) = (evs, Suspended g).
Proof. exact (bad_reference_stalls p evs top open raw v b more). Qed.
Print Assumptions C16_bad_reference_stalls.
Example C16_case : bad_reference (lit "#10;") /\ bad_reference (lit " ") /\ bad_reference (lit "x-y;").
Proof.
  repeat split.
  - exists [], c_hash, (lit "10;"). repeat split; try discriminate. { intros x []. }
    intros _ _. exists 49%N, (lit "0;"). split; [reflexivity|discriminate].
  - exists [], c_sp, []. repeat split; try discriminate. intros x [].
  - exists (lit "x"), 45%N, (lit "y;"). repeat split; try discriminate. intros x [<-|[]]. reflexivity.
Qed.
Example C16_case_run : fst (feed [lit "<a>x&#10;"; lit "y</a>"; lit "<b>;"]) = [EvStart (lit "a") [] []].
Proof. vm_compute. reflexivity. Qed.

(** ** C17 (uniqueness is part of C14) *)
Theorem C17_unique_keys l n d anc : In (EvStart n d anc) (fst (sends new_parser l)) -> NoDup (map fst d).
Proof. exact (unique_keys l n d anc). Qed.
Print Assumptions C17_unique_keys.
Theorem C17_last_wins (pre : str) evs open n d a q (raw v : str) :
  in_attr_value pre evs open n d a q -> In a (map fst d) -> cdata (droppable q) (value_char q) raw v ->
  exists d' g, feed [pre ++ raw ++ [q; c_gt]] = (evs ++ [EvStart n d' (rev open)], Suspended g) /\
    map fst d' = map fst d /\ dict_get d' a = Some v /\ (forall b, b <> a -> dict_get d' b = dict_get d b).
Proof. exact (last_wins pre evs open n d a q raw v). Qed.
Print Assumptions C17_last_wins.
Example C17_case : fst (feed [lit "<a x='1' y='2' x='3'>"]) = [EvStart (lit "a") [(lit "x", lit "3"); (lit "y", lit "2")] []].
Proof. vm_compute. reflexivity. Qed.

(** ** C18 *)
Theorem C18_coalesced l : text_coalesced (fst (sends new_parser l)) /\
  forall t, In (EvChars t) (fst (sends new_parser l)) -> t <> [].
Proof. exact (coalesced l). Qed.
Print Assumptions C18_coalesced.
Example C18_case : fst (feed [lit "<a>x"; lit "y&lt;"; lit "z<b>"]) =
  [EvStart (lit "a") [] []; EvChars (lit "xy<z"); EvStart (lit "b") [] [lit "a"]].
Proof. vm_compute. reflexivity. Qed.

(** ** C19 *)
Theorem C19_spurious_first_item :
  (forall text items, py_parse text = Some items -> exists evs o, sends new_parser [(text, true)] = (evs, o) /\ items = None :: map Some evs) /\
  (forall frags items, py_parsefrags frags = Some items -> exists evs g, feed frags = (evs, Suspended g) /\ items = None :: map Some evs).
Proof. exact spurious_first_item. Qed.
Print Assumptions C19_spurious_first_item.
Example C19_case : py_parse (lit "<a></a>") = Some [None; Some (EvStart (lit "a") [] []); Some (EvEnd (lit "a") [])].
Proof. vm_compute. reflexivity. Qed.

(** ** C76 *)
Theorem C76_char_classes c :
  (is_character c = true <-> micro_char c) /\
  (is_datachar c = true <-> micro_char c /\ c <> c_amp /\ c <> c_lt /\ c <> c_gt) /\
  (is_namestart c = true <-> micro_namestart c).
Proof. exact (char_classes c). Qed.
Print Assumptions C76_char_classes.
Theorem C76_values c :
  (is_attr_sgl c = true <-> micro_char c /\ c <> c_tab /\ c <> c_nl /\ c <> c_amp /\ c <> c_lt /\ c <> c_gt /\ c <> c_sq) /\
  (is_attr_dbl c = true <-> micro_char c /\ c <> c_tab /\ c <> c_nl /\ c <> c_amp /\ c <> c_lt /\ c <> c_gt /\ c <> c_dq).
Proof. exact (value_classes c). Qed.
Print Assumptions C76_values.
Theorem C76_small c :
  (is_ws c = true <-> c = 0x9 \/ c = 0xA \/ c = 0xD \/ c = 0x20)%N /\
  (is_quote c = true <-> c = 0x22 \/ c = 0x27)%N /\
  (is_hex c = true <-> 0x30 <= c <= 0x39 \/ 0x41 <= c <= 0x46 \/ 0x61 <= c <= 0x66)%N /\
  (is_alnum c = true <-> 0x30 <= c <= 0x39 \/ 0x41 <= c <= 0x5A \/ 0x61 <= c <= 0x7A)%N.
Proof. exact (small_classes c). Qed.
Print Assumptions C76_small.
Theorem C76_namechar c : is_namechar c = true <->
  ((micro_namechar c /\ c <> 0x2E /\ ~ (0xC1 <= c <= 0xD5)) \/ 0xB8 <= c <= 0xBF)%N.
Proof. exact (namechar_iff c). Qed.
Print Assumptions C76_namechar.
Theorem C76_namechar_refuted : exists c, micro_namechar c /\ is_namechar c = false.
Proof. exact namechar_refuted. Qed.
Print Assumptions C76_namechar_refuted.
Example C76_case : is_namechar 0x2E%N = false /\ is_namechar 0xC9%N = false /\ is_namechar 0xB9%N = true /\ is_namestart 0xC9%N = true.
Proof. vm_compute. repeat split. Qed.

(** ** C77 *)
Theorem C77_rejected_markup (t : str) evs open (w0 n attrs : str) d (w : str) c (k : str) :
  at_markup t evs open -> blank w0 -> lname n -> lattrs attrs [] d -> ~ head_is is_namechar attrs -> blank w ->
  cannot_follow n attrs w c ->
  feed [t ++ c_lt :: w0 ++ n ++ attrs ++ w ++ c :: k] = (evs, Raised RtExpectedGt).
Proof. exact (rejected_markup t evs open w0 n attrs d w c k). Qed.
Print Assumptions C77_rejected_markup.
Example C77_case : cannot_follow (lit "a") [] [] c_slash /\ cannot_follow [] [] [] 33%N /\ cannot_follow (lit "a") [] [] 0x2E%N.
Proof. repeat split; try discriminate. Qed.
Example C77_case_runs :
  snd (feed [lit "<a/>"]) = Raised RtExpectedGt /\ snd (feed [lit "<a><!-- c --></a>"]) = Raised RtExpectedGt /\
  snd (feed [lit "<?xml version='1.0'?><a></a>"]) = Raised RtExpectedGt /\ snd (feed [lit "<a.b></a.b>"]) = Raised RtExpectedGt.
Proof. vm_compute. repeat split. Qed.

(** ** C78 *)
Theorem C78_space_after_equals (pre : str) evs open n d a q (w2 k : str) :
  in_attr_value (pre ++ [q]) evs open n d a q -> blank w2 -> w2 <> [] ->
  feed [pre ++ w2 ++ q :: k] = (evs, Raised RtExpectedEq).
Proof. exact (space_after_equals pre evs open n d a q w2 k). Qed.
Print Assumptions C78_space_after_equals.
Example C78_case : in_attr_value (lit "<a x=" ++ [c_sq]) [] [] (lit "a") [] (lit "x") c_sq /\
  snd (feed [lit "<a x= '1'></a>"]) = Raised RtExpectedEq.
Proof. split; [exact C02_case|vm_compute; reflexivity]. Qed.
