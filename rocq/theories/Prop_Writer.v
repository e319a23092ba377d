(** Properties C35-C38 and C80 (writer.py).  The specifications are in WriterSpec.v,
    TreeSpec.v, XTree.v and Grammar.v. *)
From Verif Require Import PyStr CharClass Parser XTree Grammar ParserSpec.
From Verif Require Import Tree TreeSpec Writer WriterSpec WriterFacts.

(** ** C35 *)
Theorem C35_writer_is_encode n a ks d :
  snd (raw_run (new_raw [] d) (write_calls (XE n a ks))) = xml_encode (XE n a ks).
Proof. exact (writer_encode n a ks d). Qed.
Print Assumptions C35_writer_is_encode.
Example C35_case : snd (raw_run (new_raw [] 0) (write_calls (XE (lit "a") [(lit "x", lit "1&2"); (lit "y", lit "'")] [XT (lit "u<"); XE (lit "b") [] []])))
  = lit "<a x=""1&amp;2"" y=""'"">u&lt;<b></b></a>".
Proof. vm_compute. reflexivity. Qed.

(** ** C36 *)
Theorem C36_calls_parse cs d : document_calls cs [] -> Forall good_call cs ->
  (exists g, feed [snd (raw_run (new_raw [] d) cs)] = (coalesce (call_events [] cs), Suspended g)) /\
  complete_document (coalesce (call_events [] cs)).
Proof. exact (writer_parses cs d). Qed.
Print Assumptions C36_calls_parse.
Definition cs1 : list wcall :=
  [CStart (lit "a") [(lit "x", lit "1"); (lit "y", lit """'")] false; CText (lit "t"); CText (lit "<&>");
   CStart (lit "b") [] false; CText []; CEnd (lit "b"); CEnd (lit "a")].
Lemma cs1_doc : document_calls cs1 [].
Proof. do 3 eexists. split; [reflexivity|]. repeat (constructor; try discriminate). Qed.
Ltac in_cases := repeat match goal with
  | H : In _ _ |- _ => cbn in H; repeat destruct H as [H|H]; try contradiction
  | H : (_, _) = (_, _) |- _ => inversion H; clear H; subst
  end; try discriminate.
Ltac is_name := do 2 eexists; split; [reflexivity|split; [reflexivity|]]; intros; in_cases; subst; reflexivity.
Ltac good_start := split; [is_name|split; [repeat constructor; intro; in_cases|intros; in_cases;
  (split; [is_name|repeat split; intro; in_cases])]].
Lemma cs1_good : Forall good_call cs1.
Proof. unfold cs1. repeat apply Forall_cons; try exact I; try (good_start; fail); try is_name. constructor. Qed.
Example C36_case : document_calls cs1 [] /\ Forall good_call cs1 /\
  coalesce (call_events [] cs1) =
  [EvStart (lit "a") [(lit "x", lit "1"); (lit "y", lit """'")] []; EvChars (lit "t<&>");
   EvStart (lit "b") [] [lit "a"]; EvEnd (lit "b") [lit "a"]; EvEnd (lit "a") []].
Proof. split; [exact cs1_doc|]. split; [exact cs1_good|]. vm_compute. reflexivity. Qed.

(** ** C37 *)
Theorem C37_declared_once prefixes mapping cs : (forall n a, ~ In (CStart n a true) cs) ->
  snd (ns_run prefixes mapping new_namespacer cs) =
  snd (raw_run (new_raw [] 0) (with_prefixes (declared prefixes) mapping cs)).
Proof. exact (namespacer_output prefixes mapping cs). Qed.
Print Assumptions C37_declared_once.
Theorem C37_no_prefixes cs : (forall n a, ~ In (CStart n a true) cs) ->
  snd (ns_run [] [] new_namespacer cs) = snd (raw_run (new_raw [] 0) cs).
Proof. exact (namespacer_plain cs). Qed.
Print Assumptions C37_no_prefixes.
Example C37_case : snd (ns_run [([], lit "u"); (lit "p", lit "v")] [(lit "b", (lit "v", lit "p")); (lit "@k", (lit "v", lit "p"))] new_namespacer
    [CStart (lit "a") [(lit "k", lit "1"); (lit "l", lit "2")] false; CStart (lit "b") [] false; CEnd (lit "b"); CEnd (lit "a")])
  = lit "<a xmlns=""u"" xmlns:p=""v"" p:k=""1"" l=""2""><p:b></p:b></a>".
Proof. vm_compute. reflexivity. Qed.

(** ** C38 *)
Theorem C38_only_white indent depth cs : blank indent ->
  exists cs', whites cs cs' /\ snd (raw_run (new_raw indent depth) cs) = snd (raw_run (new_raw [] 0) cs').
Proof. exact (indent_whites indent depth cs). Qed.
Print Assumptions C38_only_white.
Theorem C38_depth s open cs open' : calls open cs open' ->
  (wdepth (fst (raw_run s cs)) = wdepth s + Z.of_nat (length open') - Z.of_nat (length open))%Z.
Proof. intros H. exact (raw_depth open cs open' H s). Qed.
Print Assumptions C38_depth.
Theorem C38_parse indent depth cs : blank indent -> document_calls cs [] -> Forall good_call cs ->
  exists evs g, feed [snd (raw_run (new_raw indent depth) cs)] = (evs, Suspended g) /\ complete_document evs /\
    skeleton evs = skeleton (coalesce (call_events [] cs)).
Proof. exact (indent_parses indent depth cs). Qed.
Print Assumptions C38_parse.
Theorem C38_layout indent d cs c : blank indent -> indent <> [] -> exists w : str,
  snd (raw_run (new_raw indent d) (cs ++ [c])) =
    snd (raw_run (new_raw indent d) cs) ++ w ++ snd (raw_run (new_raw [] 0) [c]) ++ break_after indent d cs c /\
  break_before indent d cs c w.
Proof. exact (indent_layout indent d cs c). Qed.
Print Assumptions C38_layout.
Theorem C38_siblings indent d n a n1 a1 n2 a2 : blank indent -> indent <> [] ->
  snd (raw_run (new_raw indent d) (write_calls (XE n a [XE n1 a1 []; XE n2 a2 []]))) =
  snd (raw_run (new_raw [] 0) [CStart n a false]) ++ new_line indent (d + 1)
  ++ xml_encode (XE n1 a1 []) ++ new_line indent (d + 2) ++ xml_encode (XE n2 a2 [])
  ++ new_line indent (d + 2) ++ snd (raw_run (new_raw [] 0) [CEnd n]) ++ new_line indent (d + 1).
Proof. exact (siblings_layout indent d n a n1 a1 n2 a2). Qed.
Print Assumptions C38_siblings.
Example C38_layout_case :
  let cs := [CStart (lit "a") [] false; CText (lit "t")] in
  just_opened cs /\ ~ just_opened (cs ++ [CEnd (lit "a")]) /\ level 0 cs = 1%Z /\
  snd (raw_run (new_raw (lit "  ") 0) (cs ++ [CStart (lit "b") [] true]))
    = lit "<a>t" ++ new_line (lit "  ") 1 ++ lit "<b/>" ++ new_line (lit "  ") 1.
Proof.
  cbn zeta. split; [exists [], (lit "a"), [], [lit "t"]; reflexivity|]. split.
  - intros (pre & n & a & ts & E). destruct ts as [|t ts _] using rev_ind.
    + cbn [map] in E. apply app_inj_tail in E. destruct E as [_ E]. discriminate.
    + rewrite map_app in E. cbn [map] in E. rewrite app_comm_cons, app_assoc in E. apply app_inj_tail in E. destruct E as [_ E]. discriminate.
  - vm_compute. split; reflexivity.
Qed.
Example C38_case : blank (lit "  ") /\ snd (raw_run (new_raw (lit "  ") 0)
    [CStart (lit "a") [] false; CStart (lit "b") [] false; CText (lit "t"); CEnd (lit "b"); CEnd (lit "a")])
  = lit "<a>" ++ c_nl :: lit "  <b>t</b>" ++ c_nl :: lit "    </a>" ++ c_nl :: lit "  ".
Proof. split; [intros c [<-|[<-|[]]]; reflexivity|]. vm_compute. reflexivity. Qed.

(** ** C80: what the writers can write but the parser rejects *)
Theorem C80_empty_rejected cs open n a more d : in_progress cs open -> Forall good_call cs -> good_call (CStart n a true) ->
  feed [snd (raw_run (new_raw [] d) (cs ++ CStart n a true :: more))] = (coalesce (call_events [] cs), Raised RtExpectedGt).
Proof. exact (empty_rejected cs open n a more d). Qed.
Print Assumptions C80_empty_rejected.
Theorem C80_prefix_rejected prefixes mapping cs open n a more u p :
  (forall m b, ~ In (CStart m b true) (cs ++ CStart n a false :: more)) ->
  in_progress (with_prefixes (declared prefixes) mapping cs) open ->
  Forall good_call (with_prefixes (declared prefixes) mapping cs) ->
  dict_get mapping n = Some (u, p) -> name p ->
  feed [snd (ns_run prefixes mapping new_namespacer (cs ++ CStart n a false :: more))] =
    (coalesce (call_events [] (with_prefixes (declared prefixes) mapping cs)), Raised RtExpectedGt).
Proof. exact (prefix_rejected prefixes mapping cs open n a more u p). Qed.
Print Assumptions C80_prefix_rejected.
Theorem C80_declaration_rejected p1 k v p2 mapping n a more :
  (forall m b, ~ In (CStart m b true) (CStart n a false :: more)) ->
  name (prefixed mapping n n) -> NoDup (map fst p1) -> (forall k' v', In (k', v') p1 -> k' = [] /\ plain_value v') -> k <> [] ->
  feed [snd (ns_run (p1 ++ (k, v) :: p2) mapping new_namespacer (CStart n a false :: more))] = ([], Raised RtExpectedEq).
Proof. exact (declaration_rejected p1 k v p2 mapping n a more). Qed.
Print Assumptions C80_declaration_rejected.
Example C80_case :
  (let cs := [CStart (lit "a") [(lit "k", lit "1")] false; CText (lit "t")] in
   document_calls cs [lit "a"] /\
   feed [snd (raw_run (new_raw [] 0) (cs ++ [CStart (lit "b") [] true; CEnd (lit "a")]))] =
     ([EvStart (lit "a") [(lit "k", lit "1")] []; EvChars (lit "t")], Raised RtExpectedGt)) /\
  feed [snd (ns_run [(lit "p", lit "u")] [] new_namespacer [CStart (lit "a") [] false; CEnd (lit "a")])] = ([], Raised RtExpectedEq) /\
  feed [snd (ns_run [] [(lit "a", (lit "u", lit "p"))] new_namespacer [CStart (lit "a") [] false; CEnd (lit "a")])] = ([], Raised RtExpectedGt).
Proof.
  split; [|vm_compute; split; reflexivity]. split; [|vm_compute; reflexivity].
  do 3 eexists. split; [reflexivity|]. repeat (constructor; try discriminate).
Qed.
