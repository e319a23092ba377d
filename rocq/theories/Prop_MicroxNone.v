(** Theorems about exec/microx with sources that have no element. *)
From Verif Require Import PyStr Parser XTree Heap HeapSpec Builder Expat ExpatSpec ExpatFacts Path.
From Verif Require Import XPath XGram XLex XQuery XQueryFacts Microx MicroxSpec MicroxMain MicroxMainSpec MicroxMainFacts MicroxUse MicroxBad MicroxBadSpec MicroxNone MicroxNoneSpec MicroxNoneFacts Prop_MicroxMain.

(** ** C140 *)
(** If the first source has an element, it is the program of C139. *)
Theorem C140_same v tf fs n h a cs1 cs2 u srcs o : absent (o_partition a) -> report (cs1 ++ cs2) [u] -> is_element u -> ~ no_element cs1 ->
  microx_any v tf fs n h a ((cs1, false) :: srcs) o <-> microx_files v tf fs n h a ((cs1, false) :: srcs) o.
Proof. exact (any_files v tf fs n h a cs1 cs2 u srcs o). Qed.
Print Assumptions C140_same.
(** A first source without an element is not reported as such: the program ends with an AttributeError ... *)
Theorem C140_find v tf fs n h a s fe cs srcs o : asks v a (CmdFind s) fe -> absent (o_partition a) -> no_element cs -> allocated h ->
  microx_any v tf fs n h a ((cs, false) :: srcs) o <-> o = ([], Ends (Exn AttributeErr)).
Proof. exact (any_find v tf fs n h a s fe cs srcs o). Qed.
Print Assumptions C140_find.
Theorem C140_relative v tf fs n h a c e fe ax t cs srcs o : asks v a c fe -> c = CmdExpr e \/ c = CmdMatch e -> absent (o_partition a) -> begins ax t e -> moves ax t -> no_element cs -> allocated h ->
  microx_any v tf fs n h a ((cs, false) :: srcs) o <-> o = ([], Ends (Exn AttributeErr)).
Proof. exact (any_relative v tf fs n h a c e fe ax t cs srcs o). Qed.
Print Assumptions C140_relative.
(** ... or, for an absolute path, with an AssertionError. *)
Theorem C140_absolute v tf fs n h a c e fe cs srcs o : asks v a c fe -> c = CmdExpr e \/ c = CmdMatch e -> absent (o_partition a) -> absolute e -> no_element cs -> allocated h ->
  microx_any v tf fs n h a ((cs, false) :: srcs) o <-> o = ([], Ends (Exn AssertionErr)).
Proof. exact (any_absolute v tf fs n h a c e fe cs srcs o). Qed.
Print Assumptions C140_absolute.
(** A path that starts with an attribute or with self and a test prints nothing, and the sources after it are read; with --match the program ends all the same. *)
Theorem C140_passed v tf fs n h a e fe ax t sh blanks cs u srcs o : asks v a (CmdExpr e) fe -> shows a sh -> absent (o_partition a) -> begins ax t e -> stays ax t -> Forall no_element blanks -> allocated h ->
  report cs [u] -> is_element u -> Forall (fun cs => exists ks, report cs ks) srcs ->
  microx_any v tf fs n h a (map fine (blanks ++ cs :: srcs)) o <-> exists o', in_turn (fun _ => run (world v [] tf fs u) n (CmdExpr e) fe (o_limit a) sh) (cs :: srcs) o' /\ o = ends o'.
Proof. intros A S P B M N H R T W. exact (any_passed v tf fs n h a e fe ax t sh blanks cs u srcs o A S P B M N H R T (report_well srcs W)). Qed.
Print Assumptions C140_passed.
Theorem C140_silent v tf fs n h a e fe ax t blanks o : asks v a (CmdExpr e) fe -> absent (o_partition a) -> begins ax t e -> stays ax t -> Forall no_element blanks -> allocated h ->
  microx_any v tf fs n h a (map fine blanks) o <-> o = ([], Ends Done).
Proof. exact (any_silent v tf fs n h a e fe ax t blanks o). Qed.
Print Assumptions C140_silent.
Theorem C140_match v tf fs n h a e fe ax t cs srcs o : asks v a (CmdMatch e) fe -> absent (o_partition a) -> begins ax t e -> stays ax t -> no_element cs -> allocated h ->
  microx_any v tf fs n h a ((cs, false) :: srcs) o <-> o = ([], Ends (Exn AttributeErr)).
Proof. exact (any_match v tf fs n h a e fe ax t cs srcs o). Qed.
Print Assumptions C140_match.
(** What is done at None is what XPath does at a number or a truth value, None in the place of that item. *)
Theorem C140_like w n i e k f : plain i -> vars w = [] -> none_eval e = Some (k, f) -> eval w n e i = (repeat i k, f).
Proof. intros P V E. exact (plain_eval w n i V P e k f E). Qed.
Print Assumptions C140_like.
Example C140_like_case : none_eval (EBin (EStep AxSelf TStar) OpDeep (EStep AxChild TStar)) = Some (1, Exn AttributeErr) /\ plain (IInt 0) /\ vars (world env0 [] floats shown_float doc1) = [].
Proof. repeat split. Qed.
(** So the lines for one such source are the word None, as many times as the path, continued with that of --foreach, has results there. *)
Theorem C140_lines v tf fs n h a e fe k f cs o : asks v a (CmdExpr e) fe -> absent (o_partition a) -> none_eval (joined e fe) = Some (k, f) -> no_element cs -> allocated h ->
  (microx_any v tf fs n h a [(cs, false)] o <-> o = (repeat (lit "None") k, Ends f)) /\
  (forall w m i, plain i -> vars w = [] -> eval w m (joined e fe) i = (repeat i k, f)).
Proof. intros A P E N H. split; [exact (any_lines v tf fs n h a e fe k f cs o A P E N H)|]. intros w m i I V. exact (plain_eval w m i V I _ k f E). Qed.
Print Assumptions C140_lines.
Example C140_lines_case : let a := mkO (Some (lit "./self::*")) None None (Some (lit ".")) None None None in exists e g, asks env0 a (CmdExpr e) (Some g) /\ none_eval (joined e (Some g)) = Some (1, Done).
Proof.
  cbv zeta. do 2 eexists. split.
  - apply (as_expr env0 _ (lit "./self::*")); [discriminate|reflexivity|left; reflexivity|left; reflexivity|apply uxpath_parse_ok; vm_compute; reflexivity|].
    right. exists (lit "."). eexists. split; [discriminate|]. split; [reflexivity|]. split; [apply uxpath_parse_ok; vm_compute; reflexivity|reflexivity].
  - reflexivity.
Qed.
(** Finding: --expr . prints a line for a source without any node. *)
Theorem C140_printed_refuted : exists v tf fs n a, forall cs h, no_element cs -> allocated h -> microx_any v tf fs n h a [(cs, false)] ([lit "None"], Ends Done).
Proof.
  exists env0, floats, shown_float, 9, (with_expr "."). intros cs h N A.
  assert (Q : asks env0 (with_expr ".") (CmdExpr (EAbbrev false)) None) by (apply (asks_expr "."); [discriminate|reflexivity..|vm_compute; reflexivity]).
  apply (any_run env0 floats shown_float 9 h (with_expr ".") _ _ _ _ Q); [left; reflexivity|].
  apply (any_pass_back _ _ h cs [] ([], Ends Done) [lit "None"] N); [reflexivity|constructor].
Qed.
Print Assumptions C140_printed_refuted.
Example C140_case : no_element [] /\ ~ no_element src1 /\
  (exists e, asks env0 (with_expr "a[1]/b//c") (CmdExpr e) None /\ begins AxChild (TName (lit "a")) e) /\ moves AxChild (TName (lit "a")) /\
  (exists e, asks env0 (with_expr "//a") (CmdExpr e) None /\ absolute e) /\
  (exists e, asks env0 (with_expr "@k") (CmdExpr e) None /\ begins AxAttribute (TName (lit "k")) e) /\ stays AxAttribute (TName (lit "k")) /\ stays AxSelf TNode /\
  (exists e, asks env0 (mkO None (Some (lit "self::a")) None None None None None) (CmdMatch e) None /\ begins AxSelf (TName (lit "a")) e) /\ asks env0 (with_find "x" "k") (CmdFind (lit "x")) None.
Proof.
  split; [eexists; reflexivity|]. split; [intros (stk & E); vm_compute in E; discriminate E|].
  split; [eexists; split; [apply (asks_expr "a[1]/b//c"); [discriminate|reflexivity..|vm_compute; reflexivity]|repeat constructor]|].
  split; [split; [discriminate|split; [discriminate|intros _; discriminate]]|].
  split; [eexists; split; [apply (asks_expr "//a"); [discriminate|reflexivity..|vm_compute; reflexivity]|constructor]|].
  split; [eexists; split; [apply (asks_expr "@k"); [discriminate|reflexivity..|vm_compute; reflexivity]|repeat constructor]|].
  split; [left; reflexivity|]. split; [right; split; [reflexivity|discriminate]|].
  split.
  - eexists. split; [|constructor]. apply (as_match env0 _ (lit "self::a")); [discriminate|reflexivity|left; reflexivity|left; reflexivity|apply uxpath_parse_ok; vm_compute; reflexivity|left; split; [left; reflexivity|reflexivity]].
  - apply (as_find env0 _ (lit "x")); [discriminate|reflexivity|left; reflexivity|left; reflexivity|left; split; [left; reflexivity|reflexivity]].
Qed.
