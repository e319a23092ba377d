(** Expressions over node objects: C133. *)
From Verif Require Import PyStr Parser XTree Tree Path TreeUtil Heap Builder BuilderFacts HeapSpec HeapFacts BuilderMore RootCache RootSpec RootFacts DocOrder DocOrderSpec.
From Verif Require Import XPath HeapNav HeapNavSpec HeapNavFacts HeapEval HeapEvalSpec HeapEvalFacts HeapEvalMain Prop_HeapNav.

(** ** C133 *)
Theorem C133_expressions h r w hv c v (DD : Prop) fuel e x y : (forall z, history h (c z)) -> document h r (doc w) -> is_element (doc w) ->
  same_vars h r (vars w) hv -> good_numbers h v -> (DD -> forall s e', xparse w s = inl e' -> careful DD e') ->
  careful DD e -> vstands h r x y -> vsame h r (eval w fuel e x) (heval h w hv c v fuel e y).
Proof.
  intros Hh D El V N Dy K. apply (expr_rel h r w hv c v DD); auto; [exact (proj1 (history_ok _ _ (Hh (VInt 0))))|]. intros z. exact (proj2 (history_ok _ _ (Hh z))).
Qed.
Print Assumptions C133_expressions.
Theorem C133_trees h r c v h' r' c' v' w hv hv' (DD : Prop) fuel e y y' :
  (forall z, history h (c z)) -> (forall z, history h' (c' z)) -> document h r (doc w) -> document h' r' (doc w) -> is_element (doc w) ->
  same_vars h r (vars w) hv -> same_vars h' r' (vars w) hv' -> good_numbers h v -> good_numbers h' v' ->
  (DD -> forall s e', xparse w s = inl e' -> careful DD e') -> careful DD e -> alike h r h' r' y y' ->
  Forall2 (alike h r h' r') (fst (heval h w hv c v fuel e y)) (fst (heval h' w hv' c' v' fuel e y')) /\
  snd (heval h w hv c v fuel e y) = snd (heval h' w hv' c' v' fuel e y').
Proof.
  intros H H' D D' El V V' N N' Dy K (x & Hx & Hx'). destruct (C133_expressions h r w hv c v DD fuel e x y H D El V N Dy K Hx) as [A1 A2].
  destruct (C133_expressions h' r' w hv' c' v' DD fuel e x y' H' D' El V' N' Dy K Hx') as [B1 B2]. split; [|congruence].
  clear - A1 B1. revert B1. generalize (fst (heval h' w hv' c' v' fuel e y')). induction A1 as [|i j l m Hi _ IH]; intros k B; inversion B; subst; constructor; [exists i; auto|auto].
Qed.
Print Assumptions C133_trees.
Theorem C133_values h r h' r' y y' : alike h r h' r' y y' -> vnode y = false -> y = y'.
Proof. intros (x & A & B) E. destruct A; try discriminate E; inversion B; reflexivity. Qed.
Print Assumptions C133_values.
Theorem C133_edits h i o : edits empty_heap h -> hp h i = Some o -> exists r t a, document h r t /\ follow h r a = Some i /\
  forall w hv c v (DD : Prop) fuel e b, doc w = t -> is_element t -> (forall z, history h (c z)) -> same_vars h r (vars w) hv -> good_numbers h v ->
    (DD -> forall s e', xparse w s = inl e' -> careful DD e') -> careful DD e ->
    vsame h r (eval w fuel e (INode a)) (heval h w hv c v fuel e (Obj (HNode i) b)).
Proof.
  intros H Ho. destruct (live_document h i o (editing_well_linked h H) Ho) as (r & t & a & D & F). exists r, t, a. split; [exact D|]. split; [exact F|].
  intros w hv c v DD fuel e b <- El Hc V N Dy K. eapply C133_expressions; eauto. constructor. exact F.
Qed.
Print Assumptions C133_edits.
Lemma e131_document : document e131 0 t131.
Proof. split; [eexists; split; [vm_compute; reflexivity|reflexivity]|]. eexists. eapply hd_elem; [vm_compute; reflexivity|]. repeat econstructor. Qed.
(** The numbers when nothing has been numbered before. *)
Definition v133 (x : hval) : numbers := match x with Obj y _ => prepare e131 no_numbers (as_ditem y) | _ => no_numbers end.
Lemma v133_good : good_numbers e131 v133.
Proof. intros x o. exists no_numbers. split; [constructor; exact (editing_well_linked _ e131_edits)|]. constructor. Qed.
(** The cache after the root of [i] has been asked for. *)
Definition c133 (i : ref) : rcache := match get e131 empty_cache (RNode i) with Some (RGot c _) => c | _ => empty_cache end.
Lemma c133_history : history e131 (c133 1).
Proof.
  assert (H : history e131 empty_cache) by (constructor; exact (editing_well_linked _ e131_edits)). destruct (get e131 empty_cache (RNode 1)) as [[c q|]|] eqn:E; [|vm_compute in E; discriminate E|vm_compute in E; discriminate E].
  unfold c133. rewrite E. eapply hi_get; [exact H|exact E].
Qed.
(** [/ != ../..] at [b]: the root node of the document is not itself. *)
Theorem C133_root_refuted : exists h r w hv c v e x y, (forall z, history h (c z)) /\ document h r (doc w) /\ is_element (doc w) /\ same_vars h r (vars w) hv /\
  good_numbers h v /\ vstands h r x y /\ eval w 0 e x = ([IBool false], Done) /\ heval h w hv c v 0 e y = ([VBool true], Done).
Proof.
  exists e131, 0, w131, [], (fun z => match z with Obj (HNode 1) _ => empty_cache | _ => c133 1 end), v133,
    (EBin (EAbs false None) OpNe (EBin (EAbbrev true) OpPath (EAbbrev true))), (INode [1]), (Obj (HNode 1) Made).
  split; [intros [[q|[|[|i]]|i k s] o|s|z|f|b]; try exact c133_history; constructor; exact (editing_well_linked _ e131_edits)|].
  split; [exact e131_document|]. split; [do 3 eexists; reflexivity|]. split; [constructor|]. split; [exact v133_good|]. split; [constructor; vm_compute; reflexivity|].
  split; vm_compute; reflexivity.
Qed.
Print Assumptions C133_root_refuted.
(** [. | /a/..] at the root node: the other root node has no number. *)
Theorem C133_union_refuted : exists h r w hv c v e x y, (forall z, history h (c z)) /\ document h r (doc w) /\ is_element (doc w) /\ same_vars h r (vars w) hv /\
  good_numbers h v /\ vstands h r x y /\ eval w 0 e x = ([IRoot; IRoot], Done) /\ heval h w hv c v 0 e y = ([], Exn AttributeErr).
Proof.
  exists e131, 0, w131, [], (fun _ => c133 1), v133,
    (EBin (EAbbrev false) OpUnion (EBin (EAbs false (Some (EStep AxChild (TName (lit "a"))))) OpPath (EAbbrev true))), IRoot, (Obj (HRoot (mkRoot 0 0)) Made).
  split; [intros z; exact c133_history|].
  split; [exact e131_document|]. split; [do 3 eexists; reflexivity|]. split; [constructor|]. split; [exact v133_good|]. split; [constructor; vm_compute; reflexivity|].
  split; vm_compute; reflexivity.
Qed.
Print Assumptions C133_union_refuted.
(** At [c]: [count(//node())], [string(/)], [name(../..)], [//d | //c], [/a/*[name() = "d"]],
    [for-each(//*, "name()")], [$n/..], [//text() != ..]. *)
Definition w133 : env := mkEnv t131 [(lit "n", INode [3])] (fun s => inl (ECall (lit "name") [])) (fun _ => None) (fun _ => []).
Definition q133 : list expr :=
  [ECall (lit "count") [EAbs true (Some (EStep AxChild TNode))]; ECall (lit "string") [EAbs false None];
   ECall (lit "name") [EBin (EAbbrev true) OpPath (EAbbrev true)];
   EBin (EAbs true (Some (EStep AxChild (TName (lit "d"))))) OpUnion (EAbs true (Some (EStep AxChild (TName (lit "c")))));
   EAbs false (Some (EBin (EStep AxChild (TName (lit "a"))) OpPath (EPred (EStep AxChild TStar) [EBin (ECall (lit "name") []) OpEq (ELit (LStr (lit "d")))])));
   ECall (lit "for-each") [EAbs true (Some (EStep AxChild TStar)); ELit (LStr (lit "name()"))];
   EBin (EVar (lit "n")) OpPath (EAbbrev true);
   EBin (EAbs true (Some (EStep AxChild TText))) OpNe (EAbbrev true)].
Example C133_case : document e131 0 (doc w133) /\ is_element (doc w133) /\ (forall z : hval, history e131 ((fun _ => c133 1) z)) /\
  same_vars e131 0 (vars w133) [(lit "n", Obj (HNode 3) Made)] /\ good_numbers e131 v133 /\ (True -> forall s e', xparse w133 s = inl e' -> careful True e') /\
  Forall (careful True) q133 /\ vstands e131 0 (INode [1; 0]) (Obj (HNode 2) Made) /\
  map (fun e => heval e131 w133 [(lit "n", Obj (HNode 3) Made)] (fun _ => c133 1) v133 1 e (Obj (HNode 2) Made)) q133 =
    [([VInt 7], Done); ([VStr []], Done); ([VStr (lit "a")], Done); ([Obj (HNode 2) Made; Obj (HNode 3) Made], Done); ([Obj (HNode 3) Made], Done);
     ([VStr (lit "a"); VStr (lit "b"); VStr (lit "d"); VStr (lit "c")], Done); ([Obj (HNode 0) Made], Done); ([VBool true], Done)].
Proof.
  split; [exact e131_document|]. split; [do 3 eexists; reflexivity|]. split; [intros z; exact c133_history|].
  split; [repeat constructor; vm_compute; reflexivity|]. split; [exact v133_good|].
  split; [intros _ s e' E; injection E as <-; cbn; split; [intros; exact I|exact I]|].
  split; [repeat constructor; cbn; try discriminate; auto|]. split; [constructor; vm_compute; reflexivity|]. vm_compute. reflexivity.
Qed.
