(** Location paths over node objects: C131. *)
From Verif Require Import PyStr Parser XTree Tree Path TreeUtil Heap Builder BuilderFacts HeapSpec HeapFacts BuilderMore RootCache RootSpec DocOrderSpec.
From Verif Require Import XPath HeapNav HeapNavSpec HeapNavFacts.

(** ** C131 *)
Theorem C131_steps h c r w fuel ax t x y : history h c -> document h r (doc w) -> tree_size (doc w) <= fuel -> stands h r x y ->
  same_res h r (step w fuel ax t x) (hstep h c fuel ax t y).
Proof. exact (history_step h c r w fuel ax t x y). Qed.
Print Assumptions C131_steps.
Theorem C131_paths h (c : hitem -> rcache) r w fuel p x y : (forall z, history h (c z)) -> document h r (doc w) -> tree_size (doc w) <= fuel ->
  stands h r x y -> same_res h r (eval w fuel (path_expr p) x) (hpath h c fuel p y).
Proof. exact (history_document h c r w fuel p x y). Qed.
Print Assumptions C131_paths.
Theorem C131_live h i o : well_linked h -> hp h i = Some o -> exists r t a, document h r t /\ follow h r a = Some i.
Proof. exact (live_document h i o). Qed.
Print Assumptions C131_live.
Theorem C131_unique h r w a b i : well_linked h -> document h r (doc w) -> follow h r a = Some i -> follow h r b = Some i -> a = b.
Proof. exact (fun W D => rel_inj h r w W D a b i). Qed.
Print Assumptions C131_unique.
Theorem C131_edits h i o : edits empty_heap h -> hp h i = Some o -> exists r t a, document h r t /\ follow h r a = Some i /\
  forall w (c : hitem -> rcache) fuel p, doc w = t -> (forall z, history h (c z)) -> tree_size t <= fuel ->
    same_res h r (eval w fuel (path_expr p) (INode a)) (hpath h c fuel p (HNode i)).
Proof.
  intros H Ho. destruct (live_document h i o (editing_well_linked h H) Ho) as (r & t & a & D & F). exists r, t, a. split; [exact D|]. split; [exact F|].
  intros w c fuel p <- Hc Hf. apply history_document; auto. constructor. exact F.
Qed.
Print Assumptions C131_edits.
Theorem C131_moved h c i c' rt self index h' fuel : history h c -> is_elem h i -> parent_is h i None -> ~ below h i self ->
  get h c (RNode i) = Some (RGot c' rt) -> xml_insert h self (ARef i) index = EOk h' ->
  hpath h' (fun _ => c') fuel LRoot (HNode i) = ([HRoot rt], Done) /\ forall top, top_of h' i top -> docelem rt <> top.
Proof. exact (stale_path h c i c' rt self index h' fuel). Qed.
Print Assumptions C131_moved.
(** [<a>t<b><c></c></b>t<d></d></a>] made by edits. *)
Definition e131 : heap :=
  let new n h := fst (alloc h (OElem (lit n) [] [] None)) in
  let into i x h := match xml_insert h i x (-1) with EOk h' => h' | EExn h' _ => h' end in
  into 0 (ARef 3) (into 0 (AStr (lit "t")) (into 0 (ARef 1) (into 1 (ARef 2) (into 0 (AStr (lit "t")) (new "d" (new "c" (new "b" (new "a" empty_heap))))))))%string.
Definition t131 : xtree := XE (lit "a") [] [XT (lit "t"); XE (lit "b") [] [XE (lit "c") [] []]; XT (lit "t"); XE (lit "d") [] []].
Definition w131 : env := mkEnv t131 [] (fun _ => inr TypeErr) (fun _ => None) (fun _ => []).
Lemma e131_edits : edits empty_heap e131.
Proof.
  eapply eds_cons; [apply (ed_new_elem empty_heap (lit "a") [])|]. eapply eds_cons; [apply (ed_new_elem _ (lit "b") [])|].
  eapply eds_cons; [apply (ed_new_elem _ (lit "c") [])|]. eapply eds_cons; [apply (ed_new_elem _ (lit "d") [])|].
  assert (L : forall h i j, below h i j -> i <> j -> exists o, hp h i = Some o /\ okids o <> []).
  { intros h i j B. induction B as [|i k j B IH (o & Ho & Hin)]; [congruence|]. intros _. destruct (Nat.eq_dec i k) as [->|Hn]; [|auto].
    exists o. split; [auto|]. intros E. rewrite E in Hin. destruct Hin. }
  eapply eds_cons; [eapply (ed_insert_text _ 0 (AStr (lit "t")) (lit "t") (-1)); [left; reflexivity|reflexivity]|].
  eapply eds_cons; [eapply (ed_insert_elem _ 1 2 (-1)); [do 4 eexists; reflexivity|eexists; split; reflexivity| |reflexivity]|].
  { intros B. apply L in B as (o & Ho & Hk); [|discriminate]. vm_compute in Ho. inversion Ho; subst. apply Hk. reflexivity. }
  eapply eds_cons; [eapply (ed_insert_elem _ 0 1 (-1)); [do 4 eexists; reflexivity|eexists; split; reflexivity| |reflexivity]|].
  { intros B. inversion B as [|p k j B1 (o & Ho & Hin)]; subst. clear B1 B. destruct k as [|[|[|[|[|k]]]]]; vm_compute in Ho; inversion Ho; subst; cbn in Hin;
      repeat (destruct Hin as [Hin|Hin]; [discriminate Hin|]); destruct Hin. }
  eapply eds_cons; [eapply (ed_insert_text _ 0 (AStr (lit "t")) (lit "t") (-1)); [left; reflexivity|reflexivity]|].
  eapply eds_cons; [eapply (ed_insert_elem _ 0 3 (-1)); [do 4 eexists; reflexivity|eexists; split; reflexivity| |reflexivity]|].
  { intros B. apply L in B as (o & Ho & Hk); [|discriminate]. vm_compute in Ho. inversion Ho; subst. apply Hk. reflexivity. }
  apply eds_nil.
Qed.
(** At the element [c]: [../..], [ancestor::a/d], [//b/c], [/a/*[2]], [../following-sibling::node()];
    at the second text node, its following siblings: those of the first one. *)
Example C131_case : edits empty_heap e131 /\ (forall z : hitem, history e131 ((fun _ => empty_cache) z)) /\ document e131 0 t131 /\
  stands e131 0 (INode [1; 0]) (HNode 2) /\
  map (fun p => hpath e131 (fun _ => empty_cache) 20 p (HNode 2))
    [LSlash (LUp true) (LUp true); LSlash (LStep AxAncestor (TName (lit "a"))) (LStep AxChild (TName (lit "d")));
     LAbs true (LSlash (LStep AxChild (TName (lit "b"))) (LStep AxChild (TName (lit "c"))));
     LAbs false (LSlash (LStep AxChild (TName (lit "a"))) (LPos (LStep AxChild TStar) 2));
     LSlash (LUp true) (LStep AxFollowingSibling TNode)] =
    [([HNode 0], Done); ([HNode 3], Done); ([HNode 2], Done); ([HNode 3], Done); ([HNode 5; HNode 3], Done)] /\
  hstep e131 empty_cache 20 AxFollowingSibling TNode (HNode 5) = ([HNode 1; HNode 5; HNode 3], Done) /\
  step w131 20 AxFollowingSibling TNode (INode [2]) = ([INode [1]; INode [2]; INode [3]], Done).
Proof.
  split; [exact e131_edits|]. split; [intros z; constructor; exact (editing_well_linked _ e131_edits)|]. split.
  - split; [eexists; split; [vm_compute; reflexivity|reflexivity]|]. eexists.
    eapply hd_elem; [vm_compute; reflexivity|]. repeat econstructor.
  - split; [constructor; vm_compute; reflexivity|]. split; [vm_compute; reflexivity|]. split; vm_compute; reflexivity.
Qed.
