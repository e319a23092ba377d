(** make_pretty over node objects: C132. *)
From Verif Require Import PyStr Parser XTree Path TreeUtil Heap Builder HeapSpec HeapFacts BuilderMore RootCache.
From Verif Require Import XPath HeapNav PrettyHeap PrettyHeapSpec PrettyHeapFacts.

(** ** C132 *)
(** The call ends, and the tree of the element is the one of the function on trees. *)
Theorem C132_tree h p i t ids fuel d ind : well_linked h -> holds h p i t ids -> is_element t -> tree_size t <= fuel ->
  exists h' ids', pretty fuel d ind h i = Some h' /\ holds h' p i (make_pretty d ind t) ids' /\ NoDup ids'.
Proof.
  intros W H El Hf. destruct (pretty_linked h p i t ids fuel d ind W H El Hf) as (h' & ids' & R & H' & E). exists h', ids'. split; [exact R|]. split; [exact H'|apply E].
Qed.
Print Assumptions C132_tree.
(** The objects of the new tree, in document order: the elements and the texts with more than white space
    are the old ones, everything else is new; only lists of children change, and only below the element. *)
Theorem C132_objects h p i t ids fuel d ind h' t' ids' : well_linked h -> holds h p i t ids -> is_element t -> tree_size t <= fuel ->
  pretty fuel d ind h i = Some h' -> holds h' p i t' ids' ->
  filter (fun j => j <? nxt h) ids' = filter (stays h) ids /\ kept h h' /\
  (forall j, nxt h <= j -> (In j ids' <-> exists o, hp h' j = Some o)) /\
  (forall j o, hp h j = Some o -> ~ below h i j -> hp h' j = Some o).
Proof.
  intros W H El Hf R H'. destruct (pretty_linked h p i t ids fuel d ind W H El Hf) as (h1 & ids1 & R1 & H1 & E). rewrite R in R1. inversion R1; subst h1.
  rewrite (proj1 (holds_ids h') _ _ _ _ H1 _ _ _ H'). split; [apply E|]. split; [apply E|]. split.
  - intros j L. split; [apply (proj1 (holds_live h') _ _ _ _ H1)|]. intros (o & Ho). apply (ef_new _ _ _ _ E). split; [auto|]. exact (ef_alloc _ _ _ _ E j o Ho).
  - intros j o Ho B. rewrite (ef_frame _ _ _ _ E); [exact Ho|exact (linked_allocated h W j o Ho)|]. intros K. apply B. apply (proj1 (holds_below h) _ _ _ _ H). exact K.
Qed.
Print Assumptions C132_objects.
(** Without the replaced texts, the links are consistent again; such a heap exists. *)
Theorem C132_links h p i t ids fuel d ind h' : well_linked h -> holds h p i t ids -> is_element t -> tree_size t <= fuel ->
  pretty fuel d ind h i = Some h' -> (exists h'', dropped h h' h'' i) /\ forall h'', dropped h h' h'' i -> well_linked h''.
Proof.
  intros W H El Hf R. destruct (pretty_linked h p i t ids fuel d ind W H El Hf) as (h1 & ids1 & R1 & H1 & E). rewrite R in R1. inversion R1; subst h1.
  split; [eapply dropped_exists; eauto|]. intros h'' D. eapply pretty_links; eauto.
Qed.
Print Assumptions C132_links.
Theorem C132_clean h p i t ids fuel d ind h' : well_linked h -> holds h p i t ids -> is_element t -> tree_size t <= fuel ->
  pretty fuel d ind h i = Some h' -> (forall j, ~ replaced h i j) -> well_linked h'.
Proof.
  intros W H El Hf R K. apply (proj2 (C132_links h p i t ids fuel d ind h' W H El Hf R)). split; [reflexivity|]. split; [intros j X; destruct (K j X)|auto].
Qed.
Print Assumptions C132_clean.
(** A replaced text names a parent that does not list it. *)
Theorem C132_replaced_refuted h p i t ids fuel d ind h' j : well_linked h -> holds h p i t ids -> is_element t -> tree_size t <= fuel ->
  pretty fuel d ind h i = Some h' -> replaced h i j -> (exists q, parent_is h' j (Some q) /\ ~ child h' q j) /\ ~ linked h'.
Proof.
  intros W H El Hf R X. destruct (pretty_linked h p i t ids fuel d ind W H El Hf) as (h1 & ids1 & R1 & H1 & E). rewrite R in R1. inversion R1; subst h1.
  destruct (orphan h p i t ids h' ids1 _ j (linked_allocated h W) El H H1 E X) as (q & Hq & Hc). split; [exists q; auto|]. intros L. apply Hc, L, Hq.
Qed.
Print Assumptions C132_replaced_refuted.

Lemma holds_as h p i t ids ids' : holds h p i t ids -> ids = ids' -> holds h p i t ids'. Proof. intros H <-. exact H. Qed.
(** [<a> <b>x</b>y</a>] made by edits. *)
Definition e132 : heap :=
  let new n h := fst (alloc h (OElem (lit n) [] [] None)) in
  let into i x h := match xml_insert h i x (-1) with EOk h' => h' | EExn h' _ => h' end in
  into 0 (AStr (lit "y")) (into 0 (ARef 1) (into 1 (AStr (lit "x")) (into 0 (AStr (lit " ")) (new "b" (new "a" empty_heap)))))%string.
Definition t132 : xtree := XE (lit "a") [] [XT (lit " "); XE (lit "b") [] [XT (lit "x")]; XT (lit "y")].
Lemma e132_edits : edits empty_heap e132.
Proof.
  eapply eds_cons; [apply (ed_new_elem empty_heap (lit "a") [])|]. eapply eds_cons; [apply (ed_new_elem _ (lit "b") [])|].
  eapply eds_cons; [eapply (ed_insert_text _ 0 (AStr (lit " ")) (lit " ") (-1)); [left; reflexivity|reflexivity]|].
  eapply eds_cons; [eapply (ed_insert_text _ 1 (AStr (lit "x")) (lit "x") (-1)); [left; reflexivity|reflexivity]|].
  eapply eds_cons; [eapply (ed_insert_elem _ 0 1 (-1)); [do 4 eexists; reflexivity|eexists; split; reflexivity| |reflexivity]|].
  { intros B. inversion B as [|p k j B1 (o & Ho & Hin)]; subst. clear B1 B. destruct k as [|[|[|[|[|k]]]]]; vm_compute in Ho; inversion Ho; subst; cbn in Hin;
      repeat (destruct Hin as [Hin|Hin]; [discriminate Hin|]); destruct Hin. }
  eapply eds_cons; [eapply (ed_insert_text _ 0 (AStr (lit "y")) (lit "y") (-1)); [left; reflexivity|reflexivity]|].
  apply eds_nil.
Qed.
(** The text 2 is replaced by 5, after [y] nothing is added; for 2
    the sibling axis now raises ValueError. *)
Example C132_case : exists h', well_linked e132 /\ holds e132 None 0 t132 [0; 2; 1; 3; 4] /\ pretty 9 0 (lit "  ") e132 0 = Some h' /\
  replaced e132 0 2 /\ nxt e132 = 5 /\
  holds h' None 0 (XE (lit "a") [] [XT (c_nl :: lit "  "); XE (lit "b") [] [XT (lit "x")]; XT (lit "y")]) [0; 5; 1; 3; 4] /\
  parent_is h' 2 (Some 0) /\
  hstep e132 empty_cache 9 AxFollowingSibling TNode (HNode 2) = ([HNode 1; HNode 4], Done) /\
  hstep h' empty_cache 9 AxFollowingSibling TNode (HNode 2) = ([], Exn ValueErr).
Proof.
  eexists. split; [exact (editing_well_linked _ e132_edits)|]. split.
  { eapply holds_as; [eapply hd_elem; [vm_compute; reflexivity|]; repeat econstructor|reflexivity]. }
  split; [vm_compute; reflexivity|]. split.
  { split; [eapply be_kid; [apply be_refl|]; eexists; split; [vm_compute; reflexivity|left; reflexivity]|]. exists (lit " "). split; [eexists; vm_compute; reflexivity|reflexivity]. }
  split; [reflexivity|]. split.
  { eapply holds_as; [eapply hd_elem; [vm_compute; reflexivity|]; repeat econstructor|reflexivity]. }
  split; [eexists; split; [vm_compute; reflexivity|reflexivity]|]. split; vm_compute; reflexivity.
Qed.
