(** Properties C44-C49 and C81 (treeutil.py).  The specifications are in Path.v,
    PatternSpec.v, TreeUtilSpec.v and HeapSpec.v. *)
From Verif Require Import PyStr XTree Heap Builder HeapSpec Path Nodes Pattern PatternSpec TreeUtil TreeUtilSpec TreeUtilFacts.

Definition leaf (s : string) (v : string) : xtree := XE (lit s) [] [XT (lit v)].
(** The document of the examples in the docstrings. *)
Definition doc1 : xtree :=
  XE (lit "a") [] [XE (lit "b") [] [leaf "x" "1"]; XE (lit "c") [] [leaf "x" "2"; XE (lit "d") [] [leaf "x" "3"]];
                   leaf "x" "4"; leaf "y" "5"].

(** ** C44 *)
Theorem C44_descendants t : listing t (fun a u => a <> [] /\ is_element u) (descendants t).
Proof. exact (descendants_listing t). Qed.
Print Assumptions C44_descendants.
Example C44_case : map fst (descendants doc1) = [[0]; [0;0]; [1]; [1;0]; [1;1]; [1;1;0]; [2]; [3]].
Proof. reflexivity. Qed.

(** ** C45 *)
Theorem C45_source n a ks : listing (XE n a ks) (fun b _ => exists i, b = [i]) (source_items (SrcElem (XE n a ks))).
Proof. exact (source_children n a ks). Qed.
Print Assumptions C45_source.
Theorem C45_elements s : filtered (fun x => is_element (snd x)) (source_items s) (select_elements s).
Proof. exact (select_elements_filtered s). Qed.
Print Assumptions C45_elements.
Theorem C45_name s name : filtered (fun x => exists a ks, snd x = XE name a ks) (source_items s) (select_name s name).
Proof. exact (select_name_filtered s name). Qed.
Print Assumptions C45_name.
Theorem C45_name_pattern s pat :
  filtered (fun x => exists n a ks, snd x = XE n a ks /\ pat n = true) (source_items s) (select_name_pattern s pat).
Proof. exact (select_pat_filtered s pat). Qed.
Print Assumptions C45_name_pattern.
Theorem C45_value s val : filtered (fun x => tree_text (snd x) = val) (source_items s) (select_value s val).
Proof. exact (select_value_filtered s val). Qed.
Print Assumptions C45_value.
Theorem C45_attribute s name :
  filtered (fun x => exists n a ks, snd x = XE n a ks /\ In name (map fst a)) (source_items s) (select_attribute s name None).
Proof. exact (select_attr_filtered s name). Qed.
Print Assumptions C45_attribute.
Theorem C45_attribute_value s name v :
  (forall b n a ks, In (b, XE n a ks) (source_items s) -> NoDup (map fst a)) -> (* the attributes are a map *)
  filtered (fun x => exists n a ks, snd x = XE n a ks /\ In (name, v) a) (source_items s) (select_attribute s name (Some v)).
Proof. exact (select_attrval_filtered s name v). Qed.
Print Assumptions C45_attribute_value.
Definition doc2 : xtree :=
  XE (lit "r") [] [XT (lit "v"); XE (lit "a") [(lit "k", lit "1"); (lit "l", lit "2")] [XT (lit "v")];
                   XE (lit "b") [(lit "l", lit "3")] [XE (lit "a") [] [XT (lit "v")]]; XE (lit "a") [(lit "l", lit "3")] []].
Example C45_case :
  map fst (select_elements (SrcElem doc2)) = [[1]; [2]; [3]] /\ map fst (select_name (SrcElem doc2) (lit "a")) = [[1]; [3]] /\
  map fst (select_value (SrcElem doc2) (lit "v")) = [[0]; [1]; [2]] /\
  map fst (select_attribute (SrcElem doc2) (lit "l") None) = [[1]; [2]; [3]] /\
  map fst (select_attribute (SrcItems (descendants doc2)) (lit "l") (Some (lit "3"))) = [[2]; [3]] /\
  (forall b n a ks, In (b, XE n a ks) (source_items (SrcItems (descendants doc2))) -> NoDup (map fst a)).
Proof.
  do 5 (split; [reflexivity|]). intros b n a ks H. cbn in H.
  repeat (destruct H as [H|H]; [inversion H; subst; repeat constructor; intros Hx; cbn in Hx; repeat destruct Hx as [Hx|Hx]; try discriminate; auto|]). destruct H.
Qed.

(** ** C46 *)
Theorem C46_element h i p : well_linked h -> is_elem h i -> parent_is h i (Some p) ->
  exists n a l1 l2 q, hp h p = Some (OElem n a (l1 ++ i :: l2) q) /\ following_siblings h i = Some l2.
Proof. exact (siblings_elem h i p). Qed.
Print Assumptions C46_element.
(** A text node: what follows the first sibling with the same text. *)
Theorem C46_text h i p s : well_linked h -> is_text h i s -> parent_is h i (Some p) ->
  exists n a l1 j l2 q, hp h p = Some (OElem n a (l1 ++ j :: l2) q) /\ is_text h j s /\
    (forall x, In x l1 -> ~ is_text h x s) /\ following_siblings h i = Some l2.
Proof. exact (siblings_text h i p s). Qed.
Print Assumptions C46_text.
(** [<r>t<a/>t<b/></r>] *)
Definition heap4 : heap := mkH (fun i => match i with
  | 0 => Some (OElem (lit "r") [] [1; 2; 3; 4] None) | 1 => Some (OText (lit "t") (Some 0))
  | 2 => Some (OElem (lit "a") [] [] (Some 0)) | 3 => Some (OText (lit "t") (Some 0))
  | 4 => Some (OElem (lit "b") [] [] (Some 0)) | _ => None end) 5.
Lemma heap4_linked : well_linked heap4.
Proof.
  split; [|split; [|split]].
  - intros i o H. do 5 (destruct i as [|i]; [cbn; lia|]). discriminate.
  - intros p i. split.
    + intros (o & Ho & Hi). do 5 (destruct p as [|p]; [cbn in Ho; inversion Ho; subst; cbn in Hi; repeat (destruct Hi as [<-|Hi]; [eexists; split; reflexivity|]); contradiction|]). discriminate.
    + intros (o & Ho & Hp). do 5 (destruct i as [|i]; [cbn in Ho; inversion Ho; subst; cbn in Hp; first [discriminate|inversion Hp; subst; eexists; split; [reflexivity|cbn; auto 6]]|]). discriminate.
  - intros i o Ho. do 5 (destruct i as [|i]; [cbn in Ho; inversion Ho; subst; cbn; repeat constructor; intros Hx; cbn in Hx; repeat destruct Hx as [Hx|Hx]; try discriminate; auto|]). discriminate.
  - intros i o Ho. destruct i as [|i].
    + cbn in Ho; inversion Ho; subst. exists (XE (lit "r") [] [XT (lit "t"); XE (lit "a") [] []; XT (lit "t"); XE (lit "b") [] []]), [0; 1; 2; 3; 4]. split.
      * eapply hd_elem; [reflexivity|]. change [1;2;3;4] with ([1] ++ [2] ++ [3] ++ [4] ++ []) at 2. repeat (eapply ha_cons || apply ha_nil).
        -- apply hd_text. reflexivity.
        -- eapply hd_elem; [reflexivity|apply ha_nil].
        -- apply hd_text. reflexivity.
        -- eapply hd_elem; [reflexivity|apply ha_nil].
      * repeat constructor; cbn; intuition discriminate.
    + do 4 (destruct i as [|i]; [cbn in Ho; inversion Ho; subst; eexists; eexists; split; [(apply hd_text; reflexivity) || (eapply hd_elem; [reflexivity|apply ha_nil])|repeat constructor; auto]|]). discriminate.
Qed.
Example C46_case : well_linked heap4 /\ is_elem heap4 2 /\ parent_is heap4 2 (Some 0) /\ following_siblings heap4 2 = Some [3; 4].
Proof. split; [exact heap4_linked|]. split; [repeat eexists|]. split; [eexists; split; reflexivity|reflexivity]. Qed.
(** A repeated text is among its own following siblings. *)
Theorem C46_text_refuted : exists h i p s, well_linked h /\ is_text h i s /\ parent_is h i (Some p) /\
  exists l, following_siblings h i = Some l /\ In i l.
Proof.
  exists heap4, 3, 0, (lit "t"). split; [exact heap4_linked|]. split; [eexists; reflexivity|]. split; [eexists; split; reflexivity|].
  exists [2; 3; 4]. split; [reflexivity|cbn; auto].
Qed.
Print Assumptions C46_text_refuted.

(** ** C47 *)
Theorem C47_exact p t : no_alt p -> no_deep p -> p <> [] -> is_element t ->
  exists l, select_pattern t p = (l, false) /\
            listing t (fun b u => b <> [] /\ is_element u /\ matches p (names_below t b)) l.
Proof. exact (select_no_deep p t). Qed.
Print Assumptions C47_exact.
Definition nm (s : string) : stage := StName (lit s).
Ltac no_such := intros Hx; cbn in Hx; repeat destruct Hx as [Hx|Hx]; try discriminate; auto.
Example C47_case : no_alt [nm "c"; StAny] /\ no_deep [nm "c"; StAny] /\ map fst (fst (select_pattern doc1 [nm "c"; StAny])) = [[1;0]; [1;1]].
Proof. split; [intros ns; no_such|]. split; [no_such|reflexivity]. Qed.
(** One '**' before the last stage: the outermost ones. *)
Theorem C47_deep pre st t : no_alt (pre ++ [st]) -> no_deep (pre ++ [st]) -> is_element t ->
  exists l, select_pattern t (pre ++ [StDeep; st]) = (l, false) /\ listing t (selected (pre ++ [StDeep; st]) t) l.
Proof. exact (select_deep_last pre st t). Qed.
Print Assumptions C47_deep.
Example C47_deep_case : map fst (fst (select_pattern doc1 [StDeep; nm "x"])) = [[0;0]; [1;0]; [1;1;0]; [2]].
Proof. reflexivity. Qed.
(** Any pattern: nothing else is selected. *)
Theorem C47_sound p t b u : no_alt p -> ~ ends_deep p -> p <> [] -> In (b, u) (fst (select_pattern t p)) ->
  subtree t b = Some u /\ b <> [] /\ is_element u /\ matches p (names_below t b).
Proof. exact (select_sound p t b u). Qed.
Print Assumptions C47_sound.
Example C47_sound_case : ~ ends_deep [StDeep; nm "c"; StDeep; nm "x"] /\
  map fst (fst (select_pattern doc1 [StDeep; nm "c"; StDeep; nm "x"])) = [[1;0]; [1;1;0]].
Proof. split; [intros (q & E); destruct q as [|? [|? [|? [|? [|]]]]]; discriminate|reflexivity]. Qed.
(** Not "any descendant" as documented (153). *)
Theorem C47_any_descendant_refuted : exists t b u, subtree t b = Some u /\ b <> [] /\ is_element u /\
  matches [StDeep; nm "a"] (names_below t b) /\ ~ In (b, u) (fst (select_pattern t [StDeep; nm "a"])).
Proof.
  exists (XE (lit "r") [] [XE (lit "a") [] [XE (lit "a") [] []]]), [0; 0], (XE (lit "a") [] []).
  split; [reflexivity|]. split; [discriminate|]. split; [repeat eexists|]. split.
  - apply (ma_deep _ [lit "a"] [lit "a"]). constructor; [reflexivity|constructor].
  - cbn. intros [H|[]]. discriminate.
Qed.
Print Assumptions C47_any_descendant_refuted.
(** Earlier '**' stages can miss matches, even outermost ones. *)
Ltac no_match := let H := fresh in intros H;
  repeat match goal with
  | H : matches _ _ |- _ => inversion H; clear H; subst
  | H : stage_ok _ _ |- _ => cbn in H
  | H : False |- _ => destruct H
  | H : ?l ++ _ = _ |- _ => destruct l; cbn in H; inversion H; clear H; subst
  | H : @eq (list N) _ _ |- _ => discriminate H
  end.
Theorem C47_deep_refuted : exists p t b u, no_alt p /\ ~ ends_deep p /\ selected p t b u /\ subtree t b = Some u /\
  ~ In (b, u) (fst (select_pattern t p)).
Proof.
  exists [StDeep; nm "a"; nm "b"], (XE (lit "r") [] [XE (lit "a") [] [XE (lit "a") [] [XE (lit "b") [] []]]]), [0; 0; 0], (XE (lit "b") [] []).
  split; [intros ns; no_such|]. split; [intros (q & E); destruct q as [|? [|? [|? [|]]]]; discriminate|]. split; [|split; [reflexivity|cbn; intros []]].
  split; [discriminate|]. split; [repeat eexists|]. split.
  - apply (ma_deep _ [lit "a"] [lit "a"; lit "b"]). repeat (constructor; try reflexivity).
  - intros c Hc (i & r & E). destruct c as [|x c]; [congruence|]. cbn in E. inversion E; subst. destruct c as [|y c].
    + cbn. no_match.
    + cbn in H1. inversion H1; subst. destruct c; [|destruct c; discriminate]. cbn. no_match.
Qed.
Print Assumptions C47_deep_refuted.
(** Alternatives always raise an error; a trailing '**' never selects anything. *)
Theorem C47_alternatives p n ns t : In (StAlt (n :: ns)) p -> select_pattern t p = ([], true).
Proof. exact (select_alt p n ns t). Qed.
Print Assumptions C47_alternatives.
Theorem C47_trailing p t : ends_deep p -> fst (select_pattern t p) = [].
Proof. exact (select_trailing p t). Qed.
Print Assumptions C47_trailing.
Example C47_trailing_case : ends_deep [nm "b"; StDeep] /\ select_pattern doc1 [nm "b"; StDeep] = ([], true).
Proof. split; [exists [nm "b"]; reflexivity|reflexivity]. Qed.

(** ** C48 *)
Theorem C48_only_space d ind t u : space ind -> is_element t -> (unspaced (make_pretty d ind t) u <-> unspaced t u).
Proof. exact (fun Hi Ht => pretty_unspaced t d ind u Hi Ht). Qed.
Print Assumptions C48_only_space.
Theorem C48_unspaced_function t : is_element t -> exists u, unspaced t u /\ forall v, unspaced t v -> v = u.
Proof.
  exact (fun H => match unspaced_total t H with ex_intro _ u Hu => ex_intro _ u (conj Hu (fun v Hv => unspaced_fun t v u Hv Hu)) end).
Qed.
Print Assumptions C48_unspaced_function.
Theorem C48_texts d ind n a ks n' a' ks' s : make_pretty d ind (XE n a ks) = XE n' a' ks' -> In (XT s) ks' ->
  (~ space s /\ In (XT s) ks) \/ XT s = line ind (S d) \/ XT s = line ind d.
Proof. exact (pretty_text_nodes d ind n a ks n' a' ks' s). Qed.
Print Assumptions C48_texts.
Definition doc3 : xtree := XE (lit "r") [] [XT (lit " "); XE (lit "b") [] []; XT (lit "u "); XE (lit "c") [(lit "k", lit "v")] [XE (lit "d") [] []; XT (lit "w")]].
Example C48_case : make_pretty 0 (lit " ") doc3 =
  XE (lit "r") [] [line (lit " ") 1; XE (lit "b") [] [line (lit "  ") 1]; XT (lit "u ");
    XE (lit "c") [(lit "k", lit "v")] [line (lit "  ") 2; XE (lit "d") [] [line (lit "  ") 2]; XT (lit "w")]; line (lit " ") 0].
Proof. reflexivity. Qed.
(** Text that consists of white space characters that are not white space in MicroXML is lost. *)
Theorem C48_nbsp_refuted : exists t s, In (XT s) (match t with XE _ _ ks => ks | _ => [] end) /\ s <> [] /\
  (forall c, In c s -> ~ In c [9; 10; 13; 32]%N) /\
  (forall s', In (XT s') (match make_pretty 0 default_indent t with XE _ _ ks => ks | _ => [] end) -> s' <> s).
Proof.
  exists (XE (lit "r") [] [XT [160%N]]), [160%N]. split; [left; auto|]. split; [discriminate|]. split.
  - intros c [<-|[]]. cbn. intuition discriminate.
  - cbn. intros s' [H|[]] ->. discriminate.
Qed.
Print Assumptions C48_nbsp_refuted.

(** ** C49 *)
Theorem C49_not_idempotent d ind n a ks : space ind -> ind <> [] -> (forall k, In k ks -> is_element k) ->
  make_pretty d ind (make_pretty d ind (XE n a ks)) <> make_pretty d ind (XE n a ks).
Proof. exact (pretty_not_idem d ind n a ks). Qed.
Print Assumptions C49_not_idempotent.
Theorem C49_third_time d ind t : space ind ->
  make_pretty d ind (make_pretty d ind (make_pretty d ind t)) = make_pretty d ind (make_pretty d ind t).
Proof. exact (pretty_thrice t d ind). Qed.
Print Assumptions C49_third_time.
Example C49_case : space (lit "  ") /\ make_pretty 0 (lit "  ") (make_pretty 0 (lit "  ") (XE (lit "a") [] [leaf "b" "1"])) =
  XE (lit "a") [] [line (lit "  ") 1; leaf "b" "1"; line (lit "  ") 1].
Proof. split; [exact space_default|reflexivity]. Qed.
(** The elements in the result do not depend on the indent argument. *)
Theorem C49_indent_ignored d ind1 ind2 n a ks ks1 ks2 :
  make_pretty d ind1 (XE n a ks) = XE n a ks1 -> make_pretty d ind2 (XE n a ks) = XE n a ks2 ->
  exists l, filtered is_element ks1 l /\ filtered is_element ks2 l.
Proof. exact (pretty_indent_ignored d ind1 ind2 n a ks ks1 ks2). Qed.
Print Assumptions C49_indent_ignored.
Example C49_indent_case : make_pretty 0 (lit "....") (XE (lit "a") [] [XE (lit "b") [] [leaf "c" "1"]]) =
  XE (lit "a") [] [line (lit "....") 1; XE (lit "b") [] [line (lit "  ") 2; leaf "c" "1"; line (lit "  ") 1]; line (lit "....") 0].
Proof. reflexivity. Qed.

(** ** C81 *)
Theorem C81_layout t d : data_tree t -> laid_out (lit "  ") d t (make_pretty d (lit "  ") t).
Proof. exact (fun H => pretty_layout t H d). Qed.
Print Assumptions C81_layout.
Example C81_case : data_tree doc1 /\ make_pretty 0 (lit "  ") doc1 =
  let ln := line (lit "  ") in
  XE (lit "a") [] [ln 1; XE (lit "b") [] [ln 2; leaf "x" "1"; ln 1];
                   ln 1; XE (lit "c") [] [ln 2; leaf "x" "2"; ln 2; XE (lit "d") [] [ln 3; leaf "x" "3"; ln 2]; ln 1];
                   ln 1; leaf "x" "4"; ln 1; leaf "y" "5"; ln 0].
Proof.
  split; [|reflexivity]. assert (L : forall n v, (forall c, In c space_chars -> ~ In c (lit v)) -> lit v <> [] -> data_tree (leaf n v)).
  { intros n v H Hne. apply dt_leaf. intros Hs. destruct (lit v) as [|c l]; [congruence|]. apply (H c); [apply Hs|]; left; auto. }
  assert (L1 : forall n v, In v ["1"; "2"; "3"; "4"; "5"]%string -> data_tree (leaf n v)).
  { intros n v Hv. cbn in Hv. repeat destruct Hv as [<-|Hv]; try contradiction; (apply L; [intros c Hc Hi; cbn in Hi; destruct Hi as [<-|[]]; cbn in Hc; intuition discriminate|discriminate]). }
  assert (K : forall n a ks, Forall (fun k => is_element k /\ data_tree k) ks -> data_tree (XE n a ks)).
  { intros n a ks H. apply dt_kids. rewrite Forall_forall in H. exact H. }
  repeat first [apply L1; cbn; tauto | apply K | apply Forall_cons | apply Forall_nil | split; [repeat eexists|]].
Qed.
