(** Theorems about treeiter.sender (and the senders in xmliter.py and html5iter.py, which use its handler). *)
From Verif Require Import PyStr Parser XTree Grammar ParserSpec Heap Builder HeapSpec Path Pattern PatternSpec TreeUtil TreeUtilSpec.
From Verif Require Import TreeIter TreeIterSpec TreeIterMore.

Definition el (n : string) (ks : list xtree) : xtree := XE (lit n) [] ks.
Definition nm (s : string) : stage := StName (lit s).
(** Who got what, by the name of the root at that moment. *)
Definition sent_names (s : tstate) : list (nat * option str) :=
  map (fun x => match x with (ix, Some i, h) => (ix, match hp h i with Some (OElem n _ _ _) => Some n | _ => None end) | (ix, None, _) => (ix, None) end) (tsent s).
Definition once (ps : list (list stage)) (t : xtree) : tstate * option texn :=
  handle1 (stateses ps) (new_handler (new_sender empty_heap ps)) (doc_events t).
Lemma empty_allocated : allocated empty_heap. Proof. intros j o H. discriminate. Qed.
Ltac no_such := intros Hx; cbn in Hx; repeat destruct Hx as [Hx|Hx]; try discriminate; auto.

(** ** C39 *)
Theorem C39_exact p s t s' x : no_deep p -> p <> [] -> served p s -> is_element t ->
  thandle (stateses [p]) (new_handler s) (doc_events t) s' x ->
  x = None /\ served p s' /\ kept_intact s s' /\
  exists l, listing t (fun a u => is_element u /\ matches p (path_names t a)) l /\ sent_since s s' 0 (map snd l).
Proof. exact (stream_exact p s t s' x). Qed.
Print Assumptions C39_exact.
(** With the sender's own parser. *)
Theorem C39_parse p s doc t : no_deep p -> p <> [] -> served p s -> lenient_doc doc t ->
  (exists s' x, send_parse [p] s doc s' x) /\
  forall s' x, send_parse [p] s doc s' x ->
    x = None /\ served p s' /\ kept_intact s s' /\
    exists l, listing t (fun a u => is_element u /\ matches p (path_names t a)) l /\ sent_since s s' 0 (map snd l).
Proof. exact (stream_parse p s doc t). Qed.
Print Assumptions C39_parse.
(** Whatever the events, an execution exists. *)
Theorem C39_runs ss s evs : exists s' x, thandle ss s evs s' x.
Proof. exact (thandle_exists ss evs s). Qed.
Print Assumptions C39_runs.
Example C39_case : let p := [nm "a"; StAlt [lit "b"; lit "c"]] in
  let t := el "a" [el "b" [XT (lit "1"); el "b" []]; el "x" [el "b" []]; el "c" []] in
  no_deep p /\ served p (new_sender empty_heap [p]) /\ sent_names (fst (once [p] t)) = [(0, Some (lit "b")); (0, Some (lit "c"))] /\
  map (fun x => map (hp (snd x)) [0; 1; 2; 3]) (tsent (fst (once [p] t))) =
    [[Some (OElem (lit "b") [] [1; 2] None); Some (OText (lit "1") (Some 0)); Some (OElem (lit "b") [] [] (Some 0)); None];
     [Some (OElem (lit "b") [] [1; 2] None); Some (OText (lit "1") (Some 0)); Some (OElem (lit "b") [] [] (Some 0)); Some (OElem (lit "c") [] [] None)]].
Proof. split; [no_such|]. split; [constructor; exact empty_allocated|]. split; vm_compute; reflexivity. Qed.

(** ** C40 *)
Theorem C40_last pre st s t s' x : no_deep pre -> st <> StDeep -> served (pre ++ [StDeep; st]) s -> is_element t ->
  thandle (stateses [pre ++ [StDeep; st]]) (new_handler s) (doc_events t) s' x ->
  x = None /\ kept_intact s s' /\ exists l, listing t (outermost (pre ++ [StDeep; st]) t) l /\ sent_since s s' 0 (map snd l).
Proof. exact (stream_deep pre st s t s' x). Qed.
Print Assumptions C40_last.
Example C40_last_case : sent_names (fst (once [[nm "r"; StDeep; nm "x"]] (el "r" [el "y" [el "x" [el "x" []]]; el "x" []]))) =
  [(0, Some (lit "x")); (0, Some (lit "x"))].
Proof. vm_compute. reflexivity. Qed.
Theorem C40_sound p s t s' x : ~ ends_deep p -> p <> [] -> served p s -> is_element t ->
  thandle (stateses [p]) (new_handler s) (doc_events t) s' x ->
  x = None /\ kept_intact s s' /\ exists l, sent_since s s' 0 (map snd l) /\ StronglySorted doc_before (map fst l) /\
    forall a u, In (a, u) l -> subtree t a = Some u /\ is_element u /\ matches p (path_names t a).
Proof. exact (stream_sound p s t s' x). Qed.
Print Assumptions C40_sound.
Example C40_sound_case : let p := [StDeep; nm "c"; StDeep; nm "x"] in ~ ends_deep p /\
  sent_names (fst (once [p] (el "r" [el "c" [el "x" []; el "d" [el "x" []]]; el "x" []]))) = [(0, Some (lit "x")); (0, Some (lit "x"))].
Proof. split; [intros (q & E); destruct q as [|? [|? [|? [|? [|]]]]]; discriminate|vm_compute; reflexivity]. Qed.
(** Other uses of '**' miss outermost matches: two nested candidates for the stage after it. *)
Theorem C40_deep_refuted : exists p t a u s' x, ~ ends_deep p /\ subtree t a = Some u /\ outermost p t a u /\
  thandle (stateses [p]) (new_handler (new_sender empty_heap [p])) (doc_events t) s' x /\ tsent s' = [].
Proof.
  set (p := [StDeep; nm "a"; nm "b"]). set (t := el "a" [el "a" [el "b" []]]).
  exists p, t, [0; 0], (el "b" []), (fst (once [p] t)), (snd (once [p] t)).
  split; [intros (q & E); destruct q as [|? [|? [|? [|]]]]; discriminate|]. split; [reflexivity|]. split; [|split; [apply handle1_ok|vm_compute; reflexivity]].
  split; [repeat eexists|]. split.
  - apply (ma_deep _ [lit "a"] [lit "a"; lit "b"]). repeat (constructor; try reflexivity).
  - assert (K2 : forall l, ~ matches p (l ++ [lit "a"])).
    { intros l H. destruct (matches_last [StDeep; nm "a"] (lit "b") _ H) as (l' & E). apply app_inj_tail in E as [_ E]. discriminate. }
    intros b (i & r & E). destruct b as [|j [|k b]]; cbn in E.
    + apply (K2 []).
    + inversion E; subst. apply (K2 [lit "a"]).
    + inversion E; subst. destruct b; discriminate.
Qed.
Print Assumptions C40_deep_refuted.
(** After a trailing '**' nothing is ever sent, for any events; the handler fails. *)
Theorem C40_trailing p s evs s' x : ends_deep p -> tctl s = mkC [] [0] -> thandle (stateses [p]) s evs s' x -> tsent s' = tsent s.
Proof. exact (trailing_deep p s evs s' x). Qed.
Print Assumptions C40_trailing.
Example C40_trailing_case : let p := [nm "a"; StDeep] in ends_deep p /\ tctl (new_sender empty_heap [p]) = mkC [] [0] /\
  snd (once [p] (el "a" [el "b" []])) = Some TypeErr.
Proof. split; [exists [nm "a"]; reflexivity|]. split; vm_compute; reflexivity. Qed.

(** ** C41: in a sender with several patterns, a sink whose pattern, followed by all earlier
    patterns, starts with two different names never gets anything, whatever the document. *)
Theorem C41_never ps ix n1 n2 q s evs s' x : 2 <= length ps -> ix < length ps ->
  concat (rev (firstn (S ix) ps)) = StName n1 :: StName n2 :: q -> n1 <> n2 ->
  tctl s = mkC [] (repeat 0 (length ps)) ->
  thandle (stateses ps) s evs s' x -> exists lst, tsent s' = tsent s ++ lst /\ forall y, In y lst -> fst (fst y) <> ix.
Proof. exact (several_patterns ps ix n1 n2 q s evs s' x). Qed.
Print Assumptions C41_never.
(** Each of two patterns alone is served; together neither is. *)
Theorem C41_refuted : exists p1 p2 t, no_deep p1 /\ no_deep p2 /\
  sent_names (fst (once [p1] t)) = [(0, Some (lit "b"))] /\ sent_names (fst (once [p2] t)) = [(0, Some (lit "c"))] /\
  forall s' x, thandle (stateses [p1; p2]) (new_handler (new_sender empty_heap [p1; p2])) (doc_events t) s' x -> tsent s' = [].
Proof.
  exists [nm "a"; nm "b"], [nm "a"; nm "c"], (el "a" [el "b" []; el "c" []]).
  split; [no_such|]. split; [no_such|]. split; [vm_compute; reflexivity|]. split; [vm_compute; reflexivity|].
  intros s' x H. set (ps := [[nm "a"; nm "b"]; [nm "a"; nm "c"]]) in *.
  destruct (sinks_known ps _ _ _ _ H) as (lst & E & Hl). rewrite E. cbn. destruct lst as [|y lst]; [reflexivity|]. exfalso.
  destruct (C41_never ps 0 (lit "a") (lit "b") [] (new_handler (new_sender empty_heap ps)) _ _ _ ltac:(cbn; lia) ltac:(cbn; lia) eq_refl ltac:(discriminate) eq_refl H) as (l0 & E0 & H0).
  destruct (C41_never ps 1 (lit "a") (lit "c") [nm "a"; nm "b"] (new_handler (new_sender empty_heap ps)) _ _ _ ltac:(cbn; lia) ltac:(cbn; lia) eq_refl ltac:(discriminate) eq_refl H) as (l1 & E1 & H1).
  rewrite E in E0, E1. cbn in E0, E1. subst l0 l1. specialize (H0 y (or_introl eq_refl)). specialize (H1 y (or_introl eq_refl)). specialize (Hl y (or_introl eq_refl)). cbn in Hl. lia.
Qed.
Print Assumptions C41_refuted.

(** ** C42 *)
Theorem C42_memory p s t evs rest s' x : ~ ends_deep p -> p <> [] -> served p s -> is_element t -> doc_events t = evs ++ rest ->
  thandle (stateses [p]) (new_handler s) evs s' x ->
  x = None /\ exists outs, sent_since s s' 0 outs /\
  ((tsent s' = [] /\ nxt (theap s') = nxt (theap s) /\ forall j, reach (theap s') (own_refs s') j -> False) \/
   (exists i u, last_sent s' i u /\ holds_only s' i u /\ nxt (theap s') = nxt (theap s) + total_size outs) \/
   (exists i c a u, subtree t a = Some u /\ is_element u /\ matches p (path_names t a) /\ cut c u /\ holds_only s' i c /\
      nxt (theap s') = nxt (theap s) + total_size outs + tree_size c)).
Proof. exact (memory_bound p s t evs rest s' x). Qed.
Print Assumptions C42_memory.
Example C42_case : let p := [nm "a"; nm "b"] in let t := el "a" [el "b" [XT (lit "1")]; el "c" [el "d" []]; el "b" [el "e" []; el "f" []]] in
  ~ ends_deep p /\ let s' := fst (handle1 (stateses [p]) (new_handler (new_sender empty_heap [p])) (firstn 11 (doc_events t))) in
  own_refs s' = [2; 2; 2; 3; 1] /\ map (hp (theap s')) [2; 3] = [Some (OElem (lit "b") [] [3] None); Some (OElem (lit "e") [] [] (Some 2))] /\ nxt (theap s') = 4.
Proof. split; [intros (q & E); destruct q as [|? [|? [|]]]; discriminate|]. vm_compute. auto. Qed.

(** ** C43 *)
Theorem C43_select r p s n a ks s' x : r <> StDeep -> p <> [] -> no_alt p -> ~ ends_deep p -> served (r :: p) s ->
  thandle (stateses [r :: p]) (new_handler s) (doc_events (XE n a ks)) s' x ->
  x = None /\
  (stage_ok r n -> sent_since s s' 0 (map snd (fst (select_pattern (XE n a ks) p)))) /\
  (~ stage_ok r n -> sent_since s s' 0 []).
Proof. exact (stream_select r p s n a ks s' x). Qed.
Print Assumptions C43_select.
Example C43_case : let t := el "r" [el "x" [el "y" []]; el "x" [XT (lit "1")]] in
  stage_ok (nm "r") (lit "r") /\ map snd (fst (select_pattern t [nm "x"; StAny])) = [el "y" []] /\
  sent_names (fst (once [[nm "r"; nm "x"; StAny]] t)) = [(0, Some (lit "y"))].
Proof. split; [reflexivity|]. split; vm_compute; reflexivity. Qed.
Theorem C43_select_deep st p s n a ks s' x : st <> StDeep -> ~ stage_ok st n -> no_alt (st :: p) -> ~ ends_deep (st :: p) ->
  served (StDeep :: st :: p) s ->
  thandle (stateses [StDeep :: st :: p]) (new_handler s) (doc_events (XE n a ks)) s' x ->
  x = None /\ sent_since s s' 0 (map snd (fst (select_pattern (XE n a ks) (StDeep :: st :: p)))).
Proof. exact (stream_select_deep st p s n a ks s' x). Qed.
Print Assumptions C43_select_deep.
Example C43_deep_case : let t := el "r" [el "x" [el "y" []]; el "z" [el "x" [el "y" []]]] in
  map snd (fst (select_pattern t [StDeep; nm "x"; nm "y"])) = [el "y" []; el "y" []] /\
  sent_names (fst (once [[StDeep; nm "x"; nm "y"]] t)) = [(0, Some (lit "y")); (0, Some (lit "y"))].
Proof. split; vm_compute; reflexivity. Qed.
(** If the root matches the stage after '**' the two differ. *)
Theorem C43_root_refuted : exists p t, ~ ends_deep p /\ no_alt p /\
  sent_names (fst (once [p] t)) = [(0, Some (lit "x"))] /\ map fst (fst (select_pattern t p)) = [[0]; [1]].
Proof.
  exists [StDeep; nm "x"], (el "x" [el "x" []; el "x" []]). split; [intros (q & E); destruct q as [|? [|? [|]]]; discriminate|].
  split; [intros ns; no_such|]. split; vm_compute; reflexivity.
Qed.
Print Assumptions C43_root_refuted.

(** ** C82: how the argument [patterns] is read *)
(** A pattern that starts with alternatives is taken for a list of patterns: with one sink it is rejected if it has more
    components, and otherwise its alternatives are read as the successive stages of one path. *)
Theorem C82_rejected ns r rs : norm_patterns (ATuple (RTup ns :: r :: rs)) 1 = None.
Proof. reflexivity. Qed.
Print Assumptions C82_rejected.
Theorem C82_misread ns : norm_patterns (ATuple [RTup ns]) 1 = Some [map (fun n => stage_of (RStr n)) ns].
Proof. exact (misread_alternatives ns). Qed.
Print Assumptions C82_misread.
(** Everything else is read as written: tuples that start with a string, and lists. *)
Theorem C82_tuple s r : norm_patterns (ATuple (RStr s :: r)) 1 = Some [map stage_of (RStr s :: r)].
Proof. reflexivity. Qed.
Print Assumptions C82_tuple.
Theorem C82_list ps k : norm_patterns (AList ps) k = if Nat.eqb k (length ps) then Some (map (map stage_of) ps) else None.
Proof. reflexivity. Qed.
Print Assumptions C82_list.
Example C82_case : let t := el "b" [el "x" []] in let p := [RTup [lit "a"; lit "b"]] in
  norm_patterns (ATuple p) 1 = Some [[nm "a"; nm "b"]] /\ sent_names (fst (once [[nm "a"; nm "b"]] t)) = [] /\
  norm_patterns (AList [p]) 1 = Some [[StAlt [lit "a"; lit "b"]]] /\ sent_names (fst (once [[StAlt [lit "a"; lit "b"]]] t)) = [(0, Some (lit "b"))].
Proof. split; [vm_compute; reflexivity|]. split; [vm_compute; reflexivity|]. split; vm_compute; reflexivity. Qed.

(** ** C83: after an incomplete document a sender cannot be used again *)
Theorem C83_truncated_refuted : exists p t s1 s2 s3 x1 x2 x3, no_deep p /\
  send_parse [p] (new_sender empty_heap [p]) (lit "<a><c>") s1 x1 /\ x1 = None /\
  send_parse [p] s1 (lit "<a><b></b></a>") s2 x2 /\ x2 = None /\ tsent s2 = [] /\
  send_parse [p] (new_sender empty_heap [p]) (lit "<a><b></b></a>") s3 x3 /\ x3 = None /\ sent_since (new_sender empty_heap [p]) s3 0 [t].
Proof.
  set (p := [nm "a"; nm "b"]). set (s0 := new_sender empty_heap [p]).
  set (e1 := fst (sends new_parser [(lit "<a><c>", false); ([], true)])).
  set (e2 := fst (sends new_parser [(lit "<a><b></b></a>", false); ([], true)])).
  set (s1 := fst (handle1 (stateses [p]) (new_handler s0) e1)).
  exists p, (el "b" []), s1, (fst (handle1 (stateses [p]) (new_handler s1) e2)), (fst (handle1 (stateses [p]) (new_handler s0) e2)), None, None, None.
  split; [no_such|].
  assert (H : forall s evs x, snd (handle1 (stateses [p]) s evs) = x -> thandle (stateses [p]) s evs (fst (handle1 (stateses [p]) s evs)) x) by (intros s evs x <-; apply handle1_ok).
  split; [eapply sp; [vm_compute; reflexivity|apply H; vm_compute; reflexivity]|]. split; [reflexivity|].
  split; [eapply sp; [vm_compute; reflexivity|apply H; vm_compute; reflexivity]|]. split; [reflexivity|]. split; [vm_compute; reflexivity|].
  split; [eapply sp; [vm_compute; reflexivity|apply H; vm_compute; reflexivity]|]. split; [reflexivity|].
  eexists. split; [vm_compute; reflexivity|]. constructor; [|constructor]. do 2 eexists. split; [reflexivity|]. exists [0].
  split; [eapply hd_elem; [vm_compute; reflexivity|constructor]|]. repeat constructor. intros [].
Qed.
Print Assumptions C83_truncated_refuted.
