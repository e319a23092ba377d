(** Theorems about treeutil.select_pattern with functions in the pattern. *)
From Verif Require Import PyStr Parser XTree Heap Builder HeapSpec Path Nodes Pattern PatternSpec TreeIter PatternFun PatternFunSpec PatternFunMore.
From Verif Require Import SelectFun SelectFunSpec SelectFunFacts SelectFunStream TreeUtil.

(** ** C123 *)
(** Text nodes are yielded too, if a function accepts them. *)
Theorem C123_exact p t : no_gdeep p -> p <> [] -> only_functions p -> gsafe p ->
  exists l, select_fun t p = (l, None) /\ listing t (fun a _ => gmatches p (line [] t a)) l.
Proof. exact (select_fun_exact p t). Qed.
Print Assumptions C123_exact.
Theorem C123_last pre st t : no_gdeep pre -> st <> GDeep -> only_functions (pre ++ [GDeep; st]) -> gsafe (pre ++ [GDeep; st]) ->
  exists l, select_fun t (pre ++ [GDeep; st]) = (l, None) /\
    listing t (fun a _ => gmatches (pre ++ [GDeep; st]) (line [] t a) /\ forall b, above b a -> ~ gmatches (pre ++ [GDeep; st]) (line [] t b)) l.
Proof. exact (select_fun_deep pre st t). Qed.
Print Assumptions C123_last.
(** Any pattern, and functions that may raise exceptions. *)
Theorem C123_sound p t : p <> [] -> StronglySorted doc_before (map fst (fst (select_fun t p))) /\
  forall b u, In (b, u) (fst (select_fun t p)) -> subtree t b = Some u /\ gmatches p (line [] t b).
Proof. exact (select_fun_sound p t). Qed.
Print Assumptions C123_sound.
Theorem C123_names p l n t : In (GTup l) p -> In (GStr n) l -> select_fun t p = ([], Some GTypeErr).
Proof. exact (select_fun_names p l n t). Qed.
Print Assumptions C123_names.
(** Without functions this is the model in TreeUtil.v. *)
Theorem C123_agree t p : fst (select_fun t (map in_stage p)) = fst (select_pattern t p) /\ (snd (select_fun t (map in_stage p)) <> None <-> snd (select_pattern t p) = true).
Proof. rewrite select_fun_plain. unfold in_result. cbn [fst snd]. split; auto. destruct (snd (select_pattern t p)); split; congruence. Qed.
Print Assumptions C123_agree.

(** attr_test(True, 'k'), a function that is always true, one that asks for an attribute of the node (text nodes have none). *)
Definition node_at (t : xtree) (a : addr) : xtree := match subtree t a with Some u => u | None => t end.
Definition attr_fun (t : xtree) (k : string) : galt :=
  GFun (fun a => match node_at t a with XE _ d _ => Some (match dict_get d (lit k) with Some _ => true | None => false end) | XT _ => Some false end).
Definition always : galt := GFun (fun _ => Some true).
Definition asks (t : xtree) (k : string) : galt :=
  GFun (fun a => match node_at t a with XE _ d _ => Some (match dict_get d (lit k) with Some _ => true | None => false end) | XT _ => None end).
Definition sf_tree : xtree :=
  XE (lit "a") [] [XE (lit "b") [(lit "k", lit "1")] [XE (lit "c") [(lit "k", lit "2")] []; XT (lit "t")]; XT (lit "u"); XE (lit "d") [] [XE (lit "c") [(lit "k", lit "3")] []]].
Example C123_case : let p := [GAny; GTup [always]] in
  no_gdeep p /\ only_functions p /\ gsafe p /\ map fst (fst (select_fun sf_tree p)) = [[0; 0]; [0; 1]; [2; 0]] /\
  map fst (fst (select_fun sf_tree [GTup [always]])) = [[0]; [1]; [2]] /\ map fst (fst (select_fun sf_tree [GTup []])) = [].
Proof.
  cbv zeta. split; [intros [K|[K|[]]]; discriminate|]. split; [intros l n [K|[K|[]]]; [discriminate|]; injection K as <-; intros [K|[]]; discriminate|]. split.
  - intros l f a [K|[K|[]]]; [discriminate|]. injection K as <-. intros [K|[]]. injection K as <-. discriminate.
  - repeat split; vm_compute; reflexivity.
Qed.
Example C123_last_case : map fst (fst (select_fun sf_tree [GDeep; GTup [attr_fun sf_tree "k"]])) = [[0]; [2; 0]] /\
  map fst (fst (select_fun sf_tree [GName (lit "b"); GDeep; GTup [always]])) = [[0; 0]].
Proof. vm_compute. auto. Qed.
(** The text node ends the selection; what was yielded before it stays. *)
Example C123_raises_case : let r := select_fun sf_tree [GTup [asks sf_tree "k"]] in (map fst (fst r), snd r) = ([[0]], Some GRaised).
Proof. vm_compute. reflexivity. Qed.
(** Streaming agrees with selecting in the tree, if the functions agree. *)
Theorem C123_stream r p q c s n a ks c' s' x : p <> [] -> no_fdeep (r :: p) -> safe (r :: p) -> Forall2 (same_stage (XE n a ks)) p q -> only_functions q -> gsafe q ->
  fserved [r :: p] c s -> fhandle (fstates [r :: p]) c (new_handler s) (doc_events (XE n a ks)) c' s' x ->
  x = None /\
  (fstage_ok r (EvStart n a []) -> sent_to s s' 0 (map snd (fst (select_fun (XE n a ks) q)))) /\
  (~ fstage_ok r (EvStart n a []) -> sent_to s s' 0 []).
Proof. exact (stream_select_fun r p q c s n a ks c' s' x). Qed.
Print Assumptions C123_stream.
(** A test for an attribute, as a function of events and as a function of nodes. *)
Definition has_key (k : string) (d : dict str) : bool := match dict_get d (lit k) with Some _ => true | None => false end.
Example C123_stream_case : let p := [FAlt [ByFun (fun e => match e with EvStart _ d _ => Some (has_key "k" d) | _ => Some false end)]] in
  let q := [GTup [attr_fun sf_tree "k"]] in
  Forall2 (same_stage sf_tree) p q /\ only_functions q /\ gsafe q /\ safe (FAny :: p) /\ map fst (fst (select_fun sf_tree q)) = [[0]].
Proof.
  cbv zeta. split.
  - constructor; [|constructor]. split.
    + intros a n d ks anc Ha. split.
      * intros (y & [<-|[]] & Hy). cbn in Hy. eexists. split; [left; reflexivity|]. cbn. unfold node_at. rewrite Ha. exact Hy.
      * intros (f & [E|[]] & Hf). injection E as <-. eexists. split; [left; reflexivity|]. cbn in Hf. unfold node_at in Hf. rewrite Ha in Hf. exact Hf.
    + intros a s f Ha [E|[]]. injection E as <-. unfold node_at. rewrite Ha. discriminate.
  - split; [intros l n [K|[]]; injection K as <-; intros [K|[]]; discriminate|]. split.
    + intros l f a [K|[]]. injection K as <-. intros [K|[]]. injection K as <-. destruct (node_at sf_tree a); discriminate.
    + split; [|vm_compute; reflexivity]. intros l f e [K|[K|[]]]; [discriminate|]. injection K as <-. intros [K|[]]. injection K as <-. destruct e; discriminate.
Qed.
