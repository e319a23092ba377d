(** Theorems about patterns with '**' anywhere but at the end. *)
From Verif Require Import PyStr Parser XTree Grammar ParserSpec Heap Builder HeapSpec Path Nodes Pattern PatternSpec TreeUtil TreeUtilSpec.
From Verif Require Import TreeIter TreeIterSpec TreeIterMore Prop_TreeIter TreeSink TreeSinkSpec SinkStop SinkStopSpec.
From Verif Require Import Expat ExpatSpec XmlIter XmlIterSpec PatternFun PatternFunSpec PatternFunMore Prop_PatternFun SelectFun SelectFunSpec SelectFunStream Prop_SelectFun.
From Verif Require Import GreedySpec GreedyFacts GreedySelect GreedySink.

(** ** C129 *)
(** What is selected matches; without '**', and with one before the last component, this is C39's and C40's notion. *)
Theorem C129_matches p names : greedy p names -> matches p names.
Proof. exact (greedy_matches p names). Qed.
Print Assumptions C129_matches.
Theorem C129_plain p names : no_deep p -> greedy p names <-> matches p names.
Proof. exact (greedy_exact p names). Qed.
Print Assumptions C129_plain.
Theorem C129_last pre st names : no_deep pre -> st <> StDeep -> greedy (pre ++ [StDeep; st]) names <-> first_match (pre ++ [StDeep; st]) names.
Proof. exact (greedy_last pre st names). Qed.
Print Assumptions C129_last.
(** Selected positions are not nested. *)
Theorem C129_first p a b : greedy p a -> greedy p (a ++ b) -> b = [].
Proof. exact (greedy_first p a b). Qed.
Print Assumptions C129_first.

(** The three senders, and when they send. *)
Theorem C129_stream p s t s' x : ~ ends_deep p -> p <> [] -> served p s -> is_element t ->
  thandle (stateses [p]) (new_handler s) (doc_events t) s' x ->
  x = None /\ served p s' /\ kept_intact s s' /\
  exists l, listing t (fun a u => is_element u /\ greedy p (path_names t a)) l /\ sent_since s s' 0 (map snd l).
Proof. exact (stream_greedy p s t s' x). Qed.
Print Assumptions C129_stream.
Theorem C129_parse p s doc t : ~ ends_deep p -> p <> [] -> served p s -> lenient_doc doc t ->
  forall s' x, send_parse [p] s doc s' x ->
    x = None /\ served p s' /\ kept_intact s s' /\
    exists l, listing t (fun a u => is_element u /\ greedy p (path_names t a)) l /\ sent_since s s' 0 (map snd l).
Proof. exact (stream_parse_greedy p s doc t). Qed.
Print Assumptions C129_parse.
Theorem C129_xml p h css u s' stk x : ~ ends_deep p -> p <> [] -> allocated h -> report (concat css) [u] -> is_element u ->
  xparses [p] (new_xsender h [p]) css (s', stk) x ->
  x = None /\ stk = [] /\ kept_intact (new_sender h [p]) s' /\
  exists l, listing u (fun a v => is_element v /\ greedy p (path_names u a)) l /\ sent_since (new_sender h [p]) s' 0 (map snd l).
Proof. exact (xml_greedy p h css u s' stk x). Qed.
Print Assumptions C129_xml.
Theorem C129_timely p t l1 a v l2 : ~ ends_deep p -> p <> [] ->
  listing t (fun a u => is_element u /\ greedy p (path_names t a)) (l1 ++ (a, v) :: l2) -> sent_at_end p t l1 a v.
Proof. exact (timely_greedy p t l1 a v l2). Qed.
Print Assumptions C129_timely.
(** Selecting in a tree. *)
Theorem C129_select p t : no_alt p -> ~ ends_deep p -> p <> [] -> is_element t ->
  exists l, select_pattern t p = (l, false) /\ listing t (fun b u => b <> [] /\ is_element u /\ greedy p (names_below t b)) l.
Proof. exact (select_greedy p t). Qed.
Print Assumptions C129_select.

(** With functions in the pattern, and with several patterns. *)
Theorem C129_functions p c s t c' s' x : p <> [] -> ~ ends_fdeep p -> safe p -> fserved [p] c s -> is_element t ->
  fhandle (fstates [p]) c (new_handler s) (doc_events t) c' s' x ->
  x = None /\ fserved [p] c' s' /\ kept_intact s s' /\
  exists l, listing t (fun a u => is_element u /\ fgreedy p (starts [] t a)) l /\ sent_to s s' 0 (map snd l).
Proof. exact (one_greedy p c s t c' s' x). Qed.
Print Assumptions C129_functions.
Theorem C129_several p ps c s t c' s' x : p <> [] -> ~ ends_fdeep p -> (forall q, In q (p :: ps) -> safe q) -> fserved (p :: ps) c s -> is_element t ->
  fhandle (fstates (p :: ps)) c (new_handler s) (doc_events t) c' s' x ->
  x = None /\ fserved (p :: ps) c' s' /\ kept_intact s s' /\
  forall ix, ix < length (p :: ps) -> exists l, listing t (outermost_by (greached (p :: ps) ix) t) l /\ sent_to s s' ix (map snd l).
Proof. exact (several_greedy p ps c s t c' s' x). Qed.
Print Assumptions C129_several.
Theorem C129_select_functions p t : p <> [] -> ~ ends_gdeep p -> only_functions p -> gsafe p ->
  exists l, select_fun t p = (l, None) /\ listing t (fun a _ => ggreedy p (line [] t a)) l.
Proof. exact (select_fun_greedy p t). Qed.
Print Assumptions C129_select_functions.
Theorem C129_agree r p q c s n a ks c' s' x : r <> FDeep -> p <> [] -> ~ ends_fdeep p -> safe (r :: p) ->
  Forall2 (same_stage (XE n a ks)) p q -> only_functions q -> gsafe q ->
  fserved [r :: p] c s -> fhandle (fstates [r :: p]) c (new_handler s) (doc_events (XE n a ks)) c' s' x ->
  x = None /\
  (fstage_ok r (EvStart n a []) -> sent_to s s' 0 (map snd (fst (select_fun (XE n a ks) q)))) /\
  (~ fstage_ok r (EvStart n a []) -> sent_to s s' 0 []).
Proof. exact (stream_select_greedy r p q c s n a ks c' s' x). Qed.
Print Assumptions C129_agree.

(** Sinks that edit what they get, that raise, that collect. *)
Theorem C129_edits sink p s t s' x : leaves_loose sink -> ~ ends_deep p -> p <> [] -> served_with sink p s -> is_element t ->
  whandle sink (stateses [p]) (new_handler s) (doc_events t) s' x ->
  x = None /\ served_with sink p s' /\
  exists l, listing t (fun a u => is_element u /\ greedy p (path_names t a)) l /\ sent_since s s' 0 (map snd l).
Proof. exact (loose_greedy sink p s t s' x). Qed.
Print Assumptions C129_edits.
Theorem C129_until sink p s t s' x : stop_loose sink -> ~ ends_deep p -> p <> [] -> fed sink p s -> is_element t ->
  shandle sink (stateses [p]) (new_handler s) (doc_events t) s' x ->
  exists l, listing t (fun a u => is_element u /\ greedy p (path_names t a)) l /\
    (x = TEnd /\ sent_since s s' 0 (map snd l) \/
     x = TSink /\ exists l1 au l2, l = l1 ++ au :: l2 /\ sent_since s s' 0 (map snd (l1 ++ [au]))).
Proof. exact (until_greedy sink p s t s' x). Qed.
Print Assumptions C129_until.
Theorem C129_collects p h c cn ca ck cp t s' x : ~ ends_deep p -> p <> [] -> is_element t ->
  hp h c = Some (OElem cn ca ck cp) -> c < nxt h ->
  whandle (appends_to c) (stateses [p]) (new_handler (new_sender_with h [c] p)) (doc_events t) s' x -> In c (tkept s') ->
  x = None /\ exists l is, listing t (fun a u => is_element u /\ greedy p (path_names t a)) l /\
    Forall2 (has_under (theap s') c) is (map snd l) /\
    hp (theap s') c = Some (OElem cn ca (ck ++ doubled is) cp).
Proof. exact (collected_greedy p h c cn ca ck cp t s' x). Qed.
Print Assumptions C129_collects.

(** '**/a/b' commits to the outermost a: the b in a/a/b is not selected, the one in r/a/b is; '**' twice is like once. *)
Ltac not_deep := let q := fresh in let E := fresh in intros (q & E); repeat first [discriminate | destruct q as [|? q]].
Definition c129_pat : list stage := [StDeep; nm "a"; StDeep; StDeep; nm "b"; StAny].
Definition c129_doc : xtree := el "r" [el "a" [el "x" [el "b" [el "c" []; XT (lit "t"); el "d" [el "b" [el "e" []]]]]; el "b" [el "b" [el "f" []]]]; el "b" [el "g" []]].
Example C129_case : ~ ends_deep c129_pat /\ served c129_pat (new_sender empty_heap [c129_pat]) /\
  sent_names (fst (once [c129_pat] c129_doc)) = [(0, Some (lit "c")); (0, Some (lit "d")); (0, Some (lit "b"))] /\
  map fst (fst (select_pattern c129_doc c129_pat)) = [[0; 0; 0; 0]; [0; 0; 0; 2]; [0; 1; 0]] /\ no_alt c129_pat.
Proof.
  split; [not_deep|]. split; [constructor; exact empty_allocated|]. split; [vm_compute; reflexivity|]. split; [vm_compute; reflexivity|]. intros ns; no_such.
Qed.
Example C129_greedy_case : greedy [StDeep; nm "a"; nm "b"] [lit "r"; lit "a"; lit "b"] /\ ~ greedy [StDeep; nm "a"; nm "b"] [lit "a"; lit "a"; lit "b"] /\
  matches [StDeep; nm "a"; nm "b"] [lit "a"; lit "a"; lit "b"].
Proof.
  split; [|split].
  - apply (gr_deep (nm "a") [nm "b"] [lit "r"]); [intros k [<-|[]] E; discriminate|reflexivity|]. constructor; [reflexivity|constructor].
  - intros H. apply hits_greedy in H; [|discriminate]. vm_compute in H. discriminate.
  - apply (ma_deep _ [lit "a"]). repeat (constructor; [reflexivity|]). constructor.
Qed.
(** The same with functions: the component after '**' takes the first element with the attribute. *)
Example C129_functions_case : let p := [FDeep; FAlt [has_attr "k"]; FAny] in
  let t := el "a" [ela "b" "k" "1" [ela "c" "k" "2" [el "x" []]]; el "d" [ela "e" "k" "3" [el "y" []]]] in
  ~ ends_fdeep p /\ safe p /\ fserved [p] (new_fctl 1) (new_fsender empty_heap 1) /\ snd (fonce [p] t) = None /\
  sent_what (fonce [p] t) = [(0, Some (lit "c", [(lit "k", lit "2")])); (0, Some (lit "y", []))].
Proof.
  cbv zeta. split; [not_deep|]. split.
  - intros l f e [K|[K|[K|[]]]]; [discriminate| |discriminate]. injection K as <-. intros [K|[]]. injection K as <-. destruct e as [n a anc|n anc|tx]; cbn; [destruct (dict_get a (lit "k"))|..]; discriminate.
  - split; [apply (fs_new [_] empty_heap empty_allocated)|]. split; vm_compute; reflexivity.
Qed.
Example C129_select_functions_case : let p := [GDeep; GTup [always]; GTup [always]] in
  ~ ends_gdeep p /\ only_functions p /\ gsafe p /\ map fst (fst (select_fun sf_tree p)) = [[0; 0]; [0; 1]; [2; 0]].
Proof.
  cbv zeta. split; [not_deep|]. split; [intros l n [K|[K|[K|[]]]]; [discriminate|injection K as <-..]; intros [K|[]]; discriminate|]. split; [|vm_compute; reflexivity].
  intros l f a [K|[K|[K|[]]]]; [discriminate|injection K as <-..]; intros [K|[]]; injection K as <-; discriminate.
Qed.
