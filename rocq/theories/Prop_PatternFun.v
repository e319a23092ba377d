(** Theorems about treeiter.sender with functions in the patterns, and with several patterns. *)
From Verif Require Import PyStr Parser XTree Grammar ParserSpec Heap Builder HeapSpec Path Pattern PatternSpec.
From Verif Require Import TreeIter TreeIterSpec PatternFun PatternFunSpec PatternFunFacts PatternFunMore.

Definition el (n : string) (ks : list xtree) : xtree := XE (lit n) [] ks.
Definition ela (n k v : string) (ks : list xtree) : xtree := XE (lit n) [(lit k, lit v)] ks.
(** A function that looks for an attribute in the event, and one that looks for a key that may be missing. *)
Definition has_attr (k : string) : falt := ByFun (fun e => match e with EvStart _ a _ => Some (match dict_get a (lit k) with Some _ => true | None => false end) | _ => Some false end).
Definition attr_is (k v : string) : falt := ByFun (fun e => match e with EvStart _ a _ => match dict_get a (lit k) with Some x => Some (str_eqb x (lit v)) | None => None end | _ => Some false end).
Definition fonce (ps : list (list fstage)) (t : xtree) : fctl * tstate * option fexn :=
  fhandle1 (fstates ps) (new_fctl (length ps)) (new_handler (new_fsender empty_heap (length ps))) (doc_events t).
Definition sent_what (r : fctl * tstate * option fexn) : list (nat * option (str * dict str)) :=
  map (fun x => match x with (ix, Some i, h) => (ix, match hp h i with Some (OElem n a _ _) => Some (n, a) | _ => None end) | (ix, None, _) => (ix, None) end) (tsent (snd (fst r))).
Lemma empty_allocated : allocated empty_heap. Proof. intros j o H. discriminate. Qed.

(** ** C121: one pattern *)
Theorem C121_exact p c s t c' s' x : no_fdeep p -> p <> [] -> safe p -> fserved [p] c s -> is_element t ->
  fhandle (fstates [p]) c (new_handler s) (doc_events t) c' s' x ->
  x = None /\ fserved [p] c' s' /\ kept_intact s s' /\
  exists l, listing t (fun a u => is_element u /\ fmatches p (starts [] t a)) l /\ sent_to s s' 0 (map snd l).
Proof. exact (one_exact p c s t c' s' x). Qed.
Print Assumptions C121_exact.
Theorem C121_last pre st c s t c' s' x : no_fdeep pre -> st <> FDeep -> safe (pre ++ [FDeep; st]) -> fserved [pre ++ [FDeep; st]] c s -> is_element t ->
  fhandle (fstates [pre ++ [FDeep; st]]) c (new_handler s) (doc_events t) c' s' x ->
  x = None /\ fserved [pre ++ [FDeep; st]] c' s' /\ kept_intact s s' /\
  exists l, listing t (outermost_by (fmatches (pre ++ [FDeep; st])) t) l /\ sent_to s s' 0 (map snd l).
Proof. exact (one_deep pre st c s t c' s' x). Qed.
Print Assumptions C121_last.
Theorem C121_parse ps c s doc t : lenient_doc doc t ->
  (exists c' s' x, fsend_parse ps c s doc c' s' x) /\
  forall c' s' x, fsend_parse ps c s doc c' s' x -> fhandle (fstates ps) c (new_handler s) (doc_events t) c' s' x.
Proof. intros H. split; [exact (fsend_exists ps c s doc t H)|intros c' s' x; exact (fsend_doc ps c s doc t c' s' x H)]. Qed.
Print Assumptions C121_parse.
Theorem C121_runs ss c s evs : exists c' s' x, fhandle ss c s evs c' s' x.
Proof. exact (fhandle_exists ss evs c s). Qed.
Print Assumptions C121_runs.
(** An exception in the test of the document element ends the handler before anything is sent. *)
Theorem C121_raises p n a ks c s c' s' x y : fserved [p] c s -> fmatch (fprep p) [EvStart n a []] = inr y ->
  fhandle (fstates [p]) c (new_handler s) (doc_events (XE n a ks)) c' s' x -> x = Some y /\ tsent s' = tsent s.
Proof. intros Hs E. apply (stops_at_root [p] c s n a ks c' s' x y Hs); cbn; auto. Qed.
Print Assumptions C121_raises.
(** Without functions, the runs are those of the model in TreeIter.v. *)
Theorem C121_names ps d s evs s' x c : thandle (stateses ps) s evs s' x -> tctl s = mkC (names_of (fstack c)) (fdepths c) -> Forall is_start (fstack c) ->
  exists c', fhandle (fstates (map (map in_names) ps)) c (set_ctl s d) evs c' (set_ctl s' d) (option_map in_exn x) /\ tctl s' = mkC (names_of (fstack c')) (fdepths c').
Proof. intros H E F. destruct (names_agree ps d s evs s' x H c E F) as (c' & K1 & K2 & _). exists c'. auto. Qed.
Print Assumptions C121_names.
Theorem C121_names_back ps c s evs c' s' x : fhandle (fstates (map (map in_names) ps)) c s evs c' s' x -> Forall is_start (fstack c) ->
  exists x0, x = option_map in_exn x0 /\
    thandle (stateses ps) (set_ctl s (mkC (names_of (fstack c)) (fdepths c))) evs (set_ctl s' (mkC (names_of (fstack c')) (fdepths c'))) x0.
Proof. exact (names_agree_back ps c s evs c' s' x). Qed.
Print Assumptions C121_names_back.
(** The argument: a tuple that starts with a string is one pattern, a list is a list of patterns; a tuple that
    starts with a tuple is taken for a sequence of patterns and rejected if a function is in one of its tuples. *)
Theorem C121_argument s r ps k : (exists p, norm_fpatterns (FTuple (CStr s :: r)) 1 = Some [p] /\ Forall2 reads (CStr s :: r) p) /\
  (exists qs, norm_fpatterns (FList ps) (length ps) = Some qs /\ Forall2 (Forall2 reads) ps qs) /\ (length ps <> k -> norm_fpatterns (FList ps) k = None).
Proof.
  split; [eexists; split; [apply tuple_argument|apply comps_read]|]. split; [eexists; split; [apply list_argument|apply patterns_read]|apply length_mismatch].
Qed.
Print Assumptions C121_argument.
Theorem C121_rejected l0 r l f k : In (CTup l) (CTup l0 :: r) -> In (ByFun f) l -> norm_fpatterns (FTuple (CTup l0 :: r)) k = None.
Proof. exact (function_first l0 r l f k). Qed.
Print Assumptions C121_rejected.
Theorem C121_sequence l0 r : Forall (fun c => match c with CStr _ => True | CTup l => exists ns, l = map ByName ns end) (CTup l0 :: r) ->
  exists ps, norm_fpatterns (FTuple (CTup l0 :: r)) (S (length r)) = Some ps /\ Forall2 taken (CTup l0 :: r) ps.
Proof. exact (sequence_taken l0 r). Qed.
Print Assumptions C121_sequence.
Example C121_sequence_case : norm_fpatterns (FTuple [CTup [ByName (lit "a"); ByName (lit "**")]; CStr (lit "b*")]) 2 = Some [[FName (lit "a"); FDeep]; [FName (lit "b"); FAny]].
Proof. reflexivity. Qed.
Example C121_case : let p := [FName (lit "a"); FAlt [ByName (lit "b"); has_attr "k"]] in
  let t := el "a" [el "b" [XT (lit "1")]; ela "x" "k" "v" [el "b" []]; el "c" []; ela "b" "k" "w" []] in
  no_fdeep p /\ safe p /\ fserved [p] (new_fctl 1) (new_fsender empty_heap 1) /\ snd (fonce [p] t) = None /\
  sent_what (fonce [p] t) = [(0, Some (lit "b", [])); (0, Some (lit "x", [(lit "k", lit "v")])); (0, Some (lit "b", [(lit "k", lit "w")]))].
Proof.
  cbv zeta. split; [intros [K|[K|[]]]; discriminate|]. split.
  - intros l f e [K|[K|[]]]; [discriminate|]. injection K as <-. intros [K|[K|[]]]; [discriminate|]. injection K as <-. destruct e as [n a anc|n anc|tx]; cbn; [destruct (dict_get a (lit "k"))|..]; discriminate.
  - split; [apply (fs_new [_] empty_heap empty_allocated)|]. split; vm_compute; reflexivity.
Qed.
Example C121_last_case : let p := [FDeep; FAlt [has_attr "k"]] in let t := el "a" [ela "b" "k" "1" [ela "c" "k" "2" []]; el "d" [ela "e" "k" "3" []]] in
  sent_what (fonce [p] t) = [(0, Some (lit "b", [(lit "k", lit "1")])); (0, Some (lit "e", [(lit "k", lit "3")]))].
Proof. vm_compute. reflexivity. Qed.
Example C121_raises_case : let p := [FAlt [attr_is "k" "v"]] in fmatch (fprep p) [EvStart (lit "a") [] []] = inr FRaised /\ snd (fonce [p] (el "a" [])) = Some FRaised /\
  sent_what (fonce [p] (ela "a" "k" "v" [])) = [(0, Some (lit "a", [(lit "k", lit "v")]))].
Proof. vm_compute. auto. Qed.

(** ** C122: several patterns *)
Theorem C122_exact p ps c s t c' s' x : p <> [] -> (forall q, In q (p :: ps) -> no_fdeep q /\ safe q) -> fserved (p :: ps) c s -> is_element t ->
  fhandle (fstates (p :: ps)) c (new_handler s) (doc_events t) c' s' x ->
  x = None /\ fserved (p :: ps) c' s' /\ kept_intact s s' /\
  forall ix, ix < length (p :: ps) -> exists l, listing t (outermost_by (reached (p :: ps) ix) t) l /\ sent_to s s' ix (map snd l).
Proof. exact (several_exact p ps c s t c' s' x). Qed.
Print Assumptions C122_exact.
(** With '**', and functions that may raise exceptions. *)
Theorem C122_sound ps c s t c' s' x : fserved ps c s -> is_element t -> fhandle (fstates ps) c (new_handler s) (doc_events t) c' s' x ->
  kept_intact s s' /\ forall ix, ix < length ps ->
    exists l, sent_to s s' ix (map snd l) /\ StronglySorted doc_before (map fst l) /\
      (forall a u b v, In (a, u) l -> In (b, v) l -> ~ above a b) /\
      forall a u, In (a, u) l -> subtree t a = Some u /\ is_element u /\ reached ps ix (starts [] t a).
Proof. exact (several_sound ps c s t c' s' x). Qed.
Print Assumptions C122_sound.
Theorem C122_total p ps c s t c' s' x : p <> [] -> ~ ends_fdeep p -> (forall q, In q (p :: ps) -> safe q) -> fserved (p :: ps) c s -> is_element t ->
  fhandle (fstates (p :: ps)) c (new_handler s) (doc_events t) c' s' x -> x = None /\ fserved (p :: ps) c' s'.
Proof. exact (several_fine p ps c s t c' s' x). Qed.
Print Assumptions C122_total.
Example C122_case : let ps := [[FAny; FAny]; [FName (lit "a"); FName (lit "a")]] in
  let t := el "a" [el "b" [XT (lit "1"); el "c" []]; el "a" []] in
  (forall q, In q ps -> no_fdeep q /\ safe q) /\ fserved ps (new_fctl 2) (new_fsender empty_heap 2) /\ snd (fonce ps t) = None /\
  sent_what (fonce ps t) = [(0, Some (lit "b", [])); (1, Some (lit "b", [])); (0, Some (lit "a", [])); (1, Some (lit "a", []))].
Proof.
  cbv zeta. split.
  - intros q [<-|[<-|[]]]; (split; [intros [K|[K|[]]]; discriminate|intros l f e [K|[K|[]]]; discriminate]).
  - split; [apply (fs_new [_; _] empty_heap empty_allocated)|]. split; vm_compute; reflexivity.
Qed.
