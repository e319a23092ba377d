(** Paths from the root down, in a text, over a document given as a text. *)
From Verif Require Import PyStr XTree Grammar Path PatternFacts XPath XPathSpec XPathFacts XPathFuel XPathExpr XPathFun XPathLast Lalr XGram XGramSpec XTok XReads XCompose XLex XLexSpec XLexFacts XText XSerial XQuery XQueryFacts.
From Verif Require Import Heap HeapSpec Builder BuilderMore Pattern PatternSpec TreeIter TreeIterSpec TreeIterMore.
From Coq Require Import Sorted Permutation.

(** No document has an empty text node. *)
Fixpoint no_void (t : xtree) : Prop := match t with XT s => s <> [] | XE _ _ ks => fold_right (fun k r => no_void k /\ r) True ks end.
Lemma no_void_kids ks : fold_right (fun k r => no_void k /\ r) True ks <-> Forall no_void ks.
Proof. induction ks as [|k ks IH]; cbn; [split; constructor|]. rewrite IH. split; [intros []; now constructor|intros H; inversion H; auto]. Qed.
Lemma text_node_void v ks : Forall no_void ks -> Forall no_void (text_node v ++ ks).
Proof. destruct v; cbn; auto. intros H. constructor; [discriminate|assumption]. Qed.
Lemma lenient_void : forall e t, lenient_elem e t -> no_void t.
Proof.
  apply (lenient_elem_mut (fun _ t => no_void t) (fun _ ks => Forall no_void ks)).
  - intros st n d content kids en _ _ H _. cbn. now apply no_void_kids.
  - intros raw v _. rewrite <- (app_nil_r (text_node v)). apply text_node_void. constructor.
  - intros raw v e t rest ks _ _ H _ H'. apply text_node_void. now constructor.
Qed.
Lemma void_subtree t a s : no_void t -> subtree t a = Some (XT s) -> s <> [].
Proof.
  revert t. induction a as [|i a IH]; intros t V E; cbn in E.
  - inversion E; subst. exact V.
  - destruct t as [n at_ ks|x]; [|discriminate]. destruct (nth_error ks i) as [k|] eqn:K; [|discriminate]. apply (IH k); auto.
    cbn in V. rewrite no_void_kids, Forall_forall in V. apply V. eapply nth_error_In; eassumption.
Qed.
Lemma document_text text t w : lenient_doc text t -> doc w = t -> no_empty_text w.
Proof. intros (w1 & e & w2 & _ & _ & _ & H) E a s Ha. rewrite E in Ha. eapply void_subtree; [eapply lenient_void; eassumption|eassumption]. Qed.

(** ** The children of nodes that are equally deep come in document order *)
Lemma before_deeper a b : doc_before a b -> length a = length b -> forall i j, doc_before (a ++ [i]) (b ++ [j]).
Proof.
  intros H. induction H as [k b|k l a b H|k a b H IH]; intros L i j; cbn in L |- *; try discriminate.
  - now apply db_later.
  - apply db_same, IH. lia.
Qed.
Lemma children_listing D (Q : addr -> xtree -> Prop) k : forall (l : list (addr * xtree)) groups,
  StronglySorted doc_before (map fst l) -> Forall (fun x => length (fst x) = k) l ->
  Forall2 (fun x g => listing D (fun b u => (exists i, b = fst x ++ [i]) /\ Q b u) g) l groups ->
  listing D (fun b u => (exists a i, In a (map fst l) /\ b = a ++ [i]) /\ Q b u) (concat groups).
Proof.
  intros l groups S F H. induction H as [|x g l groups Hg H IH]; cbn [concat map].
  - split; [constructor|]. intros a u. split; [intros []|]. intros (_ & (b & i & [] & _) & _).
  - cbn [map] in S. apply StronglySorted_inv in S as (S & Fx). inversion F as [|y z Lx Fl]; subst. destruct (IH S Fl) as (IS & II). destruct Hg as (GS & GI).
    split.
    + rewrite map_app. apply sorted_app; auto. intros p q Hp Hq. apply in_map_iff in Hp as ([p' u] & <- & Hp). apply in_map_iff in Hq as ([q' v] & <- & Hq).
      apply GI in Hp as (_ & (i & ->) & _). apply II in Hq as (_ & (a & j & Ha & ->) & _). cbn [fst].
      apply before_deeper; [rewrite Forall_forall in Fx; auto|]. apply in_map_iff in Ha as (y & <- & Hy). rewrite Forall_forall in Fl. symmetry. now apply Fl.
    + intros a u. rewrite in_app_iff, GI, II. split.
      * intros [(A & (i & B) & C)|(A & (b & i & B & B') & C)]; (split; [assumption|split; [|assumption]]).
        -- exists (fst x), i. split; [now left|assumption].
        -- exists b, i. split; [now right|assumption].
      * intros (A & (b & i & [B|B] & B') & C).
        -- left. split; [assumption|]. split; [|assumption]. exists i. now subst.
        -- right. split; [assumption|]. split; [|assumption]. eauto.
Qed.

(** ** Paths of names *)
Definition name_step (n : str) : expr := EStep AxChild (TName n).
Definition name_path (n : str) (ns : list str) : expr := fold_left (fun e m => EBin e OpPath (name_step m)) ns (name_step n).
(** The element at [a] has, from the document element down, the names [ns]. *)
Definition named (t : xtree) (ns : list str) (a : addr) (u : xtree) : Prop := is_element u /\ path_names t a = ns.
Lemma path_names_length t a u : subtree t a = Some u -> is_element u -> length (path_names t a) = S (length a).
Proof.
  revert t. induction a as [|i a IH]; intros t E U; cbn in E.
  - inversion E; subst. destruct U as (n & at_ & ks & ->). reflexivity.
  - destruct t as [n at_ ks|x]; [|discriminate]. cbn [path_names]. destruct (nth_error ks i) as [k|]; [|discriminate]. cbn [length]. now rewrite (IH k).
Qed.
Lemma path_names_snoc t a n at_ ks i u : subtree t a = Some (XE n at_ ks) -> nth_error ks i = Some u ->
  path_names t (a ++ [i]) = path_names t a ++ match u with XE m _ _ => [m] | XT _ => [] end.
Proof.
  revert t. induction a as [|j a IH]; intros t E K; cbn in E.
  - inversion E; subst. cbn. rewrite K. destruct u; reflexivity.
  - destruct t as [m at' ks'|x]; [|discriminate]. cbn [path_names app]. destruct (nth_error ks' j) as [k|]; [|discriminate]. cbn [app]. f_equal. now apply IH.
Qed.
Lemma element_true w a u : subtree (doc w) a = Some u -> is_element u -> ~ falsy w (INode a).
Proof.
  intros E (n & at_ & ks & ->) F. unfold falsy in F. repeat destruct F as [F|F]; try discriminate.
  all: try (destruct F as (x & F)); try discriminate. all: try (destruct F as (F & F')); inversion F; subst; congruence.
Qed.
Lemma name_path_selects w k n ns : selects w (named (doc w) (n :: ns)) (eval w k (name_path n ns) IRoot).
Proof.
  induction ns as [|m ns IH] using rev_ind.
  - unfold name_path. cbn [fold_left]. unfold name_step. rewrite eval_step. pose proof (child_axis w k (TName n) IRoot I (or_introl eq_refl)) as H.
    revert H. apply selects_ext. intros a u E. cbn [child_of child_passes passes]. split.
    + intros (-> & at_ & ks & ->). cbn in E. injection E as E'. split; [do 3 eexists; reflexivity|]. rewrite E'. reflexivity.
    + intros (U & P). pose proof (path_names_length _ _ _ E U) as L. rewrite P in L. destruct a; [|discriminate]. split; [reflexivity|].
      destruct U as (n' & at_ & ks & ->). cbn in E. inversion E as [E']. rewrite E' in P. cbn in P. inversion P; subst. eauto.
  - unfold name_path. rewrite fold_left_app. cbn [fold_left]. fold (name_path n ns). destruct IH as (l & (Sl & Il) & El).
    assert (G : exists groups, Forall2 (fun x g => listing (doc w) (fun b u => (exists i, b = fst x ++ [i]) /\ passes (TName m) u) g /\
        eval w k (name_step m) (INode (fst x)) = (nodes g, Done)) l groups).
    { assert (A : Forall (fun x => subtree (doc w) (fst x) = Some (snd x)) l) by (apply Forall_forall; intros [a u] H; now apply Il in H).
      clear - A. induction A as [|[a u] l E _ (groups & IH)]; [exists []; constructor|].
      assert (TI : tree_item w (INode a)) by (exists u; exact E).
      destruct (child_axis w k (TName m) (INode a) TI (or_introl eq_refl)) as (g & Lg & Eg). exists (g :: groups).
      constructor; [|assumption]. split; [exact Lg|]. unfold name_step. rewrite eval_step. exact Eg. }
    destruct G as (groups & G). exists (concat groups). split.
    + assert (C : listing (doc w) (fun b u => (exists a i, In a (map fst l) /\ b = a ++ [i]) /\ passes (TName m) u) (concat groups)).
      { apply (children_listing (doc w) (fun _ u => passes (TName m) u) (length ns)); auto.
        - apply Forall_forall. intros [a u] H. apply Il in H as (E & U & P). pose proof (path_names_length _ _ _ E U) as L. rewrite P in L. cbn in L |- *. lia.
        - clear - G. induction G as [|x g l groups (H & _) _ IH]; constructor; auto. }
      destruct C as (CS & CI). split; [assumption|]. intros b u. rewrite CI. split.
      * intros (E & (a & i & Ha & ->) & at_ & ks & ->). split; [assumption|]. split; [do 3 eexists; reflexivity|]. apply in_map_iff in Ha as ([a' v] & <- & Ha). cbn [fst] in *.
        apply Il in Ha as (Ea & (n' & at' & ks' & ->) & P). rewrite subtree_app, Ea in E. cbn in E. destruct (nth_error ks' i) as [q|] eqn:K; [|discriminate].
        rewrite (path_names_snoc _ _ _ _ _ _ _ Ea K), P. inversion E; subst. reflexivity.
      * intros (E & U & P). split; [assumption|]. destruct b as [|i a _] using rev_ind.
        { pose proof (path_names_length _ _ _ E U) as L. rewrite P in L. cbn in L. rewrite app_length in L. cbn in L. lia. }
        rewrite subtree_app in E. destruct (subtree (doc w) a) as [v|] eqn:Ea; [|discriminate]. cbn in E. destruct v as [n' at' ks'|x]; [|discriminate].
        destruct (nth_error ks' i) as [q|] eqn:K; [|discriminate]. inversion E; subst q. rewrite (path_names_snoc _ _ _ _ _ _ _ Ea K) in P.
        destruct U as (n2 & at2 & ks2 & ->). change (n :: ns ++ [m]) with ((n :: ns) ++ [m]) in P. apply app_inj_tail in P as (P & ->). split; [|cbn; eauto].
        exists a, i. split; [|reflexivity]. apply in_map_iff. exists (a, XE n' at' ks'). split; [reflexivity|]. apply Il. split; [assumption|]. split; [do 3 eexists; reflexivity|assumption].
    + rewrite (path_eq w k _ _ IRoot (nodes l) (map nodes groups) El).
      * unfold nodes. rewrite concat_map. reflexivity.
      * assert (A : Forall (fun x => subtree (doc w) (fst x) = Some (snd x) /\ is_element (snd x)) l).
        { apply Forall_forall. intros [a u] H. apply Il in H as (H & H' & _). auto. }
        clear - G A. induction G as [|x g l groups (_ & H) _ IH]; cbn [nodes map]; [constructor|]. inversion A as [|y z (A1 & A2) A3]; subst.
        constructor; [|now apply IH]. exists (INode (fst x)). split; [left; split; [eapply element_true; eassumption|reflexivity]|exact H].
Qed.
(** As texts. *)
Definition slash_names (ns : list str) : str := flat_map (fun n => c_slash :: n) ns.
Definition slash_tokens (ns : list str) : list token := flat_map (fun n => [P Slash; Word n]) ns.
Section Text.
  Variable v : lexenv.
  Notation scans := (scans (wide_digit v) (float_of v)).
  Lemma name_head n : XLexSpec.name n -> exists c r, n = c :: r /\ start_char c || extra_char c || N.eqb c 192 = true /\ c <> 47%N.
  Proof.
    intros (u & us & -> & B & _). destruct B as [c H|]; cbn [app].
    - exists c, (concat us). split; [reflexivity|]. assert (S : start_char c = true) by (apply start_char_iff; now constructor). rewrite S. split; [reflexivity|].
      intros ->. discriminate.
    - exists 192%N, ([45; 214; 93] ++ concat us)%N. repeat split. discriminate.
  Qed.
  Lemma slashed_follow n ns : XGramSpec.token -> free v (Word n) (slash_names ns).
  Proof. intros _. destruct ns as [|m ns]; cbn; [exact I|reflexivity]. Qed.
  Lemma slash_scans ns : Forall XLexSpec.name ns -> scans (slash_names ns) (slash_tokens ns) false.
  Proof.
    intros H. induction H as [|n ns Hn H IH]; cbn [slash_names slash_tokens flat_map app].
    - apply S_end. constructor.
    - change (c_slash :: n ++ flat_map (fun n => c_slash :: n) ns) with (punct_text Slash ++ (n ++ slash_names ns)).
      apply (scans_punct v Slash).
      + destruct (name_head n Hn) as (c & r & -> & _ & N47). cbn. apply negb_true_iff. now apply N.eqb_neq.
      + apply scans_token; [now apply Sp_word|now apply slashed_follow; exact (P Slash)|exact IH].
  Qed.
End Text.
Lemma name_path_path f n ns : path f (Word n :: slash_tokens ns) (name_path n ns).
Proof.
  induction ns as [|m ns IH] using rev_ind.
  - apply XGramSpec.P_step, S_name.
  - unfold slash_tokens, name_path. rewrite flat_map_app, fold_left_app. cbn [fold_left flat_map app].
    change (Word n :: flat_map (fun n0 => [P Slash; Word n0]) ns ++ [P Slash; Word m]) with ((Word n :: slash_tokens ns) ++ sep false :: [Word m]).
    apply (XGramSpec.P_more f _ _ false); [exact IH|apply S_name].
Qed.
Lemma absolute_names v n ns : XLexSpec.name n -> Forall XLexSpec.name ns -> expression v (slash_names (n :: ns)) (EAbs false (Some (name_path n ns))).
Proof.
  intros Hn H. exists (slash_tokens (n :: ns)). split; [apply slash_scans; now constructor|]. cbn [slash_tokens flat_map app].
  apply (R_abs 0 false). apply name_path_path.
Qed.
Lemma relative_names v n ns : XLexSpec.name n -> Forall XLexSpec.name ns -> expression v (n ++ slash_names ns) (name_path n ns).
Proof.
  intros Hn H. exists (Word n :: slash_tokens ns). split; [|apply R_path, name_path_path].
  apply scans_token; [now apply Sp_word|apply slashed_follow; exact (P Slash)|now apply slash_scans].
Qed.
Lemma name_path_just n ns : just_node (name_path n ns) = false.
Proof. unfold name_path. destruct ns as [|m ns _] using rev_ind; [reflexivity|]. rewrite fold_left_app. reflexivity. Qed.

(** The result of a query by a path of names over a document. *)
Theorem path_query h v vs tf fs k text t n ns : lenient_doc text t -> XLexSpec.name n -> Forall XLexSpec.name ns ->
  exists l, listing t (named t (n :: ns)) l /\
    forall s r, s = slash_names (n :: ns) \/ s = n ++ slash_names ns -> qquery_str h (world v vs tf fs) k text (Text s) r <-> r = (nodes l, Done).
Proof.
  intros D Hn H. set (w := world v vs tf fs t). destruct (name_path_selects w k n ns) as (l & L & E). exists l. split; [exact L|].
  intros s r [-> | ->].
  - rewrite (qquery_document h v vs tf fs k text t _ _ D (absolute_names v n ns Hn H)). fold w.
    rewrite (absolute_relative w k (name_path n ns) IRoot (or_introl eq_refl) (name_path_just n ns)), E. reflexivity.
  - rewrite (qquery_document h v vs tf fs k text t _ _ D (relative_names v n ns Hn H)). fold w. rewrite E. reflexivity.
Qed.
(** The elements of that name anywhere. *)
Lemma anywhere_text v n : XLexSpec.name n -> expression v (lit "//" ++ n) (EAbs true (Some (name_step n))).
Proof.
  intros Hn. exists [P Slashes; Word n]. split; [|apply (R_abs 0 true), XGramSpec.P_step, S_name].
  replace (lit "//" ++ n) with (punct_text Slashes ++ n ++ []) by (rewrite app_nil_r; reflexivity). apply (scans_punct v Slashes).
  - destruct n; [exact I|reflexivity].
  - apply scans_token; [now apply Sp_word|exact I|apply S_end; constructor].
Qed.
Theorem anywhere_query h v vs tf fs k text t n : lenient_doc text t -> XLexSpec.name n ->
  exists l out, listing t (fun _ u => exists a ks, u = XE n a ks) l /\ Permutation out (nodes l) /\
    forall r, qquery_str h (world v vs tf fs) k text (Text (lit "//" ++ n)) r <-> r = (out, Done).
Proof.
  intros D Hn. set (w := world v vs tf fs t).
  destruct (deep_exactly_once w k (TName n) IRoot (document_text text t w D eq_refl) (or_introl eq_refl)) as (l & out & L & E & Pm); [discriminate|].
  exists l, out. split; [exact L|]. split; [exact Pm|]. intros r.
  rewrite (qquery_document h v vs tf fs k text t _ _ D (anywhere_text v n Hn)). fold w. unfold name_step. rewrite E. reflexivity.
Qed.
(** How many there are. *)
Theorem count_query h v vs tf fs k text t n : lenient_doc text t -> XLexSpec.name n ->
  exists l, listing t (fun _ u => exists a ks, u = XE n a ks) l /\
    forall r, qquery_str h (world v vs tf fs) k text (Text (lit "count(//" ++ n ++ lit ")")) r <-> r = ([IInt (Z.of_nat (length l))], Done).
Proof.
  intros D Hn. set (w := world v vs tf fs t).
  destruct (deep_exactly_once w k (TName n) IRoot (document_text text t w D eq_refl) (or_introl eq_refl)) as (l & out & L & E & Pm); [discriminate|].
  exists l. split; [exact L|]. intros r.
  assert (X : expression v (lit "count(//" ++ n ++ lit ")") (ECall (lit "count") [EAbs true (Some (name_step n))])).
  { exists [Word (lit "count"); P LPar; P Slashes; Word n; P RPar]. split.
    - change (lit "count(//" ++ n ++ lit ")") with (lit "count" ++ lit "(" ++ lit "//" ++ n ++ lit ")"). apply scans_token.
      + apply Sp_word. exists (lit "c"), (map (fun c => [c]) (lit "ount")). split; [reflexivity|]. split; [now apply start_char_iff|].
        repeat (constructor; [now apply extra_char_iff|]). constructor.
      + reflexivity.
      + apply (scans_punct v LPar); [reflexivity|]. apply (scans_punct v Slashes); [destruct n; reflexivity|]. apply scans_token; [now apply Sp_word|reflexivity|].
        rewrite <- (app_nil_r (lit ")")). apply (scans_punct v RPar); [exact I|]. apply S_end. constructor.
    - apply R_call; [discriminate|discriminate|]. apply (A_some [P Slashes; Word n]), L_one, (R_abs 0 true), XGramSpec.P_step, S_name. }
  rewrite (qquery_document h v vs tf fs k text t _ _ D X). fold w. unfold name_step. rewrite (count_eq w k _ IRoot _ E).
  rewrite (Permutation_length Pm). unfold nodes. rewrite map_length. reflexivity.
Qed.

(** From the document element. *)
Lemma element_from_root w v n k : xparse w = uxpath_parse v -> XLexSpec.name k ->
  is_element (doc w) -> selects w (fun a u => a = [] /\ exists at_ ks, u = XE k at_ ks) (xml_xpath w n (INode []) (Text k)).
Proof.
  intros X K E.
  pose proof (relative_names v k [] K (Forall_nil _)) as R. cbn [slash_names flat_map] in R. rewrite app_nil_r in R.
  rewrite (xml_xpath_text w v n (INode []) k _ X) with (2 := R); [|cbn; eauto]. cbn [start_item]. unfold name_path. cbn [fold_left]. unfold name_step. rewrite eval_step.
  exact (child_axis w n (TName k) IRoot I (or_introl eq_refl)).
Qed.
Lemma foreach_text w v n e y c s p items outs : xparse w = uxpath_parse v -> arg_string w (eval w (S n) y c) s -> expression v s p -> eval w (S n) e c = (items, Done) ->
  Forall2 (fun i o => exists j, moved w c i j /\ eval w n p j = (o, Done)) items outs -> eval w (S n) (ECall (lit "for-each") [e; y]) c = (concat outs, Done).
Proof. intros X A P. apply (foreach_eq w n e y c s p items outs A). rewrite X. now apply uxpath_parse_ok. Qed.

(** Queries and streams. *)
Lemma matches_names ms names : matches (map StName ms) names <-> names = ms.
Proof.
  revert names. induction ms as [|m ms IH]; intros names; cbn [map].
  - split; [intros H; now inversion H|intros ->; constructor].
  - split; [intros H; inversion H; subst; cbn in *; subst; f_equal; now apply IH|intros ->; constructor; [reflexivity|now apply IH]].
Qed.
Lemma stream_query h v vs tf fs k text t n ns p s s' x r : lenient_doc text t -> XLexSpec.name n -> Forall XLexSpec.name ns -> p = map StName (n :: ns) -> served p s ->
  send_parse [p] s text s' x -> qquery_str h (world v vs tf fs) k text (Text (slash_names (n :: ns))) r ->
  exists l, sent_since s s' 0 (map snd l) /\ r = (nodes l, Done) /\ forall a u, In (a, u) l -> subtree t a = Some u.
Proof.
  intros D Hn H -> Sv Sp Q. assert (ND : no_deep (map StName (n :: ns))) by (intros I; apply in_map_iff in I as (? & [=] & _)).
  assert (NE : map StName (n :: ns) <> []) by discriminate.
  destruct (proj2 (stream_parse _ _ _ _ ND NE Sv D) _ _ Sp) as (_ & _ & _ & l & L & Se).
  destruct (path_query h v vs tf fs k text t n ns D Hn H) as (l' & L' & R). exists l. split; [exact Se|]. split.
  - apply (R _ _ (or_introl eq_refl)) in Q. rewrite Q. f_equal. f_equal. apply (listing_unique _ _ _ _ L'). destruct L as (A & B). split; [exact A|].
    intros a u. rewrite B. unfold named. rewrite matches_names. tauto.
  - intros a u I. apply L in I. tauto.
Qed.
