(** Uses of microx: the whole program on one source, with a path, //name, a name to match, a text to find. *)
From Coq Require Import Permutation Sorted.
From Verif Require Import PyStr Parser XTree Tree Heap HeapSpec Builder BuilderFacts Expat ExpatSpec ExpatFacts Path Pattern PatternSpec TreeUtil PatternFacts TreeIter TreeIterSpec.
From Verif Require Import XPath XPathSpec XPathFacts XPathExpr XPathLast XPathLast XGram XGramSpec XLex XLexSpec XQuery XQueryFacts XFind XPaths Nodes Microx MicroxSpec MicroxFacts MicroxMain MicroxMainSpec MicroxMainFacts.

Lemma print_nodes w l : (forall a u, In (a, u) l -> subtree (doc w) a = Some u) -> each (print_item w) (nodes l) Done = (map (fun x => xml_encode (snd x)) l, Done).
Proof.
  intros H. induction l as [|(a & u) l IH]; [reflexivity|]. cbn [nodes map each fst snd]. unfold print_item at 1, node_at. rewrite (H a u) by (left; reflexivity).
  unfold nodes in IH. rewrite IH by (intros b v Hb; apply H; right; exact Hb). reflexivity.
Qed.
Lemma at_kids t a u : subtree t a = Some u -> map snd (at_addrs t (map (fun i => a ++ [i]) (seq 0 (length (kids_of u))))) = kids_of u.
Proof.
  intros E. assert (H : forall i ds, (forall j d, nth_error ds j = Some d -> nth_error (kids_of u) (i + j) = Some d) ->
    map snd (at_addrs t (map (fun i => a ++ [i]) (seq i (length ds)))) = ds).
  { intros i ds. revert i. induction ds as [|d ds IH]; intros i Hd; [reflexivity|]. cbn [length seq map at_addrs flat_map].
    pose proof (Hd 0 d eq_refl) as Hn. rewrite Nat.add_0_r in Hn.
    assert (S : subtree t (a ++ [i]) = Some d). { rewrite subtree_app, E. destruct u as [n at_ ks|x]; cbn in *; [rewrite Hn; reflexivity|destruct i; discriminate]. }
    rewrite S. cbn [app map snd]. f_equal. apply IH. intros j d' Hj. rewrite Nat.add_succ_comm. apply Hd. exact Hj. }
  apply (H 0). auto.
Qed.
(** The children selected, as trees *)
Lemma selected_kids w a u (Q : xtree -> Prop) q l : subtree (doc w) a = Some u -> (forall x, q x = true <-> Q x) ->
  listing (doc w) (fun b x => (exists i, b = a ++ [i]) /\ Q x) l -> map snd l = filter q (kids_of u).
Proof.
  intros E Hq L. set (A := at_addrs (doc w) (map (fun i => a ++ [i]) (seq 0 (length (kids_of u))))).
  assert (K : map (fun i => a ++ [i]) (seq 0 (length (kids_of u))) = kid_addrs w a) by (unfold kid_addrs, node_at; rewrite E; destruct u; reflexivity).
  assert (LA : listing (doc w) (fun b x => (exists i, b = a ++ [i]) /\ Q x) (filter (fun x => q (snd x)) A)).
  { unfold A. rewrite K. apply (listing_filter (doc w) (fun b _ => exists i, b = a ++ [i]) _ _ (fun _ x => Q x)).
    - apply at_addrs_listing; [apply kid_addrs_sorted|apply kid_addrs_in].
    - intros b x _. apply Hq. }
  rewrite (listing_unique _ _ _ _ L LA). rewrite <- (at_kids _ _ _ E). fold A. clear. induction A as [|[b x] A IH]; [reflexivity|].
  cbn [filter map snd]. destruct (q x); cbn [map snd]; rewrite IH; reflexivity.
Qed.

(** Outermost for [('**', p)]: an element [p] in no other [p] *)
Lemma deep_name p l : matches [StDeep; StName p] l <-> exists r, l = r ++ [p].
Proof.
  split.
  - intros M. inversion M as [|st q n names O M'|q ns names M']; subst; [inversion O|]. inversion M' as [|st q n names' O M''|]; subst. inversion M''; subst. cbn in O. subst n. eauto.
  - intros (r & ->). apply ma_deep. apply ma_one; [reflexivity|constructor].
Qed.
Lemma path_names_last t a n at_ ks : subtree t a = Some (XE n at_ ks) -> exists r, path_names t a = r ++ [n].
Proof.
  revert t. induction a as [|i a IH]; intros t E; cbn in E.
  - injection E as ->. exists []. reflexivity.
  - destruct t as [m at' ks'|x]; [|discriminate]. cbn [path_names]. destruct (nth_error ks' i) as [u|]; [|discriminate]. destruct (IH u E) as (r & ->). exists (m :: r). reflexivity.
Qed.
Lemma above_element t a b u : subtree t a = Some u -> above b a -> exists n at_ ks, subtree t b = Some (XE n at_ ks).
Proof.
  intros E (i & r & ->). rewrite subtree_app in E. destruct (subtree t b) as [v|]; [|discriminate]. cbn in E. destruct v as [n at_ ks|x]; [eauto|discriminate].
Qed.
Lemma outermost_named t p a u : subtree t a = Some u ->
  (outermost [StDeep; StName p] t a u <-> (exists at_ ks, u = XE p at_ ks) /\ forall b at_ ks, above b a -> subtree t b <> Some (XE p at_ ks)).
Proof.
  intros E. split.
  - intros ((n & at_ & ks & ->) & M & O). split.
    + apply deep_name in M as (r & M). destruct (path_names_last t a n at_ ks E) as (r' & M'). rewrite M in M'. apply app_inj_tail in M' as (_ & <-). eauto.
    + intros b at' ks' B Eb. apply (O b B), deep_name. exact (path_names_last t b p at' ks' Eb).
  - intros ((at_ & ks & ->) & O). split; [do 3 eexists; reflexivity|]. split; [apply deep_name; exact (path_names_last t a p at_ ks E)|].
    intros b B M. destruct (above_element t a b _ E B) as (n & at' & ks' & Eb). apply deep_name in M as (r & M). destruct (path_names_last t b n at' ks' Eb) as (r' & M').
    rewrite M in M'. apply app_inj_tail in M' as (_ & <-). exact (O b at' ks' B Eb).
Qed.
Lemma listing_named t p l : listing t (outermost [StDeep; StName p] t) l ->
  listing t (fun a u => (exists at_ ks, u = XE p at_ ks) /\ forall b at_ ks, above b a -> subtree t b <> Some (XE p at_ ks)) l.
Proof. intros L. eapply listing_ext; [|exact L]. intros a u E. apply outermost_named, E. Qed.

Lemma report_well srcs : Forall (fun cs => exists ks, report cs ks) srcs -> Forall reads_well srcs.
Proof. intros H. induction H as [|cs srcs (ks & H) _ IH]; constructor; [|exact IH]. do 2 eexists. apply (report_events cs ks H). Qed.

Section Use.
  Variables (v : lexenv) (tf : str -> option flt) (fs : flt -> str) (k : nat) (h : heap) (a : options).
  Lemma one_source c fe cs t o : asks v a c fe -> absent (o_partition a) -> report cs [t] -> is_element t -> allocated h ->
    microx v tf fs k h a [cs] o <-> o = run (world v [] tf fs t) k c fe (o_limit a) (show_attrs a).
  Proof.
    intros A P R T H. rewrite (microx_sources v tf fs k h a c fe (show_attrs a) cs t [] o A (proj2 (shows_attrs a _) eq_refl) P R T H (Forall_nil _)).
    set (r := run _ _ _ _ _ _). split.
    - intros I. inversion I as [|x l ls ls' f E I'|x l ls f E E']; subst; [|symmetry; exact E]. inversion I'; subst. rewrite app_nil_r. symmetry. exact E.
    - intros ->. clearbody r. destruct r as [ls f]. destruct f; [|apply it_stop; [reflexivity|discriminate]..].
      pose proof (it_ok (fun _ : list cb => (ls, Done)) cs [] ls [] Done eq_refl (it_nil _)) as I. rewrite app_nil_r in I. exact I.
  Qed.
  Lemma name_not_nil n : XLexSpec.name n -> n <> [].
  Proof. intros Hn ->. destruct (name_head [] Hn) as (c & r & E & _). discriminate. Qed.

  (** A path of names *)
  Theorem expr_path cs t n ns s : report cs [t] -> is_element t -> allocated h -> XLexSpec.name n -> Forall XLexSpec.name ns ->
    s = slash_names (n :: ns) \/ s = n ++ slash_names ns -> only_expr a s ->
    exists l, listing t (fun b u => is_element u /\ path_names t b = n :: ns) l /\
      forall o, microx v tf fs k h a [cs] o <-> o = (map (fun x => xml_encode (snd x)) l, Done).
  Proof.
    intros R T H Hn Hns Es (E1 & E2 & E3 & E4 & E5). set (w := world v [] tf fs t). destruct (name_path_selects w k n ns) as (l & L & E). exists l. split; [exact L|]. intros o.
    assert (X : exists e, expression v s e /\ eval w k e IRoot = (nodes l, Done)).
    { destruct Es as [-> | ->]; eexists; (split; [(apply absolute_names || apply relative_names); assumption|]); [|exact E].
      rewrite (absolute_relative w k (name_path n ns) IRoot (or_introl eq_refl) (name_path_just n ns)). exact E. }
    destruct X as (e & Xe & Ee). assert (S : s <> []) by (pose proof (name_not_nil n Hn); destruct Es as [-> | ->]; [discriminate|destruct n; [congruence|discriminate]]).
    rewrite (one_source (CmdExpr e) None cs t o (as_expr v a s e None S E1 E2 E3 Xe (or_introl (conj E4 eq_refl))) E5 R T H). fold w.
    unfold run, cmd_expr, print_results, print_foreach. rewrite Ee. cbn [fst snd]. rewrite print_nodes; [reflexivity|]. intros b u Hb. apply (proj2 L) in Hb. exact (proj1 Hb).
  Qed.
  (** //name *)
  Theorem expr_anywhere cs t n : report cs [t] -> is_element t -> (forall b s, subtree t b = Some (XT s) -> s <> []) -> allocated h -> XLexSpec.name n -> only_expr a (lit "//" ++ n) ->
    exists l out, listing t (fun _ u => exists at_ ks, u = XE n at_ ks) l /\ Permutation out l /\
      forall o, microx v tf fs k h a [cs] o <-> o = (map (fun x => xml_encode (snd x)) out, Done).
  Proof.
    intros R T Em H Hn (E1 & E2 & E3 & E4 & E5). set (w := world v [] tf fs t) in *.
    destruct (deep_exactly_once w k (TName n) IRoot Em (or_introl eq_refl)) as (l & out & L & E & Pm); [discriminate|].
    unfold nodes in Pm. apply Permutation_map_inv in Pm as (lo & -> & Pm). exists l, lo. split; [exact L|]. split; [apply Permutation_sym; exact Pm|]. intros o.
    assert (S : lit "//" ++ n <> []) by discriminate.
    rewrite (one_source (CmdExpr (EAbs true (Some (name_step n)))) None cs t o (as_expr v a _ _ None S E1 E2 E3 (anywhere_text v n Hn) (or_introl (conj E4 eq_refl))) E5 R T H). fold w.
    unfold run, cmd_expr, print_results, print_foreach. unfold name_step in E |- *. rewrite E. cbn [fst snd]. change (map (fun x => INode (fst x)) lo) with (nodes lo). rewrite print_nodes; [reflexivity|].
    intros b u Hb. eapply Permutation_in in Hb; [|apply Permutation_sym; exact Pm]. apply (proj2 L) in Hb. exact (proj1 Hb).
  Qed.
  (** A name to match: the children of that name, element by element. *)
  Theorem match_name cs t n : report cs [t] -> is_element t -> allocated h -> XLexSpec.name n -> only_match a n ->
    exists l, listing t (fun _ u => is_element u) l /\ forall q : xtree -> bool, (forall u, q u = true <-> exists at_ ks, u = XE n at_ ks) ->
      forall o, microx v tf fs k h a [cs] o <-> o = (flat_map (fun x => map xml_encode (filter q (kids_of (snd x)))) l, Done).
  Proof.
    intros R T H Hn (E1 & E2 & E3 & E4 & E5). set (w := world v [] tf fs t).
    destruct (match_elements w k (name_step n) None T) as (l & L & _). exists l. split; [exact L|]. intros q Hq o.
    assert (Xe : expression v n (name_step n)) by (pose proof (relative_names v n [] Hn (Forall_nil _)) as X; cbn [slash_names flat_map] in X; rewrite app_nil_r in X; exact X).
    rewrite (one_source (CmdMatch (name_step n)) None cs t o (as_match v a n _ None (name_not_nil n Hn) E1 E2 E3 Xe (or_introl (conj E4 eq_refl))) E5 R T H). fold w. cbn [run].
    set (g := fun b => match subtree t b with Some u => map xml_encode (filter q (kids_of u)) | None => [] end).
    rewrite (match_all_ok w k (name_step n) None l g T L).
    - assert (F : flat_map (fun x => g (fst x)) l = flat_map (fun x => map xml_encode (filter q (kids_of (snd x)))) l).
      { assert (Hl : forall b u, In (b, u) l -> subtree t b = Some u) by (intros b u Hb; apply (proj2 L) in Hb; exact (proj1 Hb)).
        clear - Hl. induction l as [|(b & u) l IH]; [reflexivity|]. cbn [flat_map fst snd]. rewrite IH by (intros; apply Hl; right; assumption).
        unfold g. rewrite (Hl b u) by (left; reflexivity). reflexivity. }
      rewrite F. reflexivity.
    - intros b u Hb. apply (proj2 L) in Hb as (Hs & _). unfold g. change (doc w) with t in Hs. rewrite Hs.
      destruct (child_axis w k (TName n) (INode b)) as (lk & Lk & Ek); [exists u; exact Hs|left; reflexivity|].
      assert (Ev : eval w k (name_step n) (INode b) = (nodes lk, Done)) by (destruct k; exact Ek).
      unfold print_results, print_foreach. rewrite Ev. cbn [fst snd]. rewrite print_nodes by (intros b' u' Hb'; apply (proj2 Lk) in Hb'; exact (proj1 Hb')).
      rewrite <- map_map. f_equal. f_equal. apply (selected_kids w b u (fun x => exists at_ ks, x = XE n at_ ks)); [exact Hs|exact Hq|exact Lk].
  Qed.
  (** A text to find *)
  Theorem find_text cs t s sh : report cs [t] -> is_element t -> allocated h -> s <> [] -> only_find a s -> shows a sh ->
    exists l, listing t (fun _ u => is_element u) l /\ forall q : str -> bool, (forall x, q x = true <-> contains x s) ->
      forall o, microx v tf fs k h a [cs] o <->
        o = (flat_map (fun x => repeat (xpath_to (world v [] tf fs t) sh (fst x)) (length (filter (fun y => match y with XT x => q x | XE _ _ _ => false end) (kids_of (snd x))))) l, Done).
  Proof.
    intros R T H S (E1 & E2 & E3 & E4 & E5) Sh. apply shows_attrs in Sh. subst sh. destruct (find_text_lines (world v [] tf fs t) s (show_attrs a) T) as (l & L & E).
    exists l. split; [exact L|]. intros q Hq o. rewrite (one_source (CmdFind s) None cs t o (as_find v a s None S E1 E2 E3 (or_introl (conj E4 eq_refl))) E5 R T H).
    unfold run. rewrite (E q Hq). reflexivity.
  Qed.
End Use.
