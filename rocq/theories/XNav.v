(** Paths with conditions select what XNavSpec says. *)
From Verif Require Import PyStr XTree Path PatternFacts XPath XPathSpec XPathFacts XPathFuel XPathExpr XPathFun XPathLast XPathMore XNavSpec.
From Coq Require Import Sorted Permutation.

Lemma nodup_fst {A B} (l : list (A * B)) k x y : NoDup (map fst l) -> In (k, x) l -> In (k, y) l -> x = y.
Proof.
  induction l as [|[k' z] l IH]; cbn [map In fst]; [intros _ []|]. intros N Hx Hy. inversion N as [|? ? N1 N2]; subst.
  destruct Hx as [Hx|Hx], Hy as [Hy|Hy]; [congruence| | |auto]; [injection Hx as -> ->|injection Hy as -> ->]; destruct N1; apply in_map_iff; eexists (k, _); eauto.
Qed.
Lemma kind_eq k : k = KNum \/ k <> KNum.
Proof. destruct k; (left; reflexivity) || (right; discriminate). Qed.

Section Nav.
  Variables (w : env) (n : nat).
  Hypothesis W : proper w.
  Notation D := (doc w).
  Let Wd : document w := proj1 W.
  Let We : no_empty_text w := proj1 (proj2 W).
  Let Wa : forall a m ats ks, subtree D a = Some (XE m ats ks) -> NoDup (map fst ats) := proj2 (proj2 W).

  (** The result and its members *)
  Definition yields (P : item -> Prop) (r : list item * fin) : Prop := exists ls, r = (ls, Done) /\ forall d, In d ls <-> P d.
  Lemma yields_ext P Q r : (forall d, P d <-> Q d) -> yields P r -> yields Q r.
  Proof. intros H (ls & E & I). exists ls. split; [exact E|]. intros d. rewrite I. apply H. Qed.
  Lemma nodes_in l d : In d (nodes l) <-> exists b u, d = INode b /\ In (b, u) l.
  Proof.
    unfold nodes. rewrite in_map_iff. split.
    - intros ((b & u) & <- & H). eauto.
    - intros (b & u & -> & H). exists (b, u). auto.
  Qed.
  Lemma selects_yields P r : selects w P r -> yields (fun d => exists b u, d = INode b /\ subtree D b = Some u /\ P b u) r.
  Proof.
    intros (l & (_ & L) & ->). exists (nodes l). split; [reflexivity|]. intros d. rewrite nodes_in. split; intros (b & u & E & H); exists b, u; (split; [exact E|]); apply L; exact H.
  Qed.
  Lemma selects_back_yields P r : selects_back w P r -> yields (fun d => exists b u, d = INode b /\ subtree D b = Some u /\ P b u) r.
  Proof.
    intros (l & (_ & L) & ->). exists (rev (nodes l)). split; [reflexivity|]. intros d. rewrite <- in_rev, nodes_in. split; intros (b & u & E & H); exists b, u; (split; [exact E|]); apply L; exact H.
  Qed.
  Lemma last_index {A} (a : list A) : a = [] \/ exists p i, a = p ++ [i].
  Proof. destruct a as [|i p _] using rev_ind; [left; reflexivity|right; eauto]. Qed.
  Lemma elem_cases c : of_kind w KElem c -> c = IRoot \/ c = INode [] \/ exists p i u, c = INode (p ++ [i]) /\ subtree D (p ++ [i]) = Some u /\ is_element u.
  Proof.
    intros [H|(a & m & ats & ks & -> & E)]; [left; exact H|]. destruct (last_index a) as [->|(p & i & ->)]; [right; left; reflexivity|]. right. right. exists p, i, (XE m ats ks).
    split; [reflexivity|]. split; [exact E|]. do 3 eexists. reflexivity.
  Qed.
  Lemma elem_tree c : of_kind w KElem c -> of_kind w KNode c.
  Proof. intros [->|(a & m & ats & ks & -> & E)]; [exact I|exists (XE m ats ks); exact E]. Qed.

  (** Steps *)
  Lemma self_yields t c : tree_item w c -> yields (goes w AxSelf t c) (eval w n (EStep AxSelf t) c).
  Proof.
    intros Hc. rewrite eval_step. cbn [step]. assert (S : (meets w t c /\ test w t c = ([c], Done)) \/ (~ meets w t c /\ test w t c = ([], Done))).
    { destruct c as [|a| | | | |]; try (destruct Hc).
      - destruct t; cbn; [left|right|left|right]; (split; [|reflexivity]); unfold root_passes; try (intros [X|X]; discriminate); auto.
      - rename x into u. rename H into E. rewrite test_node by congruence. unfold passb_at. rewrite E. destruct (passb t u) eqn:P.
        + left. split; [|reflexivity]. exists u. split; [exact E|]. apply passb_iff. exact P.
        + right. split; [|reflexivity]. intros (u' & E' & P'). rewrite E in E'. injection E' as <-. apply passb_iff in P'. congruence. }
    destruct S as [(M & ->)|(M & ->)]; eexists; (split; [reflexivity|]); intros d.
    - split; [intros [<-|[]]; apply go_self; exact M|]. intros G. inversion G; subst. left; reflexivity.
    - split; [intros []|]. intros G. inversion G; subst. contradiction.
  Qed.
  Lemma child_yields t c : tree_item w c -> yields (goes w AxChild t c) (eval w n (EStep AxChild t) c).
  Proof.
    intros Hc. rewrite eval_step. eapply yields_ext; [|apply selects_yields, child_axis; [exact Hc|right; exact We]]. intros d. split.
    - intros (b & u & -> & E & H & P). eapply go_child; eassumption.
    - intros G. inversion G; subst. do 2 eexists. split; [reflexivity|]. split; [eassumption|]. split; assumption.
  Qed.
  Lemma down_yields t c : tree_item w c -> yields (goes w AxDescendant t c) (eval w n (EStep AxDescendant t) c).
  Proof.
    intros Hc. rewrite eval_step. eapply yields_ext; [|apply selects_yields, descendant_axis; [exact Hc|exact We]]. intros d. split.
    - intros (b & u & -> & E & H & P). apply go_down; [exact H|]. exists u. auto.
    - intros G. inversion G as [| |t' c' b B (u & E & P)| | | | | | | | | |]; subst. exists b, u. auto.
  Qed.
  Lemma down_self_yields t c : tree_item w c -> yields (goes w AxDescendantOrSelf t c) (eval w n (EStep AxDescendantOrSelf t) c).
  Proof.
    intros Hc. rewrite eval_step. destruct c as [|a| | | | |]; try (destruct Hc).
    - destruct (descendant_or_self_root w n t We) as (l & (_ & L) & [(R & ->)|(R & ->)]); eexists; (split; [reflexivity|]); intros d.
      + split.
        * intros [<-|Hd]; [apply go_down_self; exact R|]. apply nodes_in in Hd as (b & u & -> & Hd). apply L in Hd as (E & P). apply go_down_other; [exact I|]. exists u. auto.
        * intros G. inversion G as [| | |t' c' M|t' c' b B (u & E & P)| | | | | | | |]; subst; [left; reflexivity|]. right. apply nodes_in. exists b, u. split; [reflexivity|]. apply L. auto.
      + split.
        * intros Hd. apply nodes_in in Hd as (b & u & -> & Hd). apply L in Hd as (E & P). apply go_down_other; [exact I|]. exists u. auto.
        * intros G. inversion G as [| | |t' c' M|t' c' b B (u & E & P)| | | | | | | |]; subst; [contradiction|]. apply nodes_in. exists b, u. split; [reflexivity|]. apply L. auto.
    - rename x into u. rename H into E. eapply yields_ext; [|apply selects_yields, (descendant_or_self_axis w n t a u We E)]. intros d. split.
      + intros (b & v & -> & Eb & [->|B] & P); [apply go_down_self; exists v; auto|]. apply go_down_other; [exact B|]. exists v. auto.
      + intros G. inversion G as [| | |t' c' M|t' c' b B M| | | | | | | |]; subst; destruct M as (v & Ev & P); [exists a, v|exists b, v]; auto.
  Qed.
  Lemma up_yields t c : tree_item w c \/ of_kind w KAttr c -> yields (goes w AxParent t c) (eval w n (EStep AxParent t) c).
  Proof.
    intros [Hc|(a & m & ats & ks & k & v & o & -> & E & _)].
    - destruct c as [|a| | | | |]; try (destruct Hc).
      + rewrite eval_step. exists [IRoot]. split; [reflexivity|]. intros d. split; [intros [<-|[]]; apply go_up_top; left; reflexivity|].
        intros G. inversion G; subst. left; reflexivity.
      + rename x into u. rename H into E. destruct (last_index a) as [->|(p & i & ->)].
        * rewrite (proj1 (parent_root w n t Wd)). exists [IRoot]. split; [reflexivity|]. intros d. split; [intros [<-|[]]; apply go_up_top; right; reflexivity|].
          intros G. inversion G as [| | | | |t' p i M| | | | | | |]; subst; [destruct p; discriminate|left; reflexivity].
        * rewrite eval_step. eapply yields_ext; [|apply selects_yields, (parent_axis w n t p i u E)]. intros d. split.
          -- intros (b & v & -> & Eb & -> & P). apply go_up. exists v. auto.
          -- intros G. inversion G as [| | | | |t' p' i' (v & Ev & P)| |t' c' [X|X]| | | | |]; subst; [|discriminate|destruct p; discriminate].
             match goal with H : _ ++ [_] = _ ++ [_] |- _ => apply app_inj_tail in H as (-> & _) end. exists p, v. auto.
    - rewrite eval_step. cbn [step parent]. unfold test_all. cbn [map bindl].
      rewrite copy_node by congruence. rewrite test_node by congruence. unfold passb_at. rewrite E. destruct (passb t (XE m ats ks)) eqn:P.
      + exists [INode a]. split; [reflexivity|]. intros d. split.
        * intros [<-|[]]. apply go_up_attr. exists (XE m ats ks). split; [exact E|]. apply passb_iff. exact P.
        * intros G. inversion G as [| | | | | |t' a' k' v' o' M|t' c' [X|X]| | | | |]; subst; [left; reflexivity|discriminate|discriminate].
      + exists []. split; [reflexivity|]. intros d. split; [intros []|]. intros G. inversion G as [| | | | | |t' a' k' v' o' (u & E' & M)|t' c' [X|X]| | | | |]; subst; try discriminate.
        rewrite E in E'. injection E' as <-. apply passb_iff in M. congruence.
  Qed.
  Lemma above_yields t c : of_kind w KElem c -> yields (goes w AxAncestor t c) (eval w n (EStep AxAncestor t) c).
  Proof.
    intros [->|(a & m & ats & ks & -> & E)]; rewrite eval_step.
    - exists [IRoot]. split; [reflexivity|]. intros d. split; [intros [<-|[]]; apply go_above_top|]. intros G. inversion G; subst. left; reflexivity.
    - destruct (ancestor_axis w n t a (XE m ats ks) E) as (l & (_ & L) & ->); [do 3 eexists; reflexivity|]. eexists. split; [reflexivity|]. intros d. rewrite in_app_iff, <- in_rev, nodes_in. split.
      + intros [(b & u & -> & H)|[<-|[]]]; [|apply go_above_top]. apply L in H as (Eb & B & P). apply go_above; [exact B|]. exists u. auto.
      + intros G. inversion G as [| | | | | | | |t' a' b B (u & Eb & P)| | | |]; subst; [|right; left; reflexivity]. left. exists b, u. split; [reflexivity|]. apply L. auto.
  Qed.
  Lemma no_parent_none c : c = IRoot \/ c = INode [] -> forall t, eval w n (EStep AxFollowingSibling t) c = ([], Done) /\ eval w n (EStep AxPrecedingSibling t) c = ([], Done).
  Proof. intros [-> | ->] t; rewrite !eval_step; split; reflexivity. Qed.
  Lemma after_yields t c : of_kind w KElem c -> yields (goes w AxFollowingSibling t c) (eval w n (EStep AxFollowingSibling t) c).
  Proof.
    intros Hc. apply elem_cases in Hc as [->|[->|(p & i & u & -> & E & U)]].
    1,2: match goal with |- yields (goes _ _ _ ?c) _ => rewrite (proj1 (no_parent_none c ltac:(auto) t)) end; exists []; (split; [reflexivity|]); intros d; (split; [intros []|]); intros G; inversion G as [| | | | | | | | | |t' p i b B M| |]; subst; destruct p; discriminate.
    rewrite eval_step. eapply yields_ext; [|apply selects_yields, (following_sibling_axis w n t p i u We E U)]. intros d. split.
    - intros (b & v & -> & Eb & B & P). apply go_after; [exact B|]. exists v. auto.
    - intros G. inversion G as [| | | | | | | | | |t' p' i' b B (v & Ev & P)| |]; subst. match goal with H : _ ++ [_] = _ ++ [_] |- _ => apply app_inj_tail in H as (-> & ->) end. exists b, v. auto.
  Qed.
  Lemma before_yields t c : of_kind w KElem c -> yields (goes w AxPrecedingSibling t c) (eval w n (EStep AxPrecedingSibling t) c).
  Proof.
    intros Hc. apply elem_cases in Hc as [->|[->|(p & i & u & -> & E & U)]].
    1,2: match goal with |- yields (goes _ _ _ ?c) _ => rewrite (proj2 (no_parent_none c ltac:(auto) t)) end; exists []; (split; [reflexivity|]); intros d; (split; [intros []|]); intros G; inversion G as [| | | | | | | | | | |t' p i b B M|]; subst; destruct p; discriminate.
    rewrite eval_step. eapply yields_ext; [|apply selects_back_yields, (preceding_sibling_axis w n t p i u We E U)]. intros d. split.
    - intros (b & v & -> & Eb & B & P). apply go_before; [exact B|]. exists v. auto.
    - intros G. inversion G as [| | | | | | | | | | |t' p' i' b B (v & Ev & P)|]; subst. match goal with H : _ ++ [_] = _ ++ [_] |- _ => apply app_inj_tail in H as (-> & ->) end. exists b, v. auto.
  Qed.
  Lemma attr_yields t c : tree_item w c -> t = TStar \/ (exists k, k <> lit "*" /\ t = TName k) -> yields (goes w AxAttribute t c) (eval w n (EStep AxAttribute t) c).
  Proof.
    intros Hc Ht. assert (X : element_item w c \/ ~ element_item w c).
    { destruct c as [|a| | | | |]; try (destruct Hc).
      - right. intros (a & m & ats & ks & H & _). discriminate.
      - destruct x as [m ats ks|s]; [left; exists a, m, ats, ks; auto|]. right. intros (a' & m & ats & ks & H' & E). injection H' as <-. congruence. }
    destruct X as [(a & m & ats & ks & -> & E)|X].
    - destruct (attribute_axis w n a m ats ks E (Wa a m ats ks E)) as (A1 & A2 & A3). destruct Ht as [->|(k & Hk & ->)].
      + rewrite A1. eexists. split; [reflexivity|]. intros d. rewrite in_map_iff. split.
        * intros ((k & v) & <- & H). eapply go_attr; [exact E|exact H|left; reflexivity].
        * intros G. inversion G as [| | | | | | | | | | | |t' a' m' ats' ks' k v E' H T]; subst. rewrite E in E'. injection E' as <- <- <-. exists (k, v). auto.
      + destruct (in_dec (list_eq_dec N.eq_dec) k (map fst ats)) as [Hi|Hi].
        * apply in_map_iff in Hi as ((k' & v) & <- & Hi). cbn [fst] in *. rewrite (A2 k' v Hk Hi). eexists. split; [reflexivity|]. intros d. split.
          -- intros [<-|[]]. eapply go_attr; [exact E|exact Hi|right; reflexivity].
          -- intros G. inversion G as [| | | | | | | | | | | |t' a' m' ats' ks' k v' E' H T]; subst. rewrite E in E'. injection E' as <- <- <-. destruct T as [T|T]; [discriminate|]. injection T as ->.
             left. f_equal. pose proof (Wa _ _ _ _ E) as N. clear - N Hi H. induction ats as [|(x & y) ats IH]; [destruct Hi|]. cbn in N. inversion N as [|? ? N1 N2]; subst.
             destruct Hi as [Hi|Hi], H as [H|H]; [congruence| | |auto].
             ++ injection Hi as -> ->. destruct N1. apply in_map_iff. exists (k, v'). auto.
             ++ injection H as -> ->. destruct N1. apply in_map_iff. exists (k, v). auto.
        * rewrite (A3 k Hk Hi). eexists. split; [reflexivity|]. intros d. split; [intros []|]. intros G. inversion G as [| | | | | | | | | | | |t' a' m' ats' ks' k' v' E' H T]; subst.
          rewrite E in E'. injection E' as <- <- <-. destruct T as [T|T]; [discriminate|]. injection T as ->. destruct Hi. apply in_map_iff. exists (k', v'). auto.
    - rewrite (attribute_nothing w n t c X). eexists. split; [reflexivity|]. intros d. split; [intros []|]. intros G. inversion G as [| | | | | | | | | | | |t' a' m' ats' ks' k' v' E' H T]; subst.
      destruct X. exists a', m', ats', ks'. auto.
  Qed.
  (** Kinds *)
  Lemma meets_tested t b : meets w t (INode b) -> of_kind w (tested t) (INode b).
  Proof.
    intros (u & E & P). destruct t as [|m| |]; cbn [tested of_kind tree_item]; try (exists u; exact E). destruct P as (ats & ks & ->). right. exists b, m, ats, ks. auto.
  Qed.
  Lemma above_elem t a b u : subtree D a = Some u -> above b a -> meets w t (INode b) -> of_kind w KElem (INode b).
  Proof.
    intros E (i & r & ->) _. rewrite subtree_app in E. destruct (subtree D b) as [v|] eqn:Eb; [|discriminate]. cbn in E. destruct v as [m ats ks|x]; [|discriminate]. right. exists b, m, ats, ks. auto.
  Qed.
  Lemma up_elem p i u : subtree D (p ++ [i]) = Some u -> of_kind w KElem (INode p).
  Proof.
    intros E. rewrite subtree_app in E. destruct (subtree D p) as [v|] eqn:Eb; [|discriminate]. cbn in E. destruct v as [m ats ks|x]; [|discriminate]. right. exists p, m, ats, ks. auto.
  Qed.
  Lemma step_yields k ax t k' c : step_kind k ax t = Some k' -> of_kind w k c -> yields (goes w ax t c) (eval w n (EStep ax t) c).
  Proof.
    intros S K. assert (T : k = KElem \/ k = KNode -> tree_item w c) by (intros [-> | ->]; [apply elem_tree; exact K|exact K]).
    destruct k, ax; try discriminate S.
    all: try (apply self_yields; auto; fail). all: try (apply child_yields; auto; fail). all: try (apply down_yields; auto; fail). all: try (apply down_self_yields; auto; fail).
    all: try (apply up_yields; auto; fail). all: try (apply above_yields; auto; fail). all: try (apply after_yields; auto; fail). all: try (apply before_yields; auto; fail).
    all: apply attr_yields; auto; destruct t as [|m| |]; cbn [step_kind tested] in S; try discriminate S; [left; reflexivity|right; exists m; split; [|reflexivity]]; intros ->; discriminate S.
  Qed.
  Lemma step_to k ax t k' c d : step_kind k ax t = Some k' -> of_kind w k c -> goes w ax t c d -> of_kind w k' d.
  Proof.
    intros S K G. destruct G as [t c M|t c b u E C P|t c b B M|t c M|t c b B M|t p i M|t a j v M|t c C|t a b B M|t c|t p i b B M|t p i b B M|t a m ats ks j v E H T].
    - destruct c as [|a| | | | |]; try (destruct M; fail).
      + destruct k, t; cbn [step_kind tested] in S; try discriminate S; injection S as <-; try (left; reflexivity); try exact I; destruct M; discriminate.
      + destruct k; cbn [step_kind tested] in S; try discriminate S; [|injection S as <-; apply meets_tested; exact M]. destruct t; injection S as <-; try exact K. apply elem_tree. exact K.
    - assert (M : meets w t (INode b)) by (exists u; split; [exact E|]; destruct t; auto; exact I).
      destruct k; cbn [step_kind tested] in S; try discriminate S; injection S as <-; destruct t as [|m| |]; try (apply meets_tested; exact M); destruct P as (m & ats & ks & ->); right; exists b, m, ats, ks; auto.
    - destruct k; cbn [step_kind tested] in S; try discriminate S; injection S as <-; apply meets_tested; exact M.
    - destruct c as [|a| | | | |]; try (destruct M; fail).
      + destruct k, t; cbn [step_kind tested] in S; try discriminate S; injection S as <-; try (left; reflexivity); try exact I; destruct M; discriminate.
      + destruct k; cbn [step_kind tested] in S; try discriminate S; injection S as <-; apply meets_tested; exact M.
    - destruct k; cbn [step_kind tested] in S; try discriminate S; injection S as <-; apply meets_tested; exact M.
    - destruct k; cbn [step_kind tested] in S; try discriminate S; injection S as <-.
      + destruct K as [K|(a & m & ats & ks & K & E)]; [discriminate|]. injection K as <-. eapply up_elem; exact E.
      + destruct K as (u & E). eapply up_elem; exact E.
      + destruct K as (a & m & ats & ks & x & y & z & K & _). discriminate.
    - destruct k; cbn [step_kind tested] in S; try discriminate S; injection S as <-.
      + destruct K as [K|(a' & m & ats & ks & K & E)]; discriminate.
      + destruct K.
      + destruct K as (a' & m & ats & ks & x & y & z & K & E & _). injection K as <- <- <- <-. right. exists a, m, ats, ks. auto.
    - destruct k; cbn [step_kind tested] in S; try discriminate S; injection S as <-; left; reflexivity.
    - destruct k; cbn [step_kind tested] in S; try discriminate S; injection S as <-. destruct K as [K|(a' & m & ats & ks & K & E)]; [discriminate|]. injection K as <-. eapply above_elem; eassumption.
    - destruct k; cbn [step_kind tested] in S; try discriminate S; injection S as <-. left; reflexivity.
    - destruct k; cbn [step_kind tested] in S; try discriminate S; injection S as <-; apply meets_tested; exact M.
    - destruct k; cbn [step_kind tested] in S; try discriminate S; injection S as <-; apply meets_tested; exact M.
    - assert (k' = KAttr) as -> by (destruct k; cbn [step_kind tested] in S; try discriminate S; destruct t as [|z| |]; try discriminate S; try (destruct (str_eqb z (lit "*")); try discriminate S); injection S as <-; reflexivity).
      exists a, m, ats, ks, j, v, Made. auto.
  Qed.
  (** Expressions *)
  Definition result (k : kind) (P : item -> Prop) (r : list item * fin) : Prop :=
    exists ls, r = (ls, Done) /\ (forall d, In d ls <-> P d) /\ (forall d, In d ls -> of_kind w k d) /\ (is_value k = true -> exists i, ls = [i]).
  Lemma not_falsy k i : is_value k = false -> of_kind w k i -> ~ falsy w i.
  Proof.
    intros N K F. unfold falsy in F. destruct k; try discriminate N.
    - apply elem_tree in K. destruct i as [|a| | | | |]; try (destruct K; fail); destruct F as [F|[F|[(e & F)|[F|(b & F & E)]]]]; try discriminate. exact (We b [] E eq_refl).
    - destruct i as [|a| | | | |]; try (destruct K; fail); destruct F as [F|[F|[(e & F)|[F|(b & F & E)]]]]; try discriminate. exact (We b [] E eq_refl).
    - destruct K as (a & m & ats & ks & x & y & z & -> & _). destruct F as [F|[F|[(e & F)|[F|(b & F & E)]]]]; discriminate.
  Qed.
  Lemma node_items k i : is_value k = false -> of_kind w k i -> is_node_item i.
  Proof.
    intros N K. destruct k; try discriminate N.
    - destruct K as [->|(a & m & ats & ks & -> & E)]; exact I.
    - destruct i as [|a| | | | |]; try (destruct K; fail); exact I.
    - destruct K as (a & m & ats & ks & x & y & z & -> & _). exact I.
  Qed.
  Lemma not_number k i : of_kind w k i -> (k <> KNum -> ~ is_number i) /\ usable i.
  Proof.
    intros K. destruct (is_value k) eqn:V.
    - destruct k; try discriminate V; destruct K as (x & ->); (split; [|split; intros; discriminate]); [intros _ X; exact X|intros _ X; exact X|congruence].
    - apply (node_items k i V) in K. destruct i; try (destruct K; fail); (split; [intros _ X; exact X|split; intros; discriminate]).
  Qed.
  Lemma kind_stands k i : of_kind w k i -> (~ falsy w i <-> stands i).
  Proof.
    intros K. destruct (is_value k) eqn:V.
    - unfold falsy, stands. destruct k; try discriminate V; destruct K as (x & ->).
      + split; [intros F; split; [intros H; apply F; left; exact H|split; discriminate]|]. intros (H & _) [F|[F|[(e & F)|[F|(b & F & E)]]]]; try discriminate. exact (H F).
      + split; [intros F; split; [discriminate|split; [intros H; apply F; right; right; right; left; exact H|discriminate]]|]. intros (_ & H & _) [F|[F|[(e & F)|[F|(b & F & E)]]]]; try discriminate. exact (H F).
      + split; [intros F; split; [discriminate|split; [discriminate|intros H; apply F; right; left; exact H]]|]. intros (_ & _ & H) [F|[F|[(e & F)|[F|(b & F & E)]]]]; try discriminate. exact (H F).
    - split; [intros _|intros _; exact (not_falsy k i V K)]. apply (node_items k i V) in K. destruct i; try (destruct K; fail); (split; [|split]); discriminate.
  Qed.
  Lemma truth_value k P r : result k P r -> exists v, first_value r v /\ usable v /\ (k <> KNum -> ~ is_number v) /\ (~ falsy w v <-> exists j, P j /\ stands j).
  Proof.
    intros (ls & -> & I & K & B). destruct ls as [|i ls].
    - exists (IBool false). split; [right; auto|]. split; [split; intros; discriminate|]. split; [intros _ X; exact X|]. split.
      + intros F. destruct F. left. reflexivity.
      + intros (j & H & _). apply I in H. destruct H.
    - exists i. assert (Ki : of_kind w k i) by (apply K; left; reflexivity). destruct (not_number k i Ki) as (N & U). split; [left; eauto|]. split; [exact U|]. split; [exact N|]. rewrite (kind_stands k i Ki). split.
      + intros F. exists i. split; [apply I; left; reflexivity|exact F].
      + intros (j & H & J). destruct (is_value k) eqn:V.
        * destruct (B eq_refl) as (b & E). injection E as -> ->. apply I in H as [<-|[]]. exact J.
        * apply (kind_stands k i Ki). apply (not_falsy k); assumption.
  Qed.
  (** A number, or nothing that is one *)
  Lemma number_or k P r : result k P r -> (k = KNum /\ exists z, r = ([IInt z], Done) /\ forall d, P d <-> d = IInt z) \/ (k <> KNum /\ forall z, ~ P (IInt z)).
  Proof.
    intros (ls & -> & I & K & B). destruct (kind_eq k) as [->|N].
    - left. split; [reflexivity|]. destruct (B eq_refl) as (i & ->). destruct (K i (or_introl eq_refl)) as (z & ->). exists z. split; [reflexivity|]. intros d. rewrite <- I. cbn. split; [intros [<-|[]]; reflexivity|intros ->; auto].
    - right. split; [exact N|]. intros z H. apply I, K in H. apply (proj1 (not_number k _ H) N). exact Logic.I.
  Qed.
  Lemma value_result k P r v : of_kind w k v -> r = ([v], Done) -> (forall d, P d <-> d = v) -> result k P r.
  Proof.
    intros K -> H. exists [v]. split; [reflexivity|]. split; [intros d; rewrite H; cbn; split; [intros [<-|[]]; reflexivity|intros ->; auto]|]. split; [intros d [<-|[]]; exact K|eauto].
  Qed.
  Lemma first_fun r v v' : first_value r v -> first_value r v' -> v = v'.
  Proof. intros [(l & f & ->)|(-> & ->)] [(l' & f' & E)|(E & ->)]; try discriminate; [injection E as <- <- <-; reflexivity|reflexivity]. Qed.
  Lemma all_yield (Q : item -> item -> Prop) f items : (forall i, In i items -> yields (Q i) (f i)) ->
    exists outs, Forall2 (fun i o => f i = (o, Done)) items outs /\ forall d, In d (concat outs) <-> exists i, In i items /\ Q i d.
  Proof.
    induction items as [|i items IH]; intros H.
    - exists []. split; [constructor|]. intros d. split; [intros []|intros (i & [] & _)].
    - destruct IH as (outs & F & I); [intros j Hj; apply H; right; exact Hj|]. destruct (H i (or_introl eq_refl)) as (o & E & J). exists (o :: outs). split; [constructor; assumption|].
      intros d. cbn [concat]. rewrite in_app_iff, I, J. split.
      + intros [X|(j & Hj & X)]; [exists i|exists j]; (split; [|exact X]); [left; reflexivity|right; exact Hj].
      + intros (j & [<-|Hj] & X); [left; exact X|right; exists j; auto].
  Qed.
  Lemma path_yields l r c k1 (P : item -> Prop) (Q : item -> item -> Prop) : is_value k1 = false -> result k1 P (eval w n l c) ->
    (forall i, of_kind w k1 i -> yields (Q i) (eval w n r i)) -> yields (fun d => exists i, P i /\ Q i d) (eval w n (EBin l OpPath r) c).
  Proof.
    intros N (ls & E & I & K & _) H. destruct (all_yield Q (eval w n r) ls) as (outs & F & J); [intros i Hi; apply H, K, Hi|]. exists (concat outs). split.
    - apply (path_eq w n l r c ls outs E). assert (M : forall i, In i ls -> ~ falsy w i) by (intros i Hi; apply (not_falsy k1); auto). clear - F M.
      induction F as [|i o ls outs E F IH]; constructor; [exists i; split; [left; split; [apply M; left; reflexivity|reflexivity]|exact E]|]. apply IH. intros j Hj. apply M. right. exact Hj.
    - intros d. rewrite J. split; intros (i & Hi & X); exists i; (split; [apply I; exact Hi|exact X]).
  Qed.
  Lemma kept_in (P : nat -> item -> Prop) (Q : item -> Prop) pos l l' : (forall p i, In i l -> (P p i <-> Q i)) -> kept P pos l l' -> forall d, In d l' <-> In d l /\ Q d.
  Proof.
    intros H K. induction K as [pos|pos i l l' Hp K IH|pos i l l' Hp K IH]; intros d.
    - split; [intros []|intros ([] & _)].
    - cbn [In]. rewrite IH by (intros p j Hj; apply H; right; exact Hj). split.
      + intros [<-|(X & Y)]; [split; [left; reflexivity|]; apply (H pos); [left; reflexivity|exact Hp]|split; [right; exact X|exact Y]].
      + intros ([<-|X] & Y); [left; reflexivity|right; auto].
    - cbn [In]. rewrite IH by (intros p j Hj; apply H; right; exact Hj). split.
      + intros (X & Y). auto.
      + intros ([<-|X] & Y); [|auto]. destruct Hp. apply (H pos); [left; reflexivity|exact Y].
  Qed.
  Lemma up_result k c : is_value k = false -> of_kind w k c -> result KElem (goes_up c) (eval w n (EAbbrev true) c).
  Proof.
    intros N K. assert (X : c = IRoot \/ c = INode [] \/ (exists p i u, c = INode (p ++ [i]) /\ subtree D (p ++ [i]) = Some u) \/ exists a j v o, c = IAttr a j v o /\ element_item w (INode a)).
    { destruct k; try discriminate N.
      - destruct (elem_cases c K) as [->|[->|(p & i & u & -> & E & _)]]; auto. right. right. left. eauto.
      - destruct c as [|a| | | | |]; try (destruct K; fail); auto. destruct (last_index a) as [->|(p & i & ->)]; auto. right. right. left. destruct K as (u & E). eauto.
      - destruct K as (a & m & ats & ks & j & v & o & -> & E & _). right. right. right. exists a, j, v, o. split; [reflexivity|]. exists a, m, ats, ks. auto. }
    destruct X as [->|[->|[(p & i & u & -> & E)|(a & j & v & o & -> & E)]]].
    - exists [IRoot]. split; [rewrite eval_abbrev; reflexivity|]. split; [intros d; cbn; intuition|]. split; [intros d [<-|[]]; left; reflexivity|discriminate].
    - exists [IRoot]. split; [apply (parent_root w n TNode Wd)|]. split; [|split; [intros d [<-|[]]; left; reflexivity|discriminate]].
      intros d. cbn. split; [intros [<-|[]]; auto|intros [(_ & ->)|(p & i & H & _)]; [auto|destruct p; discriminate]].
    - exists [INode p]. split; [apply abbrev_up|]. split; [|split; [intros d [<-|[]]; exact (up_elem p i u E)|discriminate]].
      intros d. cbn. split; [intros [<-|[]]; right; eauto|]. intros [(H & _)|(q & j & H & ->)]; [destruct p; discriminate|]. apply app_inj_tail in H as (-> & _). auto.
    - exists [INode a]. split; [rewrite eval_abbrev; reflexivity|]. split; [intros d; cbn; intuition|]. split; [intros d [<-|[]]; right; exact E|discriminate].
  Qed.
  Lemma no_value_some o k : no_value o = Some k -> o = Some k /\ is_value k = false.
  Proof. destruct o as [[]|]; cbn; intros H; try discriminate; injection H as <-; (split; reflexivity). Qed.
  Lemma falsy_bool b : falsy w (IBool b) <-> b = false.
  Proof.
    split; [|intros ->; left; reflexivity]. intros F. destruct F as [F|[F|[(e & F)|[F|(a & F & E)]]]]; try discriminate. injection F as ->. reflexivity.
  Qed.
  Lemma one_bool P r b ls : r = (ls, Done) -> (forall d, In d ls <-> P d) -> ls = [IBool b] -> forall x, P (IBool x) <-> x = b.
  Proof. intros _ I -> x. rewrite <- I. cbn. split; [intros [H|[]]; congruence|intros ->; auto]. Qed.

  (** ** Sizes of expressions *)
  Fixpoint size (e : expr) : nat :=
    match e with
    | ENeg e | EAbs _ (Some e) => S (size e)
    | EBin l _ r => S (size l + size r)
    | EPred e ps => S (size e + list_sum (map size ps))
    | ECall _ l | ESeq l => S (list_sum (map size l))
    | _ => 1
    end.
  Lemma size_in p ps : In p ps -> size p <= list_sum (map size ps).
  Proof. induction ps as [|q ps IH]; [intros []|]. intros [<-|H]; cbn [map list_sum fold_right]; [unfold list_sum; lia|]. apply IH in H. unfold list_sum in *. lia. Qed.

  (** ** Conditions *)
  Lemma verdict_result P r : (exists b, r = ([IBool b], Done) /\ (b = true <-> P)) -> result KBool (verdict P) r.
  Proof.
    intros (b & E & Hb). exists [IBool b]. split; [exact E|]. split; [|split; [intros d [<-|[]]; exists b; reflexivity|eauto]].
    intros d. unfold verdict. split.
    - intros [<-|[]]. destruct b; [left; split; [reflexivity|apply Hb; reflexivity]|right; split; [reflexivity|]]. intros X. apply Hb in X. discriminate.
    - intros [(-> & X)|(-> & X)]; left; f_equal; [apply Hb; exact X|]. destruct b; [destruct X; apply Hb; reflexivity|reflexivity].
  Qed.
  Lemma result_ext k P Q r : (forall d, P d <-> Q d) -> result k P r -> result k Q r.
  Proof. intros H (ls & E & I & R). exists ls. split; [exact E|]. split; [|exact R]. intros d. rewrite I. apply H. Qed.
  Lemma boolean_result k P e c : result k P (eval w n e c) ->
    exists b, eval w n (ECall (lit "boolean") [e]) c = ([IBool b], Done) /\ (b = true <-> exists j, P j /\ stands j).
  Proof.
    intros R. destruct (truth_value k P _ R) as (v & F & _ & _ & T).
    assert (X : exists b, eval w n (ECall (lit "boolean") [e]) c = ([IBool b], Done) /\ (b = false <-> falsy w v)).
    { destruct (boolean_spec w n e c) as (B0 & B1). destruct F as [(l & f & F)|(F & ->)]; [exact (B1 v l f F)|]. exists false. split; [exact (B0 F)|]. split; [intros _; left; reflexivity|reflexivity]. }
    destruct X as (b & Eb & Hb). exists b. split; [exact Eb|]. rewrite <- T, <- Hb. destruct b; split; congruence.
  Qed.
  Lemma not_result k P e c : result k P (eval w n e c) -> result KBool (verdict (~ exists j, P j /\ stands j)) (eval w n (ECall (lit "not") [e]) c).
  Proof.
    intros R. destruct (boolean_result k P e c R) as (b & Eb & Hb). apply not_spec in Eb. apply verdict_result. exists (negb b). split; [exact Eb|]. rewrite <- Hb. destruct b; cbn [negb]; split; congruence.
  Qed.
  Lemma attrs_once a m ats ks pre k v mid k' v' post pre2 mid2 post2 : subtree D a = Some (XE m ats ks) -> ats = pre ++ (k, v) :: mid ++ (k', v') :: post ->
    ats = pre2 ++ (k', v') :: mid2 ++ (k, v) :: post2 -> False.
  Proof.
    intros E E1 E2. apply Wa in E. rewrite E1 in E. rewrite E1 in E2. clear E1. revert pre2 E E2. induction pre as [|x pre IH]; intros [|y pre2] E E2; cbn [app map] in E, E2.
    - injection E2 as -> -> _. inversion E as [|? ? X _]; subst. apply X. rewrite map_app, in_app_iff. right. left. reflexivity.
    - injection E2 as <- E2. inversion E as [|? ? X _]; subst. apply X. change k with (fst (k, v)). apply in_map. rewrite E2. rewrite in_app_iff. right. right. rewrite in_app_iff. right. left. reflexivity.
    - injection E2 as -> E2. inversion E as [|? ? X _]; subst. apply X. change k' with (fst (k', v')). apply in_map. rewrite in_app_iff. right. right. rewrite in_app_iff. right. left. reflexivity.
    - injection E2 as _ E2. inversion E as [|? ? _ N]; subst. exact (IH pre2 N E2).
  Qed.
  Lemma precedes_asym i j : precedes w i j -> precedes w j i -> False.
  Proof.
    assert (A : forall a b, doc_before a b -> doc_before b a -> False) by (intros a b X Y; exact (doc_before_irrefl a (doc_before_trans a b a X Y))).
    intros H K. destruct H as [b|a b B|a b k v k' v' o o' B|a m ats ks pre k v mid k' v' post o o' E Eq].
    - inversion K.
    - inversion K; subst. eauto.
    - inversion K as [| |? ? ? ? ? ? ? ? B'|? ? ? ? ? ? ? ? ? ? ? ? ? E' Eq']; subst; [eauto|exact (doc_before_irrefl _ B)].
    - inversion K as [| |? ? ? ? ? ? ? ? B'|? ? ats' ? ? ? ? ? ? ? ? ? ? E' Eq']; subst; [exact (doc_before_irrefl _ B')|]. rewrite E in E'. injection E' as _ Ea _. eapply attrs_once; [exact E|reflexivity|exact Ea].
  Qed.
  Lemma direction_asym e i j : direction w e i j -> direction w e j i -> False.
  Proof. unfold direction. destruct (backward e); intros H K; [exact (precedes_asym j i H K)|exact (precedes_asym i j H K)]. Qed.
  Lemma sorted_unique e : forall l l', StronglySorted (direction w e) l -> StronglySorted (direction w e) l' -> (forall i, In i l <-> In i l') -> l = l'.
  Proof.
    induction l as [|x l IH]; intros [|y l'] S S' H; [reflexivity|destruct (proj2 (H y)); left; reflexivity|destruct (proj1 (H x)); left; reflexivity|].
    apply StronglySorted_inv in S as (S & F). apply StronglySorted_inv in S' as (S' & F'). rewrite Forall_forall in F, F'.
    assert (x = y) as ->.
    { destruct (proj1 (H x) (or_introl eq_refl)) as [<-|Hx]; [reflexivity|]. destruct (proj2 (H y) (or_introl eq_refl)) as [->|Hy]; [reflexivity|].
      destruct (direction_asym e x y); auto. }
    f_equal. apply IH; [exact S|exact S'|]. intros i. split; intros Hi.
    - destruct (proj1 (H i) (or_intror Hi)) as [<-|X]; [|exact X]. destruct (direction_asym e y y); auto.
    - destruct (proj2 (H i) (or_intror Hi)) as [<-|X]; [|exact X]. destruct (direction_asym e y y); auto.
  Qed.
  Lemma first_sorted e (P : item -> Prop) i ls : StronglySorted (direction w e) (i :: ls) -> (forall d, In d (i :: ls) <-> P d) -> forall j, first_of (direction w e) P j <-> j = i.
  Proof.
    intros S I j. apply StronglySorted_inv in S as (_ & F). rewrite Forall_forall in F. split.
    - intros (Pj & H). apply I in Pj as [Pj|Pj]; [now symmetry|]. destruct (H i (proj1 (I i) (or_introl eq_refl))) as [X|X]; [now symmetry|]. destruct (direction_asym e i j); auto.
    - intros ->. split; [apply I; left; reflexivity|]. intros x Hx. apply I in Hx as [<-|Hx]; auto.
  Qed.
  Lemma string_one i k : of_kind w k i -> exists s, forall s', string_value w i s' <-> s' = s.
  Proof.
    intros K. assert (X : of_document w i).
    { destruct k; cbn [of_kind] in K; [destruct K as [->|(a & m & ats & ks & -> & E)]; [exact I|exists (XE m ats ks); exact E]|destruct i as [|a| | | | |]; try (destruct K; fail); [exact I|exact K]| | | |].
      - destruct K as (a & m & ats & ks & q & v & o & -> & E & H). cbn. eauto.
      - destruct K as (b & ->). exact I.
      - destruct K as (b & ->). exact I.
      - destruct K as (b & ->). exact I. }
    destruct (string_value_total w i X) as (s & S). exists s. intros s'. split; [intros S'; exact (string_value_fun w i s' s S' S)|intros ->; exact S].
  Qed.
  Lemma same_int x z : same_number (FFin x 0) (FFin z 0) <-> x = z.
  Proof.
    split; [|intros ->; apply (sn_fin _ _ _ _ 0); lia]. intros H. inversion H as [|m e m' e' k A B C]; subst. rewrite Z.add_0_l in *. apply Z.mul_reg_r in C; [exact C|]. apply Z.pow_nonzero; lia.
  Qed.
  Lemma before_int x z : num_before (FFin x 0) (FFin z 0) <-> (x < z)%Z.
  Proof.
    split; [|intros H; apply (nb_fin _ _ _ _ 0); [lia|lia|]; cbn; lia]. intros H. inversion H as [| | |m e m' e' k A B C]; subst. rewrite Z.add_0_l in *. apply Z.mul_lt_mono_pos_r in C; [exact C|]. apply Z.pow_pos_nonneg; lia.
  Qed.
  Lemma same_str_iff s t : same_value (IStr s) (IStr t) <-> s = t.
  Proof. split; [intros H; inversion H as [|i j x y X]; [reflexivity|discriminate X]|intros ->; constructor]. Qed.
  Lemma same_int_iff x z : same_value (IInt x) (IInt z) <-> x = z.
  Proof.
    rewrite <- same_int. split; [intros H; inversion H as [|i j p q X Y Z]; subst; injection X as <-; injection Y as <-; exact Z|]. intros H. exact (same_num (IInt x) (IInt z) _ _ eq_refl eq_refl H).
  Qed.
  Lemma same_bool_iff x z : same_value (IBool x) (IBool z) <-> x = z.
  Proof.
    split; [|intros ->; destruct z; eapply same_num; [reflexivity|reflexivity|apply same_int; reflexivity|reflexivity|reflexivity|apply same_int; reflexivity]].
    intros H. inversion H as [|i j p q X Y Z]; subst. destruct x, z; try reflexivity; injection X as <-; injection Y as <-; apply same_int in Z; discriminate.
  Qed.
  Lemma compare_items op k1 k2 i j l r c ls : comparable op k1 k2 = true -> of_kind w k1 i -> of_kind w k2 j -> eval w n l c = (i :: ls, Done) -> eval w n r c = ([j], Done) ->
    exists b, eval w n (EBin l op r) c = ([IBool b], Done) /\ (b = true <-> related w op i j).
  Proof.
    intros C Ki Kj El Er. destruct (string_one i k1 Ki) as (v & V).
    assert (Q : (op = OpEq /\ exists x, compared w i x /\ ~ is_node_item j /\ (same_value x j <-> equal w i j)) \/
                (~ is_node_item i /\ ~ is_node_item j /\ ((exists x y, i = IInt x /\ j = IInt y) \/ (exists s t, i = IStr s /\ j = IStr t) \/ (op = OpNe /\ exists x y, i = IBool x /\ j = IBool y)))).
    { destruct (is_value k1) eqn:V1.
      - assert (X : (exists x y, i = IInt x /\ j = IInt y) \/ (exists s t, i = IStr s /\ j = IStr t) \/ ((op = OpEq \/ op = OpNe) /\ exists x y, i = IBool x /\ j = IBool y)).
        { destruct k1; try discriminate V1; destruct Ki as (x & ->); destruct k2; try (destruct op; discriminate C); destruct Kj as (y & ->); [right; right|right; left; eauto|left; eauto]. split; [destruct op; try discriminate C; auto|eauto]. }
        destruct X as [(x & y & -> & ->)|[(x & y & -> & ->)|([-> | ->] & x & y & -> & ->)]].
        + right. repeat (split; [intros []|]). left. eauto.
        + right. repeat (split; [intros []|]). right. left. eauto.
        + left. split; [reflexivity|]. exists (IBool x). split; [reflexivity|]. split; [intros []|]. rewrite same_bool_iff. cbn [equal]. split; congruence.
        + right. repeat (split; [intros []|]). right. right. eauto.
      - left. assert (op = OpEq /\ k2 = KStr) as (-> & ->) by (destruct k1; try discriminate V1; destruct op, k2; try discriminate C; auto). split; [reflexivity|]. destruct Kj as (t & ->).
        exists (IStr v). split; [|split; [intros []|]].
        + pose proof (node_items k1 i V1 Ki) as Ni. destruct i; try (destruct Ni; fail); exists v; (split; [apply V; reflexivity|reflexivity]).
        + rewrite same_str_iff. cbn [equal]. rewrite V. split; congruence. }
    destruct Q as [(-> & x & X & Nj & E)|(Ni & Nj & Q)].
    - destruct (equality_spec w n l r c i ls [j] x El Er X) as (b & Eb & Hb); [intros y [<-|[]]; exact Nj|]. exists b. split; [exact Eb|]. rewrite Hb. cbn [related]. rewrite <- E. split; [intros (y & [<-|[]] & Y); exact Y|].
      intros Y. exists j. split; [left; reflexivity|exact Y].
    - assert (O : op = OpEq \/ op = OpNe \/ is_order op) by (destruct op; try (destruct k1, k2; discriminate C); auto; right; right; cbn; auto 6).
      assert (S : same_value i j <-> equal w i j).
      { destruct Q as [(x & y & -> & ->)|[(s & t & -> & ->)|(_ & x & y & -> & ->)]]; cbn [equal].
        - rewrite same_int_iff. split; congruence.
        - rewrite same_str_iff. split; [intros ->; constructor|]. intros H. inversion H. reflexivity.
        - rewrite same_bool_iff. split; congruence. }
      destruct O as [->|[->|O]].
      + destruct (equality_spec w n l r c i ls [j] i El Er) as (b & Eb & Hb); [destruct i; try (destruct Ni; exact I); reflexivity|intros y [<-|[]]; exact Nj|]. exists b. split; [exact Eb|]. rewrite Hb. cbn [related]. rewrite <- S.
        split; [intros (y & [<-|[]] & Y); exact Y|]. intros Y. exists j. split; [left; reflexivity|exact Y].
      + destruct (differ_values w n l r c i ls Done j [] Done El Er Ni Nj) as (b & Eb & Hb). exists b. split; [exact Eb|]. rewrite Hb. cbn [related]. rewrite <- S. reflexivity.
      + destruct Q as [(x & y & -> & ->)|[(s & t & -> & ->)|(-> & _)]].
        * destruct (order_numbers w n op l r c _ _ _ _ _ _ _ _ O El Er eq_refl eq_refl) as (b & Eb & Hb). exists b. split; [exact Eb|]. rewrite Hb.
          destruct O as [<-|[<-|[<-|[<-|[]]]]]; cbn [related ordered less equal]; rewrite ?same_int, ?before_int; intuition congruence.
        * destruct (order_strings w n op l r c _ _ _ _ _ _ s t O El Er) as (b & Eb & Hb); [constructor|constructor|]. exists b. split; [exact Eb|]. rewrite Hb. rewrite same_str_iff in S.
          destruct O as [<-|[<-|[<-|[<-|[]]]]]; cbn [related ordered less]; rewrite <- ?S; tauto.
        * destruct O as [O|[O|[O|[O|[]]]]]; discriminate O.
  Qed.
  Lemma compare_result op k1 k2 l r c P Q : comparable op k1 k2 = true -> result k1 P (eval w n l c) -> result k2 Q (eval w n r c) -> StronglySorted (direction w l) (fst (eval w n l c)) ->
    result KBool (verdict (exists i j, first_of (direction w l) P i /\ Q j /\ related w op i j)) (eval w n (EBin l op r) c).
  Proof.
    intros C (ls & El & Il & Kl & Bl) (rs & Er & Ir & Kr & Br) S. apply verdict_result. rewrite El in S. cbn [fst] in S.
    destruct Br as (j & ->); [destruct op, k1, k2; try discriminate C; reflexivity|]. destruct ls as [|i ls].
    - assert (op = OpEq) as ->.
      { destruct (is_value k1) eqn:V; [destruct (Bl eq_refl) as (x & X); discriminate X|]. destruct k1; try discriminate V; destruct op, k2; try discriminate C; reflexivity. }
      exists false. split; [apply equality_empty; exact El|]. split; [discriminate|]. intros (i & _ & (H & _) & _). apply Il in H. destruct H.
    - destruct (compare_items op k1 k2 i j l r c ls C) as (b & Eb & Hb); [apply Kl; left; reflexivity|apply Kr; left; reflexivity|exact El|exact Er|]. exists b. split; [exact Eb|]. rewrite Hb. split.
      + intros X. exists i, j. split; [now apply (first_sorted l P i ls)|]. split; [apply Ir; left; reflexivity|exact X].
      + intros (i' & j' & F & J & X). apply (first_sorted l P i ls S Il) in F as ->. apply Ir in J as [<-|[]]. exact X.
  Qed.

  (** ** Functions *)
  Lemma count_result k e c P : result k P (eval w n e c) -> NoDup (fst (eval w n e c)) ->
    result KNum (fun d => exists m, how_many P m /\ d = IInt m) (eval w n (ECall (lit "count") [e]) c).
  Proof.
    intros (ls & E & I & _) N. rewrite E in N. cbn [fst] in N. apply (value_result KNum _ _ (IInt (Z.of_nat (length ls)))); [eexists; reflexivity|exact (count_eq w n e c ls E)|].
    intros d. split; [|intros ->; eexists; split; [exists ls; auto|reflexivity]]. intros (m & (l & Nl & Il & ->) & ->). do 2 f_equal. apply Nat.le_antisymm; apply NoDup_incl_length; auto; intros x Hx; [apply I, Il, Hx|apply Il, I, Hx].
  Qed.
  Lemma first_text_or none k e c P : result k P (eval w n e c) -> StronglySorted (direction w e) (fst (eval w n e c)) ->
    exists v, ((eval w n e c = ([], Done) /\ v = none) \/ (exists i ls, eval w n e c = (i :: ls, Done) /\ of_kind w k i /\ string_value w i v)) /\ forall s, text_or none w (direction w e) P s <-> s = v.
  Proof.
    intros (ls & E & I & K & _) S. rewrite E in *. cbn [fst] in S. destruct ls as [|i ls].
    - exists none. split; [left; auto|]. intros s. unfold text_or. split.
      + intros [(i & (H & _) & _)|(_ & ->)]; [apply I in H; destruct H|reflexivity].
      + intros ->. right. split; [|reflexivity]. intros i H. apply I in H. destruct H.
    - assert (Ki : of_kind w k i) by (apply K; left; reflexivity). destruct (string_one i k Ki) as (v & V). exists v. split; [right; exists i, ls; split; [reflexivity|]; split; [exact Ki|now apply V]|]. intros s. unfold text_or. split.
      + intros [(j & F & J)|(H & _)]; [apply (first_sorted e P i ls S I) in F as ->; now apply V|]. destruct (H i). apply I. left. reflexivity.
      + intros ->. left. exists i. split; [now apply (first_sorted e P i ls)|now apply V].
  Qed.
  Lemma first_arg k e c P : result k P (eval w n e c) -> StronglySorted (direction w e) (fst (eval w n e c)) ->
    exists v, arg_string w (eval w n e c) v /\ forall s, first_text w (direction w e) P s <-> s = v.
  Proof.
    intros R S. destruct (first_text_or (lit "False") k e c P R S) as (v & [(E & ->)|(i & ls & E & _ & V)] & T); exists v || eexists; (split; [|exact T]); rewrite E.
    - exists (IBool false). split; [right; auto|constructor].
    - exists i. split; [left; eauto|exact V].
  Qed.
  Lemma string_is k i v : k <> KNode -> of_kind w k i -> string_value w i v -> to_string w i = IStr v.
  Proof.
    intros N K V. destruct k; try congruence; cbn [of_kind] in K.
    - destruct K as [->|(a & m & ats & ks & -> & E)]; [inversion V; reflexivity|]. inversion V as [|a' u E' | | | | | |]; subst. rewrite E in E'. injection E' as <-. apply the_str_value in V as (V & _).
      revert V. unfold the_str, to_string. cbn [as_str node_strval]. unfold text_at, node_at. rewrite E. cbn [as_str option_map]. congruence.
    - destruct K as (a & m & ats & ks & q & x & o & -> & E & H). inversion V; subst. reflexivity.
    - destruct K as (b & ->). inversion V; reflexivity.
    - destruct K as (b & ->). inversion V; reflexivity.
    - destruct K as (b & ->). apply the_str_value in V as (V & _). revert V. cbn. congruence.
  Qed.
  Lemma string_item k i v : k <> KNode -> of_kind w k i -> string_value w i v -> eval w n (ECall (lit "string") []) i = ([IStr v], Done).
  Proof. intros N K V. rewrite eval_call. change (yield1 (to_string w i) = ([IStr v], Done)). rewrite (string_is k i v N K V). reflexivity. Qed.
  Lemma name_item k i : is_value k = false -> of_kind w k i -> exists v, eval w n (ECall (lit "name") []) i = ([IStr v], Done) /\ forall s, named w i s <-> s = v.
  Proof.
    intros N K. destruct (name_context w n i) as (N1 & N2 & N3). assert (X : (forall a, i <> INode a) \/ exists a u, i = INode a /\ subtree D a = Some u).
    { destruct k; try discriminate N; cbn [of_kind] in K.
      - destruct K as [->|(a & m & ats & ks & -> & E)]; [left; discriminate|right; eauto].
      - destruct i; try (destruct K; fail); [left; discriminate|right]. destruct K as (u & E). eauto.
      - destruct K as (a & m & ats & ks & q & v & o & -> & _). left. discriminate. }
    destruct X as [X|(a & u & -> & E)].
    - exists []. split; [exact (N3 X)|]. intros s. split; [intros H; inversion H; subst; try reflexivity; destruct (X a); reflexivity|]. intros ->. apply (node_items k i N) in K. destruct i; try (destruct K; fail); [constructor|destruct (X a); reflexivity|constructor].
    - destruct u as [m ats ks|t].
      + exists m. split; [exact (N1 a m ats ks eq_refl E)|]. intros s. split; [intros H; inversion H; congruence|intros ->; econstructor; exact E].
      + exists (lit "#text"). split; [exact (N2 a t eq_refl E)|]. intros s. split; [intros H; inversion H; congruence|intros ->; econstructor; exact E].
  Qed.
  Lemma call0_result f k k' c : call0_kind f k = Some k' -> is_value k = false -> of_kind w k c -> result k' (call0 w f c) (eval w n (ECall f []) c).
  Proof.
    intros H V K. unfold call0_kind in H. unfold call0. destruct (is_fn f "true") eqn:F1; [apply ParserInv.str_eqb_eq in F1 as ->; injection H as <-|].
    { apply (value_result KBool _ _ (IBool true)); [eexists; reflexivity|rewrite eval_call; reflexivity|reflexivity]. }
    destruct (is_fn f "false") eqn:F2; [apply ParserInv.str_eqb_eq in F2 as ->; injection H as <-|].
    { apply (value_result KBool _ _ (IBool false)); [eexists; reflexivity|rewrite eval_call; reflexivity|reflexivity]. }
    cbn [orb] in H. destruct (is_fn f "last") eqn:F3; [apply ParserInv.str_eqb_eq in F3 as ->; injection H as <-|].
    { apply (value_result KNum _ _ (IInt (-1))); [eexists; reflexivity|rewrite eval_call; reflexivity|reflexivity]. }
    destruct (is_fn f "name") eqn:F4; [apply ParserInv.str_eqb_eq in F4 as ->; injection H as <-|].
    { destruct (name_item k c V K) as (v & E & X). apply (value_result KStr _ _ (IStr v)); [eexists; reflexivity|exact E|]. intros d. split; [intros (s & Y & ->); apply X in Y as ->; reflexivity|]. intros ->. exists v. split; [now apply X|reflexivity]. }
    destruct (is_fn f "string") eqn:F5; [apply ParserInv.str_eqb_eq in F5 as ->|discriminate]. assert (N : k <> KNode /\ k' = KStr) by (destruct k; try discriminate; injection H as <-; (split; [discriminate|reflexivity])).
    destruct N as (N & ->). destruct (string_one c k K) as (v & X). apply (value_result KStr _ _ (IStr v)); [eexists; reflexivity|apply (string_item k c v N K); now apply X|].
    intros d. split; [intros (s & Y & ->); apply X in Y as ->; reflexivity|]. intros ->. exists v. split; [now apply X|reflexivity].
  Qed.
  Lemma call1_result f e ke k' c P : call1_kind f e ke = Some k' -> result ke P (eval w n e c) -> (has_first ke e = true -> StronglySorted (direction w e) (fst (eval w n e c))) ->
    (once e = true -> NoDup (fst (eval w n e c))) -> result k' (call1 w f (direction w e) P) (eval w n (ECall f [e]) c).
  Proof.
    intros H R S O. unfold call1_kind in H. unfold call1. destruct (is_fn f "not") eqn:F1; [apply ParserInv.str_eqb_eq in F1 as ->; injection H as <-; exact (not_result ke P e c R)|].
    destruct (is_fn f "boolean") eqn:F2; [apply ParserInv.str_eqb_eq in F2 as ->; injection H as <-; apply verdict_result; exact (boolean_result ke P e c R)|]. cbn [orb] in H.
    destruct (is_fn f "count") eqn:F3; [apply ParserInv.str_eqb_eq in F3 as ->|].
    { destruct (is_value ke); [discriminate|]. cbn [negb andb] in H. destruct (once e); [|discriminate]. injection H as <-. exact (count_result ke e c P R (O eq_refl)). }
    destruct (is_fn f "name") eqn:F4; [apply ParserInv.str_eqb_eq in F4 as ->|].
    { destruct (is_value ke) eqn:V; [discriminate|]. cbn [negb andb] in H. destruct (in_line e) eqn:L; [|discriminate]. injection H as <-. unfold has_first in S. rewrite V in S. cbn [orb] in S. specialize (S L).
      destruct R as (ls & E & I & K & _). rewrite E in S. cbn [fst] in S. destruct (name_first w n e c) as (N0 & N1). destruct ls as [|i ls].
      - apply (value_result KStr _ _ (IStr [])); [eexists; reflexivity|exact (N0 E)|]. intros d. split.
        + intros (s & [(i & (X & _) & _)|(_ & ->)] & ->); [apply I in X; destruct X|reflexivity].
        + intros ->. exists []. split; [|reflexivity]. right. split; [|reflexivity]. intros i X. apply I in X. destruct X.
      - destruct (name_item ke i V (K i (or_introl eq_refl))) as (v & Ev & X). apply (value_result KStr _ _ (IStr v)); [eexists; reflexivity|rewrite (N1 i ls Done E); exact Ev|]. intros d. split.
        + intros (s & [(j & F & J)|(Y & _)] & ->); [apply (first_sorted e P i ls S I) in F as ->; apply X in J as ->; reflexivity|]. destruct (Y i). apply I. left. reflexivity.
        + intros ->. exists v. split; [|reflexivity]. left. exists i. split; [now apply (first_sorted e P i ls)|now apply X]. }
    destruct (is_fn f "string") eqn:F5; [apply ParserInv.str_eqb_eq in F5 as ->|].
    { assert (N : ke <> KNode /\ has_first ke e = true /\ k' = KStr) by (destruct ke; try discriminate; destruct (has_first _ e); try discriminate; injection H as <-; (split; [discriminate|auto])).
      destruct N as (N & L & ->). destruct (first_text_or [] ke e c P R (S L)) as (v & X & T). apply (value_result KStr _ _ (IStr v)); [eexists; reflexivity| |].
      - destruct (string_first w n e c) as (S0 & S1). destruct X as [(E & ->)|(i & ls & E & Ki & V)]; [exact (S0 E)|]. rewrite (S1 i ls Done E). exact (string_item ke i v N Ki V).
      - intros d. split; [intros (s & Y & ->); apply T in Y as ->; reflexivity|]. intros ->. exists v. split; [now apply T|reflexivity]. }
    destruct (is_fn f "string-length") eqn:F6; [apply ParserInv.str_eqb_eq in F6 as ->|discriminate]. assert (ke = KStr /\ k' = KNum) as (-> & ->) by (destruct ke; try discriminate; injection H as <-; auto).
    destruct R as (ls & E & I & K & B). destruct (B eq_refl) as (i & ->). destruct (K i (or_introl eq_refl)) as (s & ->). destruct (length_first w n e c) as (_ & L1 & _).
    apply (value_result KNum _ _ (IInt (Z.of_nat (length s)))); [eexists; reflexivity|apply (L1 _ [] Done s E); constructor|]. intros d. split.
    - intros (t & Y & ->). apply I in Y as [Y|[]]. injection Y as ->. reflexivity.
    - intros ->. exists s. split; [apply I; left; reflexivity|reflexivity].
  Qed.
  Lemma call2_result f e e' ke ke' k' c P P' : call2_kind f e e' ke ke' = Some k' -> result ke P (eval w n e c) -> result ke' P' (eval w n e' c) ->
    (has_first ke e = true -> StronglySorted (direction w e) (fst (eval w n e c))) -> (has_first ke' e' = true -> StronglySorted (direction w e') (fst (eval w n e' c))) ->
    result k' (call2 w f (direction w e) P (direction w e') P') (eval w n (ECall f [e; e']) c).
  Proof.
    intros H R R' S S'. unfold call2_kind in H. destruct (has_first ke e); [|discriminate]. destruct (has_first ke' e'); [|discriminate]. cbn [andb] in H. specialize (S eq_refl). specialize (S' eq_refl).
    destruct (first_arg ke e c P R S) as (v & A & T). destruct (first_arg ke' e' c P' R' S') as (x & A' & T').
    assert (Z : forall (Q : str -> str -> item -> Prop) d, (exists s y, first_text w (direction w e) P s /\ first_text w (direction w e') P' y /\ Q s y d) <-> Q v x d).
    { intros Q d. split; [intros (s & y & Y & Y' & X); apply T in Y as ->; apply T' in Y' as ->; exact X|]. intros X. exists v, x. split; [now apply T|]. split; [now apply T'|exact X]. }
    unfold call2. destruct (is_fn f "contains") eqn:F1; [apply ParserInv.str_eqb_eq in F1 as ->; injection H as <-|].
    { eapply result_ext; [intros d; symmetry; exact (Z (fun s y => verdict (exists p q, s = p ++ y ++ q)) d)|]. apply verdict_result. exact (contains_spec w n e e' c v x A A'). }
    destruct (is_fn f "starts-with") eqn:F2; [apply ParserInv.str_eqb_eq in F2 as ->; injection H as <-|].
    { eapply result_ext; [intros d; symmetry; exact (Z (fun s y => verdict (exists q, s = y ++ q)) d)|]. apply verdict_result. exact (starts_with_spec w n e e' c v x A A'). }
    cbn [orb] in H. destruct e' as [[[|ch t]|z|fl]| | | | | | | | | |]; try discriminate. assert (x = ch :: t) as ->.
    { destruct A' as (i & [(l & g & E)|(E & _)] & V); rewrite eval_lit in E; [|discriminate E]. cbn in E. injection E as <- _ _. inversion V. reflexivity. }
    assert (D1 : (exists p q, first_at (ch :: t) v p q) \/ forall p q, v <> p ++ (ch :: t) ++ q).
    { destruct (find_sub (ch :: t) v) as [i|] eqn:Fs; [left; exists (firstn i v), (skipn (i + length (ch :: t)) v); exact (find_sub_some _ _ _ Fs)|right; exact (find_sub_none _ _ Fs)]. }
    assert (Xt : ch :: t <> []) by discriminate.
    destruct (is_fn f "substring-after") eqn:F3; [apply ParserInv.str_eqb_eq in F3 as ->; injection H as <-|].
    { eapply result_ext; [intros d; symmetry; exact (Z (fun s y d => (exists p q, first_at y s p q /\ d = IStr q) \/ ((forall p q, s <> p ++ y ++ q) /\ d = IStr [])) d)|].
      destruct (after_spec w n e _ c v _ A A') as (_ & B1 & B2). destruct D1 as [(p & q & D1)|D1].
      - apply (value_result KStr _ _ (IStr q)); [eexists; reflexivity|exact (B1 p q Xt D1)|]. intros d. split.
        + intros [(p' & q' & X & ->)|(X & _)]; [destruct (first_at_unique _ _ _ _ _ _ X D1) as (_ & ->); reflexivity|]. destruct (X p q). exact (proj1 D1).
        + intros ->. left. eauto.
      - apply (value_result KStr _ _ (IStr [])); [eexists; reflexivity|exact (B2 Xt D1)|]. intros d. split.
        + intros [(p' & q' & X & ->)|(_ & ->)]; [destruct (D1 p' q'); exact (proj1 X)|reflexivity].
        + intros ->. right. auto. }
    destruct (is_fn f "substring-before") eqn:F4; [apply ParserInv.str_eqb_eq in F4 as ->|discriminate].
    assert (N : ke <> KNode /\ k' = KStr) by (destruct ke; try discriminate; injection H as <-; (split; [discriminate|reflexivity])). destruct N as (N & ->).
    eapply result_ext; [intros d; symmetry; exact (Z (fun s y d => (exists p q, first_at y s p q /\ d = IStr p) \/ ((forall p q, s <> p ++ y ++ q) /\ d = IStr s)) d)|].
    destruct (before_spec w n e _ c v _ A A') as (_ & B1 & _). destruct D1 as [(p & q & D1)|D1].
    - apply (value_result KStr _ _ (IStr p)); [eexists; reflexivity|exact (B1 p q Xt D1)|]. intros d. split.
      + intros [(p' & q' & X & ->)|(X & _)]; [destruct (first_at_unique _ _ _ _ _ _ X D1) as (-> & _); reflexivity|]. destruct (X p q). exact (proj1 D1).
      + intros ->. left. eauto.
    - apply (value_result KStr _ _ (IStr v)); [eexists; reflexivity| |].
      + rewrite eval_call. set (g := fun full part => match str_of w part with [] => raise ValueErr | p => match find_sub p (str_of w full) with Some i => yield1 (IStr (firstn i (str_of w full))) | None => yield1 full end end).
        change (string_arg w (eval w n e c) (fun full => string_arg w (eval w n (ELit (LStr (ch :: t))) c) (fun part => g full part)) = ([IStr v], Done)). rewrite eval_lit.
        assert (X : string_arg w (eval w n e c) (fun full => string_arg w ([IStr (ch :: t)], Done) (fun part => g full part)) = g (IStr v) (IStr (ch :: t))).
        { destruct (first_text_or (lit "False") ke e c P R S) as (v' & X & T2). assert (v' = v) as -> by (apply T; now apply T2).
          destruct X as [(E & ->)|(i & ls & E & Ki & V)]; rewrite E; [reflexivity|]. cbn [string_arg first]. unfold string_arg. cbn [first]. rewrite (string_is ke i v N Ki V). reflexivity. }
        etransitivity; [exact X|]. unfold g. cbn [str_of as_str]. destruct (find_sub (ch :: t) v) as [i|] eqn:Fs; [|reflexivity]. apply find_sub_some in Fs. destruct (D1 _ _ (proj1 Fs)).
      + intros d. split; [intros [(p' & q' & X & ->)|(_ & ->)]; [destruct (D1 p' q'); exact (proj1 X)|reflexivity]|]. intros ->. right. auto.
  Qed.
  Lemma call3_result f e i m ke k' c P : call3_kind f e (ELit (LInt i)) (ELit (LInt m)) ke = Some k' -> result ke P (eval w n e c) ->
    (has_first ke e = true -> StronglySorted (direction w e) (fst (eval w n e c))) -> result k' (call3 w (direction w e) P i m) (eval w n (ECall f [e; ELit (LInt i); ELit (LInt m)]) c).
  Proof.
    intros H R S. unfold call3_kind in H. destruct (is_fn f "substring") eqn:F; [apply ParserInv.str_eqb_eq in F as ->|discriminate]. destruct (has_first ke e); [|discriminate]. cbn [andb] in H.
    destruct (Z.leb_spec 1 i); [|discriminate]. destruct (Z.leb_spec 0 m); [|discriminate]. injection H as <-. destruct (first_arg ke e c P R (S eq_refl)) as (v & A & T).
    apply (value_result KStr _ _ (IStr (firstn (Z.to_nat m) (skipn (Z.to_nat i - 1) v)))); [eexists; reflexivity| |].
    - pose proof (substring_plain w n e c v (Z.to_nat i - 1) (Z.to_nat m) A) as Q. replace (Z.of_nat (Datatypes.S (Z.to_nat i - 1))) with i in Q by lia. replace (Z.of_nat (Z.to_nat m)) with m in Q by lia. exact Q.
    - intros d. unfold call3. split; [intros (s & Y & ->); apply T in Y as ->; reflexivity|]. intros ->. exists v. split; [now apply T|reflexivity].
  Qed.
  Lemma all_texts ke e P ls : result ke P (ls, Done) -> StronglySorted (direction w e) ls -> exists ss, Forall2 (string_value w) ls ss /\ forall s, all_text w (direction w e) P s <-> s = concat ss.
  Proof.
    intros (ls' & E & I & K & _) S. injection E as <-. assert (X : exists ss, Forall2 (string_value w) ls ss).
    { clear - K. induction ls as [|i ls IH]; [exists []; constructor|]. destruct IH as (ss & F); [intros d Hd; apply K; right; exact Hd|]. destruct (string_one i ke (K i (or_introl eq_refl))) as (v & V). exists (v :: ss). constructor; [now apply V|exact F]. }
    destruct X as (ss & F). exists ss. split; [exact F|]. intros s. split.
    - intros (l & ss' & Sl & Il & F' & ->). assert (l = ls) as -> by (apply (sorted_unique e); auto; intros i; rewrite Il, I; reflexivity). f_equal. clear - F F'. revert ss' F'. induction F as [|i s ls ss V F IH]; intros ss' F'; inversion F' as [|? s' ? ss2 V' F2]; subst; [reflexivity|].
      f_equal; [exact (string_value_fun w i s' s V' V)|exact (IH ss2 F2)].
    - intros ->. exists ls, ss. auto.
  Qed.
  Lemma concat_result l c : (forall e, In e l -> exists ke, result ke (nav w e c) (eval w n e c) /\ StronglySorted (direction w e) (fst (eval w n e c))) ->
    result KStr (nav w (ECall (lit "concat") l) c) (eval w n (ECall (lit "concat") l) c).
  Proof.
    intros H. assert (X : exists outs ss, Forall2 (fun e o => eval w n e c = (o, Done)) l outs /\ Forall2 (string_value w) (concat outs) ss /\
      forall s, (fix all l s := match l with [] => s = [] | e :: l => exists s1 s2, all_text w (direction w e) (nav w e c) s1 /\ all l s2 /\ s = s1 ++ s2 end) l s <-> s = concat ss).
    { induction l as [|e l IH]; [exists [], []; split; [constructor|]; split; [constructor|]; intros s; reflexivity|]. destruct IH as (outs & ss & F & V & Q); [intros e1 H1; apply H; right; exact H1|].
      destruct (H e (or_introl eq_refl)) as (ke & R & S). destruct R as (ls & E & R). assert (R' : result ke (nav w e c) (ls, Done)) by (exists ls; auto). rewrite E in S. cbn [fst] in S.
      destruct (all_texts ke e _ ls R' S) as (ss1 & V1 & Q1). exists (ls :: outs), (ss1 ++ ss). split; [constructor; assumption|]. split; [cbn [concat]; apply Forall2_app; assumption|].
      intros s. rewrite concat_app. split; [intros (s1 & s2 & X1 & X2 & ->); apply Q1 in X1 as ->; apply Q in X2 as ->; reflexivity|]. intros ->. exists (concat ss1), (concat ss). split; [now apply Q1|]. split; [now apply Q|reflexivity]. }
    destruct X as (outs & ss & F & V & Q). apply (value_result KStr _ _ (IStr (concat ss))); [eexists; reflexivity|exact (concat_eq w n l c outs ss F V)|].
    intros d. cbn [nav]. change (is_fn (lit "concat") "concat") with true. cbv iota. split; [intros (s & X & ->); apply Q in X as ->; reflexivity|]. intros ->. exists (concat ss). split; [now apply Q|reflexivity].
  Qed.

  (** ** Unions *)
  Lemma elements_nav e : forall c d, elements_only e = true -> nav w e c d -> exists a m ats ks, d = INode a /\ subtree D a = Some (XE m ats ks).
  Proof.
    induction e as [l|e IHe|l op r IHl IHr|dd|dd e IHe|ax t|e ps IHe IHps|t|u|v|f l IHl|l IHl] using expr_ind'; intros c d F H; try discriminate.
    - destruct op; try discriminate; cbn [elements_only] in F; cbn [nav] in H.
      + destruct H as (i & _ & H). exact (IHr i d F H).
      + destruct r as [| | | |ax [|q| |]| | | | | |]; try discriminate. destruct H as (i & _ & H).
        inversion H as [| | |t c0 M|t c0 b B M| | | | | | | |]; subst; [destruct d as [|a| | | | |]; try (destruct M; fail); [destruct M as [M|M]; discriminate|]|]; destruct M as (u & E & ats & ks & ->); eauto 6.
      + apply andb_prop in F as (Fl & Fr). destruct H as [H|H]; eauto.
    - destruct dd; cbn [elements_only nav] in *; [destruct H as (i & _ & H)|]; eauto.
    - cbn [nav] in H. destruct ax, t as [|q| |]; try discriminate; inversion H as [t c0 M|t c0 b u E C Q|t c0 b B M|t c0 M|t c0 b B M| | | | | |t p i b B M|t p i b B M|]; subst;
        try (destruct M as (u & E & ats & ks & ->); eauto 6; fail);
        try (destruct d as [|a| | | | |]; try (destruct M; fail); [destruct M as [M|M]; discriminate|]; destruct M as (u & E & ats & ks & ->); eauto 6; fail).
      + destruct Q as (m & ats & ks & ->). eauto 6.
      + destruct Q as (ats & ks & ->). eauto 6.
    - apply (IHe c d F). exact (proj1 H).
  Qed.
  Lemma union_result k l r c k1 k2 : of_kind w k c -> is_value k = false -> elements_only l = true -> elements_only r = true ->
    result k1 (nav w l c) (eval w n l c) -> result k2 (nav w r c) (eval w n r c) -> result KElem (fun d => nav w l c d \/ nav w r c d) (eval w n (EBin l OpUnion r) c).
  Proof.
    intros Kc N Fl Fr (ls & El & Il & _) (rs & Er & Ir & _).
    assert (X : forall i, In i (ls ++ rs) -> element_item w i).
    { intros i Hi. apply in_app_iff in Hi as [Hi|Hi]; [apply Il in Hi; apply elements_nav in Hi as (a & m & ats & ks & -> & E); [|exact Fl]|apply Ir in Hi; apply elements_nav in Hi as (a & m & ats & ks & -> & E); [|exact Fr]]; exists a, m, ats, ks; auto. }
    destruct (union_sorted w n l r c ls rs Wd) as (out & Eo & Po & _); [|exact El|exact Er|intros i Hi; left; exact (X i Hi)|].
    { destruct k; try discriminate N; cbn in Kc; [destruct Kc as [->|(a & m & ats & ks & -> & _)]|destruct c; try (destruct Kc; fail)|destruct Kc as (a & m & ats & ks & q & v & o & -> & _)]; cbn; try discriminate; destruct a; discriminate. }
    exists out. split; [exact Eo|]. assert (J : forall d, In d out <-> In d (ls ++ rs)) by (intros d; split; apply Permutation_in; [exact Po|apply Permutation_sym; exact Po]).
    split; [intros d; rewrite J, in_app_iff, Il, Ir; reflexivity|]. split; [|discriminate]. intros d Hd. right. apply X, J, Hd.
  Qed.

  (** ** Predicates *)
  Definition pred_holds (e : expr) (c d : item) (p : expr) : Prop :=
    exists j, nav w p d j /\ match j with IInt z => nth_of (direction w e) (nav w e c) z d | _ => stands j end.
  Lemma nav_pred_all e ps c d : nav w (EPred e ps) c d <-> nav w e c d /\ forall p, In p ps -> pred_holds e c d p.
  Proof.
    cbn [nav]. induction ps as [|p ps IH]; [split; [intros (H & _); split; [exact H|intros p []]|tauto]|]. split.
    - intros (H & Hp & Hr). destruct (proj1 IH (conj H Hr)) as (_ & K). split; [exact H|]. intros q [<-|Hq]; auto.
    - intros (H & K). split; [exact H|]. split; [apply (K p); left; reflexivity|]. apply (proj2 IH). split; [exact H|]. intros q Hq. apply K. right. exact Hq.
  Qed.
  Lemma kind_pred_all k e ps k' : kind_of k (EPred e ps) = Some k' -> kind_of k e = Some k' /\ is_value k' = false /\
    forall p, In p ps -> exists kp, kind_of k' p = Some kp /\ (kp = KNum -> in_line e = true).
  Proof.
    cbn [kind_of]. destruct (no_value (kind_of k e)) as [k1|] eqn:E; [|discriminate]. intros H. apply no_value_some in E as (E & N).
    assert (k1 = k') as -> by (match type of H with (if ?b then _ else _) = _ => destruct b; congruence end). split; [exact E|]. split; [exact N|].
    clear E. induction ps as [|p ps IH]; [intros p []|]. match type of H with (if ?b then _ else _) = _ => destruct b eqn:B; [|discriminate] end. apply andb_prop in B as (B1 & B2).
    intros q [<-|Hq]; [|apply IH; [rewrite B2; reflexivity|exact Hq]]. destruct (kind_of k' p) as [kp|]; [|discriminate]. exists kp. split; [reflexivity|]. intros ->. exact B1.
  Qed.
  Lemma plain_or (P : item -> Prop) (N : Z -> Prop) : (forall z, ~ P (IInt z)) -> (exists j, P j /\ match j with IInt z => N z | _ => stands j end) <-> exists j, P j /\ stands j.
  Proof.
    intros H. split; intros (j & X & Y); exists j; (split; [exact X|]); destruct j; try exact Y; destruct (H _ X).
  Qed.
  Lemma number_is (P : item -> Prop) (N : Z -> Prop) z : (forall d, P d <-> d = IInt z) -> (exists j, P j /\ match j with IInt z => N z | _ => stands j end) <-> N z.
  Proof. intros H. split; [intros (j & X & Y); apply H in X as ->; exact Y|]. intros Y. exists (IInt z). split; [now apply H|exact Y]. Qed.
  (** What the predicates do, given what the expressions do. *)
  Lemma pred_parts e ps c k k' : kind_of k (EPred e ps) = Some k' -> result k' (nav w e c) (eval w n e c) ->
    (forall p kp i, In p ps -> kind_of k' p = Some kp -> of_kind w k' i -> result kp (nav w p i) (eval w n p i)) ->
    exists ls out, eval w n e c = (ls, Done) /\ (forall d, In d ls <-> nav w e c d) /\ (forall d, In d ls -> of_kind w k' d) /\ eval w n (EPred e ps) c = (out, Done) /\
      kept (fun pos i => forall p, In p ps -> exists j, nav w p i j /\ match j with IInt z => z = Z.of_nat pos | _ => stands j end) 1 ls out.
  Proof.
    intros HK (ls & Els & Ils & Kls & _) Hp. destruct (kind_pred_all k e ps k' HK) as (_ & N & Kp).
    assert (V : forall i p, In i ls -> In p ps -> exists v, first_value (eval w n p i) v /\ usable v /\
                forall pos, holds_as w v pos <-> exists j, nav w p i j /\ match j with IInt z => z = Z.of_nat pos | _ => stands j end).
    { intros i p Hi Hip. destruct (Kp p Hip) as (kp & Ekp & _). pose proof (Hp p kp i Hip Ekp (Kls i Hi)) as R. destruct (number_or kp _ _ R) as [(-> & z & Ez & Z)|(Nk & Z)].
      - exists (IInt z). rewrite Ez. split; [left; eexists; eexists; reflexivity|]. split; [split; intros; discriminate|]. intros pos. rewrite (number_is (nav w p i) (fun z => z = Z.of_nat pos) z Z). unfold holds_as. split.
        + intros [(_ & X)|(X & _)]; [inversion X; reflexivity|destruct X; exact I].
        + intros ->. left. split; [exact I|constructor].
      - destruct (truth_value kp _ _ R) as (v & F & U & Nv & T). exists v. split; [exact F|]. split; [exact U|]. intros pos. rewrite (plain_or (nav w p i) (fun z => z = Z.of_nat pos) Z), <- T. specialize (Nv Nk). unfold holds_as. tauto. }
    assert (M : forall i j, In i ls -> moved w c i j -> j = i).
    { intros i j Hi [(_ & X)|(X & _)]; [exact X|]. destruct (not_falsy k' i N (Kls i Hi) X). }
    destruct (predicates_kept w n e ps c ls Els) as (out & K & Eo).
    { intros i p j Hi Hip Hj. apply (M i j Hi) in Hj as ->. destruct (V i p Hi Hip) as (v & F & U & _). eauto. }
    exists ls, out. split; [exact Els|]. split; [exact Ils|]. split; [exact Kls|]. split; [exact Eo|].
    assert (G : forall pos l out, (forall i, In i l -> In i ls) -> kept (fun pos i => forall p j v, In p ps -> moved w c i j -> first_value (eval w n p j) v -> holds_as w v pos) pos l out ->
      kept (fun pos i => forall p, In p ps -> exists j, nav w p i j /\ match j with IInt z => z = Z.of_nat pos | _ => stands j end) pos l out).
    { clear K Eo out. intros pos l out Sub K. induction K as [pos|pos i l l' Hk K IH|pos i l l' Hk K IH].
      - constructor.
      - constructor; [|apply IH; intros x Hx; apply Sub; right; exact Hx]. intros p Hip. destruct (V i p (Sub i (or_introl eq_refl)) Hip) as (v & F & _ & T). apply T. apply (Hk p i v Hip); [|exact F]. left.
        split; [apply (not_falsy k' i N (Kls i (Sub i (or_introl eq_refl))))|reflexivity].
      - apply k_drop; [|apply IH; intros x Hx; apply Sub; right; exact Hx]. intros A. apply Hk. intros p j v Hip Hj F. apply (M i j (Sub i (or_introl eq_refl))) in Hj as ->.
        destruct (V i p (Sub i (or_introl eq_refl)) Hip) as (v' & F' & _ & T). rewrite (first_fun _ _ _ F F'). apply T, A, Hip. }
    apply (G 1 ls out); auto.
  Qed.
  Lemma kept_at (P : nat -> item -> Prop) pos l l' : kept P pos l l' -> forall d, In d l' <-> exists pre post, l = pre ++ d :: post /\ P (pos + length pre) d.
  Proof.
    intros K. induction K as [pos|pos i l l' Hp K IH|pos i l l' Hp K IH]; intros d.
    - split; [intros []|]. intros ([|x pre] & post & E & _); discriminate.
    - cbn [In]. rewrite IH. split.
      + intros [<-|(pre & post & -> & H)]; [exists [], l; rewrite Nat.add_0_r; auto|]. exists (i :: pre), post. split; [reflexivity|]. cbn [length]. rewrite Nat.add_succ_r. exact H.
      + intros ([|x pre] & post & E & H); cbn [app] in E; injection E as -> E; [left; reflexivity|]. right. exists pre, post. split; [exact E|]. cbn [length] in H. rewrite Nat.add_succ_r in H. exact H.
    - rewrite IH. split.
      + intros (pre & post & -> & H). exists (i :: pre), post. split; [reflexivity|]. cbn [length]. rewrite Nat.add_succ_r. exact H.
      + intros ([|x pre] & post & E & H); cbn [app] in E; injection E as -> E; [cbn [length] in H; rewrite Nat.add_0_r in H; contradiction|]. exists pre, post. split; [exact E|]. cbn [length] in H. rewrite Nat.add_succ_r in H. exact H.
  Qed.
  Lemma pred_result e ps c k k' : kind_of k (EPred e ps) = Some k' -> result k' (nav w e c) (eval w n e c) ->
    (forall p kp i, In p ps -> kind_of k' p = Some kp -> of_kind w k' i -> result kp (nav w p i) (eval w n p i)) ->
    (in_line e = true -> StronglySorted (direction w e) (fst (eval w n e c))) -> result k' (nav w (EPred e ps) c) (eval w n (EPred e ps) c).
  Proof.
    intros HK He Hp S. destruct (pred_parts e ps c k k' HK He Hp) as (ls & out & Els & Ils & Kls & Eo & K). destruct (kind_pred_all k e ps k' HK) as (_ & N & Kp).
    rewrite Els in S. cbn [fst] in S. exists out. split; [exact Eo|].
    assert (Kd : forall d p, In d ls -> In p ps -> (in_line e = true /\ exists z, forall j, nav w p d j <-> j = IInt z) \/ forall z, ~ nav w p d (IInt z)).
    { intros d p Hd Hip. destruct (Kp p Hip) as (kp & Ekp & L). destruct (number_or kp _ _ (Hp p kp d Hip Ekp (Kls d Hd))) as [(-> & z & _ & Z)|(_ & Z)]; [left; split; [exact (L eq_refl)|eauto]|right; exact Z]. }
    assert (X : forall d, In d out <-> nav w (EPred e ps) c d).
    { intros d. rewrite (kept_at _ _ _ _ K), nav_pred_all. split.
      - intros (pre & post & E & H). assert (Hd : In d ls) by (rewrite E, in_app_iff; right; left; reflexivity). split; [now apply Ils|]. intros p Hip. specialize (H p Hip). unfold pred_holds. destruct (Kd d p Hd Hip) as [(L & z & Z)|Z].
        + apply (number_is (nav w p d) (fun z => nth_of (direction w e) (nav w e c) z d) z Z). apply (number_is (nav w p d) (fun z => z = Z.of_nat (1 + length pre)) z Z) in H.
          exists pre, post. rewrite <- E. split; [exact (S L)|]. split; [exact Ils|]. exact H.
        + apply (plain_or (nav w p d) (fun z => nth_of (direction w e) (nav w e c) z d) Z). apply (plain_or (nav w p d) (fun z => z = Z.of_nat (1 + length pre)) Z) in H. exact H.
      - intros (Hd & H). apply Ils in Hd. assert (Q : exists pre post, ls = pre ++ d :: post /\ forall p z, In p ps -> nav w p d (IInt z) -> z = Z.of_nat (1 + length pre)).
        { assert (J : (exists p, In p ps /\ in_line e = true /\ exists z, forall j, nav w p d j <-> j = IInt z) \/ forall p z, In p ps -> ~ nav w p d (IInt z)).
          { clear H K Eo Hp HK Kp. induction ps as [|p ps IH]; [right; intros p z []|]. destruct IH as [(q & Hq & R)|IH]; [intros x q Hx Hq; apply Kd; [exact Hx|right; exact Hq]|left; exists q; split; [right; exact Hq|exact R]|].
            destruct (Kd d p Hd (or_introl eq_refl)) as [R|R]; [left; exists p; split; [left; reflexivity|exact R]|]. right. intros q z [<-|Hq]; [apply R|apply IH; exact Hq]. }
          destruct J as [(p0 & H0 & L & z0 & Z0)|J].
          - pose proof (proj1 (number_is (nav w p0 d) (fun z => nth_of (direction w e) (nav w e c) z d) z0 Z0) (H p0 H0)) as (pre & post & S0 & I0 & _).
            assert (E : ls = pre ++ d :: post) by (apply (sorted_unique e); [exact (S L)|exact S0|intros i; rewrite Ils, I0; reflexivity]).
            exists pre, post. split; [exact E|]. intros p z Hip Hz. assert (exists pre1 post1, StronglySorted (direction w e) (pre1 ++ d :: post1) /\ (forall i, In i (pre1 ++ d :: post1) <-> nav w e c i) /\ z = Z.of_nat (Datatypes.S (length pre1))) as (pre1 & post1 & S1 & I1 & ->).
            { destruct (Kd d p Hd Hip) as [(_ & z1 & Z1)|Z1]; [|destruct (Z1 z Hz)]. apply Z1 in Hz as Ez. injection Ez as ->. exact (proj1 (number_is (nav w p d) (fun z => nth_of (direction w e) (nav w e c) z d) z1 Z1) (H p Hip)). }
            assert (E1 : ls = pre1 ++ d :: post1) by (apply (sorted_unique e); [exact (S L)|exact S1|intros i; rewrite Ils, I1; reflexivity]).
            rewrite E in E1. rewrite E in S. specialize (S L). clear - E1 S W Wa We Wd. do 2 f_equal. revert pre1 E1 S. induction pre as [|x pre IH]; intros [|y pre1] E1 S; cbn [app] in *; [reflexivity| | |].
            + injection E1 as -> E1. apply StronglySorted_inv in S as (_ & S). rewrite Forall_forall in S. destruct (direction_asym e y y); apply S; rewrite E1, in_app_iff; right; left; reflexivity.
            + injection E1 as -> E1. apply StronglySorted_inv in S as (_ & S). rewrite Forall_forall in S. destruct (direction_asym e d d); apply S; rewrite in_app_iff; right; left; reflexivity.
            + injection E1 as -> E1. apply StronglySorted_inv in S as (S & _). specialize (IH pre1 E1 S). cbn [length]. lia.
          - apply in_split in Hd as (pre & post & E). exists pre, post. split; [exact E|]. intros p z Hip Hz. destruct (J p z Hip Hz). }
        destruct Q as (pre & post & E & Z). exists pre, post. split; [exact E|]. intros p Hip. destruct (H p Hip) as (j & Hj & Y). exists j. split; [exact Hj|]. destruct j; try exact Y. exact (Z p _ Hip Hj). }
    split; [exact X|]. split; [|congruence]. intros d Hd. apply Kls, Ils. apply X in Hd. apply nav_pred_all in Hd. exact (proj1 Hd).
  Qed.
  Lemma step_result k ax t k' c : step_kind k ax t = Some k' -> of_kind w k c -> result k' (goes w ax t c) (eval w n (EStep ax t) c).
  Proof.
    intros HK Hc. destruct (step_yields k ax t k' c HK Hc) as (ls & E & I). exists ls. split; [exact E|]. split; [exact I|]. split.
    - intros d Hd. apply I in Hd. exact (step_to k ax t k' c d HK Hc Hd).
    - intros V. exfalso. unfold step_kind in HK. destruct k, ax, t; try discriminate; cbn in HK; try discriminate; try (injection HK as <-; discriminate V); match type of HK with (if ?b then _ else _) = _ => destruct b; try discriminate; injection HK as <-; discriminate V end.
  Qed.
End Nav.
