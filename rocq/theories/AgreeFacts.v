(** treeutil, MicroXPath and streaming select the same. *)
From Verif Require Import PyStr XTree Tree Grammar Path Nodes Pattern PatternSpec PatternFacts TreeUtil TreeUtilSpec TreeUtilFacts.
From Verif Require Import Heap HeapSpec Builder BuilderMore TreeIter TreeIterSpec TreeIterMore.
From Verif Require Import XPath XPathSpec XPathFacts XPaths XNavSpec XNav XNavOrder XNavMain XNavUse ParserInv XGramSpec XLex XLexSpec XText XSerial XQuery XQueryFacts AgreeSpec.
From Coq Require Import Sorted Permutation.

(** ** One list *)
Lemma before_under a : forall b c, doc_before b c -> doc_before (a ++ b) (a ++ c).
Proof. induction a as [|i a IH]; intros b c H; [exact H|]. cbn. apply db_same. auto. Qed.
Lemma same_list w n e k c a (l : list located) : proper w -> in_line e = true -> backward e = false -> kind_of KElem e = Some k -> of_kind w KElem c ->
  StronglySorted doc_before (map fst l) -> (forall d, nav w e c d <-> exists x, In x l /\ d = INode (a ++ fst x)) ->
  eval w n e c = (items_at a l, Done).
Proof.
  intros W O B K C S H. destruct (nav_result w n W e KElem k c K C) as (ls & E & I & _).
  pose proof (nav_line w n W e KElem k c O K C) as L. rewrite E in L. cbn [fst] in L. rewrite E. f_equal.
  apply (XNav.sorted_unique w W e); auto.
  - unfold direction. rewrite B. clear - S. induction l as [|x l IH]; cbn [items_at map]; constructor.
    + apply IH. cbn [map] in S. now apply StronglySorted_inv in S.
    + cbn [map] in S. apply StronglySorted_inv in S as (_ & F). rewrite Forall_forall in *. intros i Hi. apply in_map_iff in Hi as (y & <- & Hy). apply pr_node.
      apply before_under. apply F. apply in_map. exact Hy.
  - intros i. rewrite I, H. unfold items_at. rewrite in_map_iff. split; intros (x & H1 & H2); exists x; auto.
Qed.

(** ** Paths *)
Lemma path_for_plain p e : path_for p e -> no_deep p /\ no_alt p /\ p <> [].
Proof.
  intros H. induction H as [|n|p q e f H (A & B & C) H' (A' & B' & C')].
  - split; [intros [E|[]]; discriminate|]. split; [intros ns [E|[]]; discriminate|discriminate].
  - split; [intros [E|[]]; discriminate|]. split; [intros ns [E|[]]; discriminate|discriminate].
  - split; [intros I; apply in_app_or in I as [I|I]; auto|]. split; [intros ns I; apply in_app_or in I as [I|I]; [exact (B ns I)|exact (B' ns I)]|].
    intros E. apply app_eq_nil in E as [E _]. auto.
Qed.
Lemma path_for_form p e : path_for p e -> flat e = true /\ kind_of KElem e = Some KElem /\ just_node e = false /\ backward e = false.
Proof.
  intros H. induction H as [|n|p q e f H (A & B & C & D) H' (A' & B' & C' & D')]; cbn.
  - auto.
  - auto.
  - rewrite A, A', B. cbn [no_value is_value]. rewrite B'. auto.
Qed.
Lemma path_for_fan p e : path_for p e -> fan e = true.
Proof.
  intros H. induction H as [|n|p q e f H IH H' IH']; [reflexivity|reflexivity|]. cbn [fan]. rewrite IH. exact (proj1 (path_for_form q f H')).
Qed.
Lemma fan_line e : fan e = true -> in_line e = true.
Proof. intros H. unfold in_line. destruct e; cbn [orderly]; rewrite H; now destruct (backward _). Qed.

Lemma names_app u b v c : subtree u b = Some v -> is_element v -> path_names u (b ++ c) = path_names u b ++ names_below v c.
Proof.
  intros E U. revert u E. induction b as [|i b IH]; intros u E; cbn in E.
  - injection E as ->. destruct U as (n & ats & ks & ->). unfold names_below. destruct c; reflexivity.
  - destruct u as [n ats ks|x]; [|discriminate]. cbn [app path_names]. destruct (nth_error ks i) as [k|]; [|discriminate]. cbn [app]. f_equal. now apply IH.
Qed.
Lemma below_app u b v c : is_element u -> subtree u b = Some v -> is_element v -> names_below u (b ++ c) = names_below u b ++ names_below v c.
Proof.
  intros U E V. unfold names_below at 1 2. rewrite (names_app u b v c E V). destruct U as (n & ats & ks & ->). destruct b; reflexivity.
Qed.
Lemma below_length u b v : subtree u b = Some v -> is_element v -> length (names_below u b) = length b.
Proof. intros E V. unfold names_below. pose proof (path_names_length u b v E V) as L. destruct (path_names u b); [discriminate|]. cbn in *. lia. Qed.
Lemma upper_element u b c v : subtree u (b ++ c) = Some v -> is_element v -> exists x, subtree u b = Some x /\ is_element x /\ subtree x c = Some v.
Proof.
  rewrite subtree_app. destruct (subtree u b) as [x|]; [|discriminate]. intros E V. exists x. split; [reflexivity|]. split; [|exact E].
  destruct c as [|i c]; cbn in E; [injection E as ->; exact V|]. destruct x as [n ats ks|]; [|discriminate]. do 3 eexists; reflexivity.
Qed.
Lemma matches_parts p q names : no_deep p -> matches (p ++ q) names <-> exists x y, names = x ++ y /\ matches p x /\ matches q y.
Proof.
  intros D. split.
  - revert names. induction p as [|st p IH]; intros names M; [exists [], names; split; [reflexivity|split; [constructor|exact M]]|].
    cbn [app] in M. inversion M as [|st' p' n ns O M' A B|p' ns ns' M' A B]; subst.
    + destruct (IH ltac:(intros I; apply D; now right) ns M') as (x & y & -> & X & Y). exists (n :: x), y. split; [reflexivity|]. split; [now constructor|exact Y].
    + exfalso. apply D. now left.
  - intros (x & y & -> & X & Y). clear D. induction X as [|st p n ns O X IH|p ns ns' X IH]; cbn [app]; [exact Y|now constructor|]. rewrite <- app_assoc. now constructor.
Qed.
Lemma app_same {A} (x1 x2 y1 y2 : list A) : length x1 = length x2 -> x1 ++ y1 = x2 ++ y2 -> x1 = x2 /\ y1 = y2.
Proof. revert x2. induction x1 as [|a x1 IH]; intros [|b x2] L E; try discriminate; [auto|]. cbn in *. injection E as -> E. injection L as L. destruct (IH x2 L E) as (-> & ->). auto. Qed.

(** A position split where the names are. *)
Lemma split_at {A} (l : list A) n m : length l = n + m -> exists x y, l = x ++ y /\ length x = n /\ length y = m.
Proof. intros L. exists (firstn n l), (skipn n l). rewrite firstn_skipn, firstn_length, skipn_length. split; [reflexivity|]. lia. Qed.

Section Paths.
  Variable w : env.
  Notation D := (doc w).
  Lemma child_step a u t d : subtree D a = Some u -> nav w (EStep AxChild t) (INode a) d <-> exists b v, d = INode (a ++ b) /\ subtree u b = Some v /\ (exists i, b = [i]) /\ child_passes t v.
  Proof.
    intros E. cbn [nav]. split.
    - intros G. inversion G as [|t' c' b v E' B P| | | | | | | | | | |]; subst. destruct B as (i & ->). rewrite subtree_app, E in E'. exists [i], v. eauto.
    - intros (b & v & -> & E' & (i & ->) & P). eapply go_child; [rewrite subtree_app, E; exact E'|exists i; reflexivity|exact P].
  Qed.
  Lemma one_below u i v : is_element u -> subtree u [i] = Some v -> names_below u [i] = match v with XE n _ _ => [n] | XT _ => [] end.
  Proof. intros (n & ats & ks & ->) E. cbn in E. unfold names_below. cbn. destruct (nth_error ks i); [|discriminate]. injection E as ->. destruct v; reflexivity. Qed.
  Lemma step_names a u t (st : stage) d : subtree D a = Some u -> is_element u -> st <> StDeep -> (forall v, child_passes t v <-> exists n ats ks, v = XE n ats ks /\ stage_ok st n) ->
    nav w (EStep AxChild t) (INode a) d <-> exists b v, d = INode (a ++ b) /\ subtree u b = Some v /\ b <> [] /\ is_element v /\ matches [st] (names_below u b).
  Proof.
    intros E U ND T. rewrite (child_step a u t d E). split; intros (b & v & -> & E' & H).
    - destruct H as ((i & ->) & P). apply T in P as (n & ats & ks & -> & O). exists [i], (XE n ats ks). repeat (split; [first [reflexivity|exact E'|discriminate|do 3 eexists; reflexivity]|]).
      rewrite (one_below u i _ U E'). constructor; [exact O|constructor].
    - destruct H as (NE & V & M). pose proof (below_length u b v E' V) as L.
      assert (Dp : no_deep [st]) by (intros [I|[]]; auto). pose proof (matches_len _ _ Dp M) as L'. rewrite L in L'. destruct b as [|i [|]]; try discriminate.
      exists [i], v. repeat (split; [first [reflexivity|exact E'|exists i; reflexivity]|]). apply T. destruct V as (n & ats & ks & ->). exists n, ats, ks. split; [reflexivity|].
      rewrite (one_below u i _ U E') in M. inversion M as [|st' p' n' ns' O M' A B|]; subst; [exact O|congruence].
  Qed.
  Lemma star_passes v : child_passes TStar v <-> exists n ats ks, v = XE n ats ks /\ stage_ok StAny n.
  Proof. cbn. split; [intros (n & ats & ks & ->); eauto 6|intros (n & ats & ks & -> & _); do 3 eexists; reflexivity]. Qed.
  Lemma name_passes m v : child_passes (TName m) v <-> exists n ats ks, v = XE n ats ks /\ stage_ok (StName m) n.
  Proof. cbn. split; [intros (ats & ks & ->); eauto 6|intros (n & ats & ks & -> & ->); eauto]. Qed.

  Lemma nav_pattern p e : path_for p e -> forall a u d, subtree D a = Some u -> is_element u ->
    nav w e (INode a) d <-> exists b v, d = INode (a ++ b) /\ subtree u b = Some v /\ b <> [] /\ is_element v /\ matches p (names_below u b).
  Proof.
    intros H. induction H as [|m|p q e f H IH H' IH']; intros a u d E U.
    - apply step_names; auto; [discriminate|exact star_passes].
    - apply step_names; auto; [discriminate|exact (name_passes m)].
    - destruct (path_for_plain p e H) as (Dp & _ & Np). destruct (path_for_plain q f H') as (Dq & _ & Nq). cbn [nav]. split.
      + intros (i & A & B). apply (IH a u i E U) in A as (b & v & -> & E1 & N1 & V & M1).
        assert (E' : subtree D (a ++ b) = Some v) by (rewrite subtree_app, E; exact E1).
        apply (IH' (a ++ b) v d E' V) in B as (c & x & -> & E2 & N2 & X & M2). exists (b ++ c), x. split; [now rewrite app_assoc|]. split; [rewrite subtree_app, E1; exact E2|].
        split; [intros Z; apply app_eq_nil in Z as [Z _]; auto|]. split; [exact X|]. rewrite (below_app u b v c U E1 V). apply matches_parts; [exact Dp|]. eauto.
      + intros (b & v & -> & E1 & N1 & V & M). apply (matches_parts p q _ Dp) in M as (x & y & Z & M1 & M2).
        pose proof (below_length u b v E1 V) as L. rewrite Z, app_length in L. destruct (split_at b (length x) (length y) (eq_sym L)) as (b1 & b2 & -> & L1 & L2).
        destruct (upper_element u b1 b2 v E1 V) as (v1 & F1 & V1 & F2). rewrite (below_app u b1 v1 b2 U F1 V1) in Z.
        apply app_same in Z as (Z1 & Z2); [|rewrite (below_length u b1 v1 F1 V1); exact L1]. subst x y.
        assert (E' : subtree D (a ++ b1) = Some v1) by (rewrite subtree_app, E; exact F1).
        exists (INode (a ++ b1)). split.
        * apply (IH a u _ E U). exists b1, v1. split; [reflexivity|]. split; [exact F1|]. split; [|auto]. intros ->. cbn in L1. symmetry in L1. apply matches_len in M1; [|exact Dp]. rewrite L1 in M1. destruct p; [auto|discriminate].
        * apply (IH' (a ++ b1) v1 _ E' V1). exists b2, v. split; [now rewrite app_assoc|]. split; [exact F2|]. split; [|auto]. intros ->. apply matches_len in M2; [|exact Dq]. rewrite <- L2 in M2. destruct q; [auto|discriminate].
  Qed.
  Lemma top_step t (st : stage) d : st <> StDeep -> (forall v, child_passes t v <-> exists n ats ks, v = XE n ats ks /\ stage_ok st n) ->
    nav w (EStep AxChild t) IRoot d <-> exists b v, d = INode b /\ subtree D b = Some v /\ is_element v /\ matches [st] (path_names D b).
  Proof.
    intros ND T. cbn [nav]. split.
    - intros G. inversion G as [|t' c' b v E' B P| | | | | | | | | | |]; subst. cbn in B. subst b. exists [], v. apply T in P as (n & ats & ks & -> & O). repeat (split; [first [reflexivity|exact E'|do 3 eexists; reflexivity]|]).
      cbn in E'. injection E' as E'. rewrite E'. cbn. constructor; [exact O|constructor].
    - intros (b & v & -> & E & V & M). pose proof (path_names_length _ _ _ E V) as L. assert (Dp : no_deep [st]) by (intros [I|[]]; auto). rewrite (matches_len _ _ Dp M) in L. destruct b; [|discriminate].
      eapply go_child; [exact E|reflexivity|]. apply T. destruct V as (n & ats & ks & ->). exists n, ats, ks. split; [reflexivity|]. cbn in E. injection E as E. rewrite E in M. cbn in M.
      inversion M as [|st' p' n' ns' O M' A B|]; subst; [exact O|congruence].
  Qed.
  Lemma nav_stream p e : path_for p e -> forall d, nav w e IRoot d <-> exists b v, d = INode b /\ subtree D b = Some v /\ is_element v /\ matches p (path_names D b).
  Proof.
    intros H. induction H as [|m|p q e f H IH H' _]; intros d.
    - apply top_step; [discriminate|exact star_passes].
    - apply top_step; [discriminate|exact (name_passes m)].
    - destruct (path_for_plain p e H) as (Dp & _ & Np). destruct (path_for_plain q f H') as (Dq & _ & Nq). cbn [nav]. split.
      + intros (i & A & B). apply (IH i) in A as (b & v & -> & E1 & V & M1).
        apply (nav_pattern q f H' b v d E1 V) in B as (c & x & -> & E2 & N2 & X & M2). exists (b ++ c), x. split; [reflexivity|]. split; [rewrite subtree_app, E1; exact E2|].
        split; [exact X|]. rewrite (names_app D b v c E1 V). apply matches_parts; [exact Dp|]. eauto.
      + intros (b & v & -> & E1 & V & M). apply (matches_parts p q _ Dp) in M as (x & y & Z & M1 & M2).
        pose proof (path_names_length D b v E1 V) as L. rewrite Z, app_length in L. pose proof (matches_len _ _ Dp M1) as L0. destruct x as [|x0 x]; [destruct p; [congruence|discriminate]|].
        cbn in L. injection L as L. destruct (split_at b (length x) (length y) (eq_sym L)) as (b1 & b2 & -> & L1 & L2).
        destruct (upper_element D b1 b2 v E1 V) as (v1 & F1 & V1 & F2). rewrite (names_app D b1 v1 b2 F1 V1) in Z.
        apply app_same in Z as (Z1 & Z2); [|rewrite (path_names_length D b1 v1 F1 V1); cbn; now rewrite L1]. rewrite <- Z1 in M1. subst y.
        exists (INode b1). split.
        * apply (IH _). exists b1, v1. auto.
        * apply (nav_pattern q f H' b1 v1 _ F1 V1). exists b2, v. split; [reflexivity|]. split; [exact F2|]. split; [|auto]. intros ->. apply matches_len in M2; [|exact Dq]. rewrite <- L2 in M2. destruct q; [auto|discriminate].
  Qed.
End Paths.

(** ** What is kept of a listing *)
Lemma filtered_listing u P Q l l' : listing u P l -> filtered Q l l' -> listing u (fun b v => P b v /\ Q (b, v)) l'.
Proof.
  intros (S & I) F. assert (G : forall x, In x l' <-> In x l /\ Q x).
  { clear - F. induction F as [|x l l' H F IH|x l l' H F IH]; intros y; cbn; [tauto| |]; rewrite IH; split.
    - intros [<-|[A B]]; auto.
    - intros [[<-|A] B]; auto.
    - intros [A B]; auto.
    - intros [[<-|A] B]; [contradiction|auto]. }
  split.
  - clear I G. induction F as [|x l l' H F IH|x l l' H F IH]; cbn [map] in *; [constructor| |].
    + apply StronglySorted_inv in S as (S & L). constructor; [apply IH; exact S|]. rewrite Forall_forall in *. intros y Hy. apply L. clear - F Hy.
      induction F as [|z l l' H F IH|z l l' H F IH]; cbn in *; [auto| |]; intuition.
    + apply StronglySorted_inv in S as (S & L). apply IH. exact S.
  - intros b v. rewrite G, I. tauto.
Qed.
Lemma same_listing w n e k a u P l : proper w -> in_line e = true -> backward e = false -> kind_of KElem e = Some k -> subtree (doc w) a = Some u -> is_element u ->
  listing u P l -> (forall d, nav w e (INode a) d <-> exists b v, d = INode (a ++ b) /\ subtree u b = Some v /\ P b v) -> eval w n e (INode a) = (items_at a l, Done).
Proof.
  intros W O B K E U (S & I) H. apply (same_list w n e k (INode a) a l); auto.
  - right. destruct U as (m & ats & ks & ->). exists a, m, ats, ks. auto.
  - intros d. rewrite H. split.
    + intros (b & v & -> & R). apply I in R. exists (b, v). auto.
    + intros ((b & v) & R & ->). apply I in R. exists b, v. auto.
Qed.

(** ** The requests *)
Lemma kids_listing u : is_element u -> listing u (fun b _ => exists i, b = [i]) (source_items (SrcElem u)).
Proof. intros (n & ats & ks & ->). apply source_children. Qed.
Section Requests.
  Variables (w : env) (n : nat) (a : addr) (u : xtree).
  Hypotheses (W : proper w) (E : subtree (doc w) a = Some u) (U : is_element u).
  Lemma agree_children : eval w n (EStep AxChild TStar) (INode a) = (items_at a (select_elements (SrcElem u)), Done).
  Proof.
    eapply same_listing; eauto; [reflexivity|apply (filtered_listing u _ _ _ _ (kids_listing u U) (select_elements_filtered _))|].
    intros d. exact (child_step w a u TStar d E).
  Qed.
  Lemma agree_named m : eval w n (EStep AxChild (TName m)) (INode a) = (items_at a (select_name (SrcElem u) m), Done).
  Proof.
    eapply same_listing; eauto; [reflexivity|apply (filtered_listing u _ _ _ _ (kids_listing u U) (select_name_filtered _ m))|].
    intros d. exact (child_step w a u (TName m) d E).
  Qed.
  Lemma agree_below m : eval w n (EStep AxDescendant (TName m)) (INode a) = (items_at a (select_name (SrcItems (descendants u)) m), Done).
  Proof.
    eapply same_listing; eauto; [reflexivity|apply (filtered_listing u _ _ _ _ (descendants_listing u) (select_name_filtered (SrcItems _) m))|].
    intros d. cbn [nav snd]. split.
    - intros G. inversion G as [| |t' c' b B M| | | | | | | | | |]; subst. destruct B as (i & r & ->). destruct M as (v & E' & ats & ks & ->). rewrite subtree_app, E in E'. exists (i :: r), (XE m ats ks).
      split; [reflexivity|]. split; [exact E'|]. split; [split; [discriminate|do 3 eexists; reflexivity]|]. exists ats, ks. reflexivity.
    - intros (b & v & -> & E' & (N & _) & (ats & ks & ->)). destruct b as [|i r]; [congruence|]. apply go_down; [exists i, r; reflexivity|].
      exists (XE m ats ks). split; [rewrite subtree_app, E; exact E'|exists ats, ks; reflexivity].
  Qed.
  (** A condition on the children. *)
  Lemma condition t p d (Q : xtree -> Prop) : (forall c z, ~ nav w p c (IInt z)) ->
    (forall b v, subtree (doc w) b = Some v -> child_passes t v -> (exists j, nav w p (INode b) j /\ stands j) <-> Q v) ->
    nav w (EPred (EStep AxChild t) [p]) (INode a) d <-> exists b v, d = INode (a ++ b) /\ subtree u b = Some v /\ (exists i, b = [i]) /\ child_passes t v /\ Q v.
  Proof.
    intros NL H. assert (R : nav w (EPred (EStep AxChild t) [p]) (INode a) d <-> nav w (EStep AxChild t) (INode a) d /\ exists j, nav w p d j /\ stands j).
    { cbn [nav]. rewrite <- (plain_or (nav w p d) (fun z => nth_of (direction w (EStep AxChild t)) (goes w AxChild t (INode a)) z d)) by (intros z; apply NL). tauto. }
    rewrite R, (child_step w a u t d E). split.
    - intros ((b & v & -> & E' & I & P) & X). exists b, v. do 4 (split; [assumption || reflexivity|]). apply (H (a ++ b) v); auto. rewrite subtree_app, E. exact E'.
    - intros (b & v & -> & E' & I & P & X). split; [exists b, v; auto|]. apply (H (a ++ b) v); auto. rewrite subtree_app, E. exact E'.
  Qed.
  Lemma agree_with k : k <> lit "*" -> eval w n (EPred (EStep AxChild TStar) [EStep AxAttribute (TName k)]) (INode a) = (items_at a (select_attribute (SrcElem u) k None), Done).
  Proof.
    intros K. assert (K' : str_eqb k (lit "*") = false) by (destruct (str_eqb k (lit "*")) eqn:X; [apply str_eqb_eq in X; congruence|reflexivity]).
    eapply same_listing; eauto; [cbn [kind_of XNavSpec.step_kind no_value is_value]; rewrite K'; reflexivity|apply (filtered_listing u _ _ _ _ (kids_listing u U) (select_attr_filtered _ k))|].
    intros d. rewrite (condition TStar _ d (fun v => exists m ats ks, v = XE m ats ks /\ In k (map fst ats))); [|intros c z G; inversion G|].
    - split; intros (b & v & A & B & C & X); exists b, v; repeat (split; [assumption|]); [exact (proj2 X)|]. split; [|exact X]. cbn [snd] in X. destruct X as (m & ats & ks & -> & _). do 3 eexists; reflexivity.
    - intros b v Ev _. cbn [nav]. split.
      + intros (j & G & _). apply attr_is in G as (b' & m & ats & ks & x & [= <-] & Eb & I & _). rewrite Ev in Eb. injection Eb as ->. exists m, ats, ks. split; [reflexivity|]. apply in_map_iff. exists (k, x). auto.
      + intros (m & ats & ks & -> & I). apply in_map_iff in I as ((k' & x) & <- & I). exists (IAttr b k' x Made). split; [|split; [discriminate|split; discriminate]]. apply attr_is. exists b, m, ats, ks, x. auto.
  Qed.
  Lemma agree_with_value k x : k <> lit "*" ->
    eval w n (EPred (EStep AxChild TStar) [EBin (EStep AxAttribute (TName k)) OpEq (ELit (LStr x))]) (INode a) = (items_at a (select_attribute (SrcElem u) k (Some x)), Done).
  Proof.
    intros K. assert (K' : str_eqb k (lit "*") = false) by (destruct (str_eqb k (lit "*")) eqn:X; [apply str_eqb_eq in X; congruence|reflexivity]).
    assert (ND : forall b m ats ks, subtree (doc w) b = Some (XE m ats ks) -> NoDup (map fst ats)) by (intros b m ats ks; apply W).
    assert (F : filtered (fun y => exists m ats ks, snd y = XE m ats ks /\ In (k, x) ats) (source_items (SrcElem u)) (select_attribute (SrcElem u) k (Some x))).
    { apply (select_attrval_filtered _ k x). intros b m ats ks I. apply (kids_listing u U) in I as (Eb & _). apply (ND (a ++ b) m ats ks). rewrite subtree_app, E. exact Eb. }
    eapply same_listing; eauto; [cbn [kind_of XNavSpec.step_kind no_value is_value]; rewrite K'; reflexivity|exact (filtered_listing u _ _ _ _ (kids_listing u U) F)|].
    intros d. rewrite (condition TStar _ d (fun v => exists m ats ks, v = XE m ats ks /\ In (k, x) ats)); [|intros c z [(X & _)|(X & _)]; discriminate X|].
    - split; intros (b & v & A & B & C & X); exists b, v; repeat (split; [assumption|]); [exact (proj2 X)|]. split; [|exact X]. cbn [snd] in X. destruct X as (m & ats & ks & -> & _). do 3 eexists; reflexivity.
    - intros b v Ev _. cbn [nav]. split.
      + intros (j & [(-> & i & t0 & (F1 & _) & -> & SV)|(-> & _)] & NF); [cbn [related equal] in SV|destruct NF; congruence]. apply attr_is in F1 as (b' & m & ats & ks & y & [= <-] & Eb & I & ->). rewrite Ev in Eb. injection Eb as ->. inversion SV; subst. eauto 6.
      + intros (m & ats & ks & -> & I). exists (IBool true). split; [|split; [discriminate|split; discriminate]]. left. split; [reflexivity|]. exists (IAttr b k x Made), (IStr x). split; [|split; [reflexivity|constructor]]. split.
        * apply attr_is. exists b, m, ats, ks, x. auto.
        * intros j G. apply attr_is in G as (b' & m' & ats' & ks' & y & [= <-] & Eb & I' & ->). rewrite Ev in Eb. injection Eb as <- <- <-. left.
          assert (y = x) as ->; [|reflexivity]. specialize (ND b m ats ks Ev). clear - I I' ND. induction ats as [|[k' z] ats IH]; [destruct I|]. cbn in *. inversion ND as [|? ? NI ND']; subst.
          destruct I as [I|I], I' as [I'|I']; [congruence| | |auto]; exfalso; apply NI; apply in_map_iff; [exists (k, y)|exists (k, x)]; cbn; split; congruence || assumption.
  Qed.
  Lemma agree_value x : eval w n (EPred (EStep AxChild TNode) [EBin (EAbbrev false) OpEq (ELit (LStr x))]) (INode a) = (items_at a (select_value (SrcElem u) x), Done).
  Proof.
    eapply same_listing; eauto; [reflexivity|apply (filtered_listing u _ _ _ _ (kids_listing u U) (select_value_filtered _ x))|].
    intros d. rewrite (condition TNode _ d (fun v => tree_text v = x)); [|intros c z [(X & _)|(X & _)]; discriminate X|].
    - split; intros (b & v & A & B & C & X); exists b, v; repeat (split; [assumption|]); [exact (proj2 X)|]. split; [|exact X]. exact I.
    - intros b v Ev _. cbn [nav]. split.
      + intros (j & [(-> & i & t0 & (F & _) & -> & SV)|(-> & _)] & NF); [cbn [related equal] in SV|destruct NF; congruence]. subst i. inversion SV as [|b' v' Eb| | | | | |]; subst. rewrite Ev in Eb. injection Eb as ->. reflexivity.
      + intros <-. exists (IBool true). split; [|split; [discriminate|split; discriminate]]. left. split; [reflexivity|]. exists (INode b), (IStr (tree_text v)). split; [|split; [reflexivity|now constructor]]. split; [reflexivity|]. intros j ->. now left.
  Qed.
  Lemma agree_pattern p e : path_for p e -> exists l, select_pattern u p = (l, false) /\ eval w n e (INode a) = (items_at a l, Done).
  Proof.
    intros H. destruct (path_for_plain p e H) as (ND & NA & NE). destruct (path_for_form p e H) as (F & K & _ & B).
    destruct (select_no_deep p u NA ND NE U) as (l & -> & L). exists l. split; [reflexivity|].
    apply (same_listing w n e KElem a u _ l W (fan_line e (path_for_fan p e H)) B K E U L).
    intros d. exact (nav_pattern w p e H a u d E U).
  Qed.
End Requests.

(** ** Streams *)
Lemma agree_top w n p e l : proper w -> path_for p e -> listing (doc w) (fun a u => is_element u /\ matches p (path_names (doc w) a)) l ->
  eval w n (EAbs false (Some e)) IRoot = (nodes l, Done).
Proof.
  intros W H (S & I). destruct (path_for_form p e H) as (F & K & J & B). pose proof (path_for_fan p e H) as Fa.
  assert (X : nodes l = items_at [] l) by reflexivity. rewrite X. apply (same_list w n (EAbs false (Some e)) KElem IRoot [] l); auto.
  - unfold in_line. cbn [orderly fan]. rewrite Fa. now rewrite orb_true_r.
  - cbn. rewrite J, K. reflexivity.
  - now left.
  - intros d. cbn [nav]. rewrite (nav_stream w p e H d). split.
    + intros (b & v & -> & R). apply I in R. exists (b, v). auto.
    + intros ((b & v) & R & ->). apply I in R. exists b, v. cbn. tauto.
Qed.
Lemma below_matches t p st b v : is_element t -> no_deep p -> p <> [] -> st = StAny \/ (exists n ats ks, t = XE n ats ks /\ st = StName n) -> subtree t b = Some v -> is_element v ->
  matches (st :: p) (path_names t b) <-> b <> [] /\ matches p (names_below t b).
Proof.
  intros (n & ats & ks & ->) D N H E V. assert (X : path_names (XE n ats ks) b = n :: names_below (XE n ats ks) b) by (unfold names_below; destruct b; reflexivity). rewrite X.
  assert (O : stage_ok st n) by (destruct H as [->|(n' & ats' & ks' & [= <- _ _] & ->)]; cbn; auto). split.
  - intros M. assert (M' : matches p (names_below (XE n ats ks) b)).
    { inversion M as [|st' p' n' ns' O' M' A B|]; subst; [exact M'|]. destruct H as [H|(? & ? & ? & _ & H)]; discriminate. }
    split; [|exact M']. intros ->. apply (matches_len _ _ D) in M'. destruct p; [auto|discriminate].
  - intros (_ & M). now constructor.
Qed.
Lemma agree_below_top t p st l : is_element t -> no_alt p -> no_deep p -> p <> [] -> st = StAny \/ (exists n ats ks, t = XE n ats ks /\ st = StName n) ->
  listing t (fun a u => is_element u /\ matches (st :: p) (path_names t a)) l -> select_pattern t p = (l, false).
Proof.
  intros T NA ND NE H (S & I). destruct (select_no_deep p t NA ND NE T) as (l' & -> & L). f_equal. apply (listing_unique _ _ _ _ L). split; [exact S|].
  intros b v. rewrite I. split.
  - intros (E & V & M). apply (below_matches t p st b v T ND NE H E V) in M. tauto.
  - intros (E & NB & V & M). split; [exact E|]. split; [exact V|]. apply (below_matches t p st b v T ND NE H E V). auto.
Qed.

(** ** As texts *)
Definition stage_token (st : stage) : token := match st with StName n => Word n | _ => XGramSpec.P Star end.
Definition stage_step (st : stage) : expr := match st with StName n => EStep AxChild (TName n) | _ => EStep AxChild TStar end.
Definition stage_tokens (p : list stage) : list token := flat_map (fun st => [XGramSpec.P Slash; stage_token st]) p.
Lemma stage_path_for st : plain_stage st -> path_for [st] (stage_step st).
Proof. destruct st; cbn; try contradiction; constructor. Qed.
Lemma stage_one_step f st : one_step f [stage_token st] (stage_step st).
Proof. destruct st; constructor. Qed.
Lemma stages_path st p : plain_stage st -> Forall plain_stage p -> exists e, path true (stage_token st :: stage_tokens p) e /\ path_for (st :: p) e.
Proof.
  intros S H. induction p as [|q p IH] using rev_ind.
  - exists (stage_step st). split; [apply XGramSpec.P_step, stage_one_step|now apply stage_path_for].
  - apply Forall_app in H as (H & Q). inversion Q as [|? ? Q' _]; subst. destruct (IH H) as (e & A & B). exists (EBin e OpPath (stage_step q)). split.
    + unfold stage_tokens. rewrite flat_map_app. cbn [flat_map app].
      change (stage_token st :: flat_map (fun st => [XGramSpec.P Slash; stage_token st]) p ++ [XGramSpec.P Slash; stage_token q]) with ((stage_token st :: stage_tokens p) ++ sep false :: [stage_token q]).
      apply (XGramSpec.P_more true _ _ false); [exact A|apply stage_one_step].
    + change (st :: p ++ [q]) with ((st :: p) ++ [q]). apply pf_path; [exact B|now apply stage_path_for].
Qed.
Lemma stage_spells v st : plain_stage st -> spells (wide_digit v) (float_of v) (stage_token st) (written st).
Proof. destruct st; cbn; try contradiction; intros H; [now apply Sp_word|exact (Sp_punct _ _ Star)]. Qed.
Lemma pattern_scans v p : Forall plain_stage p -> scans (wide_digit v) (float_of v) (pattern_text p) (stage_tokens p) false.
Proof.
  intros H. induction H as [|st p S H IH]; [apply S_end; constructor|].
  change (pattern_text (st :: p)) with ((punct_text Slash ++ written st) ++ pattern_text p). rewrite <- app_assoc. apply (scans_punct v Slash).
  - destruct st as [n| | |]; cbn in S; try contradiction; [|reflexivity]. destruct (name_head n S) as (c & r & -> & _ & N47). cbn. apply negb_true_iff. now apply N.eqb_neq.
  - apply scans_token; [now apply stage_spells| |exact IH]. destruct p as [|q p]; [exact I|]. cbn. destruct st as [n| | |]; try contradiction; reflexivity.
Qed.
Lemma pattern_expression v p : Forall plain_stage p -> p <> [] -> exists e, path_for p e /\ expression v (pattern_text p) (EAbs false (Some e)).
Proof.
  intros H N. destruct p as [|st p]; [congruence|]. inversion H as [|? ? S H']; subst. destruct (stages_path st p S H') as (e & A & B). exists e. split; [exact B|].
  exists (stage_tokens (st :: p)). split; [now apply pattern_scans|]. exact (R_abs 0 false _ _ A).
Qed.
Lemma plain_stages p : Forall plain_stage p -> no_deep p /\ no_alt p.
Proof. intros H. rewrite Forall_forall in H. split; [intros I; exact (H _ I)|intros ns I; exact (H _ I)]. Qed.

(** A stream, a query of the text and treeutil. *)
Lemma agree_all h v vs tf fs k text t p s s' x r : lenient_doc text t -> Forall plain_stage p -> p <> [] -> served p s -> send_parse [p] s text s' x ->
  qquery_str h (world v vs tf fs) k text (Text (pattern_text p)) r ->
  exists l, listing t (fun a u => is_element u /\ matches p (path_names t a)) l /\ sent_since s s' 0 (map snd l) /\ r = (nodes l, Done).
Proof.
  intros D H N Sv Sp Q. destruct (plain_stages p H) as (ND & _). destruct (proj2 (stream_parse _ _ _ _ ND N Sv D) _ _ Sp) as (_ & _ & _ & l & L & Se).
  exists l. split; [exact L|]. split; [exact Se|]. destruct (pattern_expression v p H N) as (e & P & X).
  apply (qquery_document h v vs tf fs k text t _ _ D X) in Q. rewrite Q. apply (agree_top (world v vs tf fs t) k p e l); auto. exact (document_proper text t (world v vs tf fs t) D eq_refl).
Qed.
Lemma agree_select text t st p s s' x : lenient_doc text t -> no_alt p -> no_deep p -> p <> [] -> st = StAny \/ (exists n ats ks, t = XE n ats ks /\ st = StName n) ->
  served (st :: p) s -> send_parse [st :: p] s text s' x -> exists l, select_pattern t p = (l, false) /\ sent_since s s' 0 (map snd l).
Proof.
  intros D NA ND NE H Sv Sp. assert (ND' : no_deep (st :: p)). { intros [I|I]; [|exact (ND I)]. destruct H as [H|(? & ? & ? & _ & H)]; congruence. }
  destruct (proj2 (stream_parse (st :: p) _ _ _ ND' ltac:(discriminate) Sv D) _ _ Sp) as (_ & _ & _ & l & L & Se). exists l. split; [|exact Se].
  assert (T : is_element t) by (destruct (lenient_doc_elem text t D) as (n & a & ks & ->); do 3 eexists; reflexivity).
  exact (agree_below_top t p st l T NA ND NE H L).
Qed.
