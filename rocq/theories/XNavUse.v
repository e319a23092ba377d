(** Queries in a text over a document given as a text: what they select. *)
From Verif Require Import PyStr XTree Grammar Path PatternFacts XPath XPathSpec XPathFacts XPathFuel XPathExpr XPathFun XPathLast Lalr XGram XGramSpec XTok XReads XCompose XLex XLexSpec XLexFacts XText XSerial XQuery XQueryFacts XPaths.
From Verif Require Import ParserInv BuilderMore XNavSpec XNav XNavOrder XNavMain.
From Coq Require Import Sorted Permutation.

(** The attributes of an element of a document have different names. *)
Lemma lattrs_distinct text d d' : lattrs text d d' -> NoDup (map fst d) -> NoDup (map fst d').
Proof. induction 1 as [w d B|w a n v rest d d' B H L R IH]; intros N; [exact N|]. apply IH, dict_set_nodup, N. Qed.
Fixpoint distinct (t : xtree) : Prop := match t with XT _ => True | XE _ ats ks => NoDup (map fst ats) /\ fold_right (fun k r => distinct k /\ r) True ks end.
Lemma distinct_kids ks : fold_right (fun k r => distinct k /\ r) True ks <-> Forall distinct ks.
Proof. induction ks as [|k ks IH]; cbn; [split; constructor|]. rewrite IH. split; [intros []; now constructor|intros H; inversion H; auto]. Qed.
Lemma text_node_distinct v ks : Forall distinct ks -> Forall distinct (text_node v ++ ks).
Proof. destruct v; cbn; auto. intros H. constructor; [exact I|assumption]. Qed.
Lemma lenient_distinct : forall e t, lenient_elem e t -> distinct t.
Proof.
  apply (lenient_elem_mut (fun _ t => distinct t) (fun _ ks => Forall distinct ks)).
  - intros st n d content kids en S _ H _. cbn. split; [|now apply distinct_kids]. inversion S as [w n' attrs d' B N L X Y]; subst. apply (lattrs_distinct _ _ _ L). constructor.
  - intros raw v _. rewrite <- (app_nil_r (text_node v)). apply text_node_distinct. constructor.
  - intros raw v e t rest ks _ _ H _ H'. apply text_node_distinct. now constructor.
Qed.
Lemma distinct_subtree t a n ats ks : distinct t -> subtree t a = Some (XE n ats ks) -> NoDup (map fst ats).
Proof.
  revert t. induction a as [|i a IH]; intros t V E; cbn in E.
  - inversion E; subst. exact (proj1 V).
  - destruct t as [m at_ ks'|x]; [|discriminate]. destruct (nth_error ks' i) as [k|] eqn:K; [|discriminate]. apply (IH k); auto.
    cbn in V. destruct V as (_ & V). rewrite distinct_kids, Forall_forall in V. apply V. eapply nth_error_In; eassumption.
Qed.
Theorem document_proper text t w : lenient_doc text t -> doc w = t -> proper w.
Proof.
  intros H E. split; [|split].
  - destruct (lenient_doc_elem text t H) as (n & a & ks & ->). exists n, a, ks. exact E.
  - exact (document_text text t w H E).
  - intros a n ats ks Ea. rewrite E in Ea. destruct H as (w1 & e & w2 & _ & _ & _ & H). exact (distinct_subtree t a n ats ks (lenient_distinct e t H) Ea).
Qed.

(** A query over a document *)
Theorem query_nav h v vs tf fs n text t s e k : lenient_doc text t -> expression v s e -> kind_of KElem e = Some k ->
  exists ls, (forall r, qquery_str h (world v vs tf fs) n text (Text s) r <-> r = (ls, Done)) /\
    (forall d, In d ls <-> nav (world v vs tf fs t) e IRoot d) /\
    (in_line e = true -> StronglySorted (direction (world v vs tf fs t) e) ls) /\ (once e = true -> NoDup ls).
Proof.
  intros D X K. set (w := world v vs tf fs t). assert (W : proper w) by exact (document_proper text t w D eq_refl).
  assert (R : of_kind w KElem IRoot) by (left; reflexivity). destruct (nav_result w n W e KElem k IRoot K R) as (ls & E & I & _).
  exists ls. split; [|split; [exact I|split]].
  - intros r. rewrite (qquery_document h v vs tf fs n text t s e D X). fold w. rewrite E. reflexivity.
  - intros O. pose proof (nav_line w n W e KElem k IRoot O K R) as S. rewrite E in S. exact S.
  - intros O. pose proof (nav_once w n W e KElem k IRoot O K R) as S. rewrite E in S. exact S.
Qed.

(** A check on a tree. *)
Lemma check_proper w : match doc w with XE _ _ _ => true | _ => false end = true ->
  forallb (fun p => match snd p with XE _ ats _ => (length (nodup (list_eq_dec N.eq_dec) (map fst ats)) =? length ats)%nat | XT s => negb (str_eqb s []) end) (all_nodes (doc w)) = true -> proper w.
Proof.
  intros E H. rewrite forallb_forall in H. split; [|split].
  - destruct (doc w) as [m ats ks|s] eqn:X; [|discriminate]. exists m, ats, ks. exact X.
  - intros a s Ha ->. apply all_nodes_in in Ha. apply H in Ha. discriminate.
  - intros a n ats ks Ha. apply all_nodes_in in Ha. apply H in Ha. cbn [snd] in Ha. apply Nat.eqb_eq in Ha. apply NoDup_incl_NoDup with (l := nodup (list_eq_dec N.eq_dec) (map fst ats)).
    + apply NoDup_nodup.
    + rewrite map_length. lia.
    + intros x Hx. exact (proj1 (nodup_In _ _ _) Hx).
Qed.
(** [//n[@k='x']] *)
Definition attr_query (n k x : str) : str := lit "//" ++ n ++ lit "[@" ++ k ++ lit "='" ++ x ++ lit "']".
Definition attr_expr (n k x : str) : expr := EPred (EAbs true (Some (EStep AxChild (TName n)))) [EBin (EStep AxAttribute (TName k)) OpEq (ELit (LStr x))].
Lemma attr_query_text v n k x : XLexSpec.name n -> XLexSpec.name k -> ~ In 39%N x -> expression v (attr_query n k x) (attr_expr n k x).
Proof.
  intros Hn Hk Hx. exists [P Slashes; Word n; P LBrk; P At; Word k; P Eq_; Quoted x; P RBrk]. split.
  - unfold attr_query.
    change (lit "//" ++ n ++ lit "[@" ++ k ++ lit "='" ++ x ++ lit "']") with (punct_text Slashes ++ n ++ punct_text LBrk ++ punct_text At ++ k ++ punct_text Eq_ ++ (39%N :: x ++ [39%N; 93%N])).
    replace (x ++ [39%N; 93%N]) with ((x ++ [39%N]) ++ punct_text RBrk ++ []) by (rewrite <- app_assoc; reflexivity).
    apply (scans_punct v Slashes); [destruct n; reflexivity|]. apply scans_token; [now apply Sp_word|reflexivity|].
    apply (scans_punct v LBrk); [reflexivity|]. apply (scans_punct v At); [destruct k; reflexivity|]. apply scans_token; [now apply Sp_word|reflexivity|].
    apply (scans_punct v Eq_); [reflexivity|]. change (39%N :: (x ++ [39%N]) ++ punct_text RBrk ++ []) with ((39%N :: x ++ [39%N]) ++ punct_text RBrk ++ []).
    apply scans_token; [apply Sp_quoted; [right; reflexivity|exact Hx]|reflexivity|]. apply (scans_punct v RBrk); [exact I|]. apply S_end. constructor.
  - apply (R_pred [P Slashes; Word n] [P LBrk; P At; Word k; P Eq_; Quoted x; P RBrk]); [apply (R_abs 0 true), XGramSpec.P_step, S_name|reflexivity|].
    apply (Ps_one [P At; Word k; P Eq_; Quoted x]). apply (R_bin 0 [P At; Word k] (P Eq_) OpEq [Quoted x]); [reflexivity|cbn; lia|apply R_path, XGramSpec.P_step, S_attr, T_name|reflexivity|apply R_str].
Qed.
Lemma name_not_star n : XLexSpec.name n -> str_eqb n (lit "*") = false.
Proof.
  intros H. destruct (str_eqb n (lit "*")) eqn:E; [|reflexivity]. apply str_eqb_eq in E. destruct (name_head n H) as (c & r & E' & S & _). rewrite E in E'. injection E' as <- _. discriminate.
Qed.
Lemma attr_is w k c d : goes w AxAttribute (TName k) c d <-> exists a m ats ks v, c = INode a /\ subtree (doc w) a = Some (XE m ats ks) /\ In (k, v) ats /\ d = IAttr a k v Made.
Proof.
  split.
  - intros G. inversion G as [| | | | | | | | | | | |t' a m ats ks q v E H T]; subst. destruct T as [T|T]; [discriminate|]. injection T as ->. exists a, m, ats, ks, v. auto.
  - intros (a & m & ats & ks & v & -> & E & H & ->). eapply go_attr; [exact E|exact H|right; reflexivity].
Qed.
Theorem attribute_query h v vs tf fs i text t n k x : lenient_doc text t -> XLexSpec.name n -> XLexSpec.name k -> ~ In 39%N x ->
  exists l out, listing t (fun _ u => exists ats ks, u = XE n ats ks /\ In (k, x) ats) l /\ Permutation out (nodes l) /\
    forall r, qquery_str h (world v vs tf fs) i text (Text (attr_query n k x)) r <-> r = (out, Done).
Proof.
  intros D Hn Hk Hx. set (w := world v vs tf fs t).
  assert (K : kind_of KElem (attr_expr n k x) = Some KElem).
  { cbn [attr_expr kind_of just_node no_value is_value step_kind tested]. rewrite (name_not_star k Hk). reflexivity. }
  destruct (query_nav h v vs tf fs i text t _ _ _ D (attr_query_text v n k x Hn Hk Hx) K) as (out & Q & I & _ & N). fold w in I. specialize (N eq_refl).
  set (l := filter (fun p => match snd p with XE m ats ks => str_eqb m n && existsb (fun kv => str_eqb (fst kv) k && str_eqb (snd kv) x) ats | XT _ => false end) (all_nodes t)).
  assert (L : listing t (fun _ u => exists ats ks, u = XE n ats ks /\ In (k, x) ats) l).
  { split; [apply filter_sorted, all_nodes_sorted|]. intros a u. unfold l. rewrite filter_In, all_nodes_in. cbn [snd]. split; intros (A & B); (split; [exact A|]).
    - destruct u as [m ats ks|y]; [|discriminate]. apply andb_prop in B as (B & C). apply str_eqb_eq in B as ->. apply existsb_exists in C as ((k' & x') & C & F). cbn [fst snd] in F.
      apply andb_prop in F as (F & G). apply str_eqb_eq in F as ->. apply str_eqb_eq in G as ->. eauto.
    - destruct B as (ats & ks & -> & B). rewrite str_eqb_refl. apply existsb_exists. exists (k, x). split; [exact B|]. cbn [fst snd]. rewrite !str_eqb_refl. reflexivity. }
  exists l, out. split; [exact L|]. split; [|exact Q].
  apply NoDup_Permutation; [exact N|apply (sorted_nodup (precedes w)); [intros y _; apply (precedes_irrefl w (document_proper text t w D eq_refl))|exact (sorted_nodes w _ l L)]|].
  intros d. rewrite I. split.
  - intros H. apply nav_pred_all in H as (H & P). cbn [nav] in H. destruct H as (i0 & Ti & G). specialize (P _ (or_introl eq_refl)) as (j & J & Nj). cbn [nav] in J.
    destruct J as [(-> & y & t0 & (A & _) & -> & V)|(-> & _)]; [cbn [related equal] in V|destruct Nj; congruence]. apply attr_is in A as (a & m & ats & ks & v0 & Ed & Es & Hi & Ey). rewrite Ey in V. inversion V; subst v0 y. clear V. rewrite Ed in *. clear d Ed. inversion G as [|t' c' b u E C Pu| | | | | | | | | | |]; subst.
    apply nodes_in. exists a, u. split; [reflexivity|]. apply L. split; [exact E|]. rewrite E in Es. injection Es as ->. destruct Pu as (a' & ks' & Pu). injection Pu as -> -> ->. eauto.
  - intros H. apply nodes_in in H as (b & u & -> & H). apply L in H as (E & ats & ks & -> & Hi). apply nav_pred_all. split.
    + cbn [nav]. assert (C : exists c, tree_item w c /\ child_of c b).
      { destruct (last_index b) as [->|(p & j & ->)]; [exists IRoot; split; [exact Logic.I|reflexivity]|]. exists (INode p). split; [|exists j; reflexivity].
        rewrite subtree_app in E. destruct (subtree t p) as [z|] eqn:Ez; [|discriminate]. exists z. exact Ez. }
      destruct C as (c & Tc & C). exists c. split; [exact Tc|]. eapply go_child; [exact E|exact C|]. exists ats, ks. reflexivity.
    + intros p [<-|[]]. exists (IBool true). split; [|split; [discriminate|split; discriminate]]. cbn [nav]. left. split; [reflexivity|]. exists (IAttr b k x Made), (IStr x). split; [|split; [reflexivity|constructor]].
      assert (A : forall j, goes w AxAttribute (TName k) (INode b) j <-> j = IAttr b k x Made).
      { intros j. rewrite attr_is. split.
        - intros (a & m & ats' & ks' & v0 & Ed & Es & Hj & ->). injection Ed as <-. change (doc w) with t in Es. rewrite E in Es. injection Es as <- <- <-.
          rewrite (nodup_fst ats k v0 x); [reflexivity|exact (proj2 (proj2 (document_proper text t w D eq_refl)) b n ats ks E)|exact Hj|exact Hi].
        - intros ->. exists b, n, ats, ks, x. auto. }
      split; [apply A; reflexivity|]. intros j Hj. left. apply A. exact Hj.
Qed.
