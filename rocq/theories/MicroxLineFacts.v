(** Lines of microx --find-text as expressions. *)
From Coq Require Import Lia Sorted ZArith.
From Verif Require Import PyStr XTree Path TreeFacts XPath XPathSpec XPathFacts XPathFuel XPathFun XPathLast Lalr XGram XGramSpec XLex XLexSpec XText XSerial XQuery XQueryFacts XPaths Microx MicroxSpec MicroxFacts XClosedSpec MicroxLineSpec.
From Verif Require ParserInv XClosedFacts XLawsSpec XLawsFacts.

Notation pstep := (str * list (str * str))%type (only parsing).
Definition kv_text (kv : str * str) : str := lit "[@" ++ fst kv ++ lit "=""" ++ snd kv ++ lit """]".
Definition step_text (p : pstep) : str := fst p ++ flat_map kv_text (snd p).
Definition steps_text (p : pstep) (ps : list pstep) : str := step_text p ++ flat_map (fun q => 47%N :: step_text q) ps.
Definition kv_tokens (kv : str * str) : list token := [P LBrk; P At; Word (fst kv); P Eq_; Quoted (snd kv); P RBrk].
Definition step_tokens (p : pstep) : list token := Word (fst p) :: flat_map kv_tokens (snd p).
Definition steps_tokens (p : pstep) (ps : list pstep) : list token := step_tokens p ++ flat_map (fun q => P Slash :: step_tokens q) ps.
Definition okv (kv : str * str) : Prop := name (fst kv) /\ ~ In 34%N (snd kv).
Definition okp (p : pstep) : Prop := name (fst p) /\ Forall okv (snd p).

(** ** Tokens *)
Section Text.
  Variable v : lexenv.
  Notation scans := (scans (wide_digit v) (float_of v)).
  Definition soft (r : str) : Prop := match r with [] => True | c :: _ => c = 47%N \/ c = 91%N end.
  Lemma soft_word n r : soft r -> free v (Word n) r.
  Proof. destruct r as [|c r]; cbn; [auto|]. intros [-> | ->]; reflexivity. Qed.
  Lemma free_head k c r : can_follow v k c = true -> free v k (c :: r).
  Proof. auto. Qed.
  Lemma free_any k r : (forall c, can_follow v k c = true) -> free v k r.
  Proof. destruct r; cbn; auto. Qed.
  Lemma kv_scans kv r l : okv kv -> scans r l false -> scans (kv_text kv ++ r) (kv_tokens kv ++ l) false.
  Proof.
    intros (N & Q) H. destruct kv as [k x]. cbn [fst snd] in *. unfold kv_text, kv_tokens. cbn [fst snd app].
    replace ((lit "[@" ++ k ++ lit "=""" ++ x ++ lit """]") ++ r) with (punct_text LBrk ++ punct_text At ++ k ++ punct_text Eq_ ++ (34%N :: x ++ [34%N]) ++ punct_text RBrk ++ r).
    2: { cbn [punct_text lit app]. rewrite <- !app_assoc. cbn. rewrite <- !app_assoc. reflexivity. }
    apply (scans_punct v LBrk); [apply free_any; reflexivity|]. apply (scans_punct v At); [apply free_any; reflexivity|].
    apply scans_token; [now apply Sp_word|reflexivity|]. apply (scans_punct v Eq_); [apply free_any; reflexivity|].
    apply scans_token; [apply Sp_quoted; auto|apply free_any; reflexivity|]. apply (scans_punct v RBrk); [apply free_any; reflexivity|exact H].
  Qed.
  Lemma kvs_scans kvs r l : Forall okv kvs -> scans r l false -> scans (flat_map kv_text kvs ++ r) (flat_map kv_tokens kvs ++ l) false.
  Proof. intros H S. induction H as [|kv kvs H1 H2 IH]; cbn [flat_map app]; [exact S|]. rewrite <- !app_assoc. now apply kv_scans. Qed.
  Lemma kvs_soft kvs r : soft r -> soft (flat_map kv_text kvs ++ r).
  Proof. destruct kvs; cbn; auto. Qed.
  Lemma step_scans p r l : okp p -> soft r -> scans r l false -> scans (step_text p ++ r) (step_tokens p ++ l) false.
  Proof.
    intros (N & K) S H. unfold step_text, step_tokens. rewrite <- app_assoc. cbn [app]. apply scans_token; [now apply Sp_word|apply soft_word, kvs_soft, S|]. now apply kvs_scans.
  Qed.
  Lemma more_scans ps : Forall okp ps -> scans (flat_map (fun q => 47%N :: step_text q) ps) (flat_map (fun q => P Slash :: step_tokens q) ps) false.
  Proof.
    intros H. induction H as [|p ps H1 H2 IH]; cbn [flat_map app]; [apply S_end; constructor|].
    change (47%N :: step_text p ++ ?x) with (punct_text Slash ++ (step_text p ++ x)). apply (scans_punct v Slash).
    - destruct H1 as (N & _). unfold step_text. destruct (name_head (fst p) N) as (c & r & -> & _ & C). cbn. apply negb_true_iff. now apply N.eqb_neq.
    - apply step_scans; [exact H1| |exact IH]. destruct ps; cbn; auto.
  Qed.
  Lemma steps_scans p ps : okp p -> Forall okp ps -> scans (steps_text p ps) (steps_tokens p ps) false.
  Proof. intros H H'. apply step_scans; [exact H| |now apply more_scans]. destruct ps; cbn; auto. Qed.
End Text.

(** ** Reading *)
Definition cond (kv : str * str) : expr := EBin (EStep AxAttribute (TName (fst kv))) OpEq (ELit (LStr (snd kv))).
Definition with_conds (e : expr) (kvs : list (str * str)) : expr := match kvs with [] => e | _ => EPred e (map cond kvs) end.
Definition lined (p : pstep) (ps : list pstep) : expr :=
  fold_left (fun e q => with_conds (EBin e OpPath (name_step (fst q))) (snd q)) ps (with_conds (name_step (fst p)) (snd p)).
Definition opened (ts : list token) (e : expr) : Prop :=
  path false ts e \/ exists l ts' a p, ts = l ++ P Slash :: ts' /\ e = EBin a OpPath p /\ reads 0 l a /\ ends_in_path a = false /\ path true ts' p /\ nodes_only a = true /\ nodes_only p = true.
Definition good (ts : list token) (e : expr) : Prop :=
  nodes_only e = true /\ (opened ts e \/ exists l a ps es, ts = l ++ ps /\ e = EPred a es /\ opened l a /\ predicates ps es).
Lemma path_plain f ts e : path f ts e -> is_predicated e = false.
Proof. intros H. destruct H as [f ts e H|f ts e d ts' e' H H']; [|reflexivity]. now destruct H. Qed.
Lemma opened_plain ts e : opened ts e -> is_predicated e = false.
Proof. intros [H|(l & ts' & a & p & _ & -> & _)]; [now apply (path_plain false ts)|reflexivity]. Qed.
Lemma opened_reads ts e : opened ts e -> reads 0 ts e.
Proof. intros [H|(l & ts' & a & p & -> & -> & R & E & H & _)]; [now apply R_path|]. now apply (R_step l false ts' a p). Qed.
Lemma good_reads ts e : good ts e -> reads 0 ts e.
Proof. intros (_ & [H|(l & a & ps & es & -> & -> & H & Ps)]); [now apply opened_reads|]. apply R_pred; [now apply opened_reads|now apply (opened_plain l)|exact Ps]. Qed.
Lemma cond_reads kv : reads 0 [P At; Word (fst kv); P Eq_; Quoted (snd kv)] (cond kv).
Proof.
  apply (R_bin 0 [P At; Word (fst kv)] (P Eq_) OpEq [Quoted (snd kv)]); [reflexivity|cbn; lia| |reflexivity|apply R_str]. apply R_path, P_step, S_attr, T_name.
Qed.
Lemma conds_read kv kvs : predicates (flat_map kv_tokens (kv :: kvs)) (map cond (kv :: kvs)).
Proof.
  revert kv. induction kvs as [|kv' kvs IH]; intros kv; cbn [flat_map map app kv_tokens].
  - apply (Ps_one [P At; Word (fst kv); P Eq_; Quoted (snd kv)]), cond_reads.
  - apply (Ps_more [P At; Word (fst kv); P Eq_; Quoted (snd kv)] _ (flat_map kv_tokens (kv' :: kvs))); [apply cond_reads|]. apply IH.
Qed.
Lemma good_conds ts e kvs : opened ts e -> nodes_only e = true -> good (ts ++ flat_map kv_tokens kvs) (with_conds e kvs).
Proof.
  intros O N. destruct kvs as [|kv kvs]; cbn [with_conds].
  - cbn [flat_map]. rewrite app_nil_r. split; [exact N|now left].
  - split; [exact N|]. right. exists ts, e, (flat_map kv_tokens (kv :: kvs)), (map cond (kv :: kvs)). split; [reflexivity|]. split; [reflexivity|]. split; [exact O|apply conds_read].
Qed.

Section Meaning.
  Variable w : env.
  Hypothesis full : no_empty_text w.
  Notation alike := (XLawsSpec.alike_at_nodes w).
  Lemma alike_path e e' r : alike e e' -> alike (EBin e OpPath r) (EBin e' OpPath r).
  Proof. intros H n c C. rewrite !eval_bin. cbn [binary]. now rewrite (H n c C). Qed.
  Lemma alike_conds e e' kvs : alike e e' -> alike (with_conds e kvs) (with_conds e' kvs).
  Proof. intros H. destruct kvs; [exact H|]. intros n c C. cbn [with_conds]. rewrite !eval_pred. now rewrite (H n c C). Qed.
  Lemma good_step ts e e0 n : good ts e -> alike e e0 ->
    exists e', opened (ts ++ [P Slash; Word n]) e' /\ nodes_only e' = true /\ alike e' (EBin e0 OpPath (name_step n)).
  Proof.
    intros (N & [[H|(l & ts' & a & p & -> & -> & R & E & H & Na & Np)]|(l & a & ps & es & -> & -> & O & Ps)]) A.
    - exists (EBin e OpPath (name_step n)). split; [left; apply (P_more false ts e false [Word n]); [exact H|apply S_name]|]. split; [cbn; now rewrite N|]. now apply alike_path.
    - exists (EBin a OpPath (EBin p OpPath (name_step n))). split; [|split].
      + right. exists l, (ts' ++ [P Slash; Word n]), a, (EBin p OpPath (name_step n)). split; [now rewrite <- app_assoc|]. split; [reflexivity|]. split; [exact R|]. split; [exact E|].
        split; [apply (P_more true ts' p false [Word n]); [exact H|apply S_name]|]. split; [exact Na|]. cbn. now rewrite Np.
      + cbn. now rewrite Na, Np.
      + intros k c C. rewrite <- (alike_path _ _ (name_step n) A k c C). symmetry. exact (XLawsFacts.assoc w full XLawsSpec.path a p (name_step n) Na Np (or_introl eq_refl) k c C).
    - exists (EBin (EPred a es) OpPath (name_step n)). split; [|split; [cbn in *; now rewrite N|now apply alike_path]].
      right. exists (l ++ ps), [Word n], (EPred a es), (name_step n). split; [reflexivity|]. split; [reflexivity|].
      split; [apply R_pred; [now apply opened_reads|now apply (opened_plain l)|exact Ps]|]. split; [reflexivity|]. split; [apply P_step, S_name|]. split; [exact N|reflexivity].
  Qed.
  Lemma lined_good p ps : exists e, good (steps_tokens p ps) e /\ alike e (lined p ps).
  Proof.
    induction ps as [|q ps IH] using rev_ind.
    - exists (with_conds (name_step (fst p)) (snd p)). split; [|intros n c C; reflexivity]. unfold steps_tokens, step_tokens. cbn [flat_map]. rewrite app_nil_r.
      change (Word (fst p) :: flat_map kv_tokens (snd p)) with ([Word (fst p)] ++ flat_map kv_tokens (snd p)). apply good_conds; [left; apply P_step, S_name|reflexivity].
    - destruct IH as (e & G & A). destruct (good_step _ _ _ (fst q) G A) as (e' & O & N & A'). exists (with_conds e' (snd q)). split.
      + replace (steps_tokens p (ps ++ [q])) with ((steps_tokens p ps ++ [P Slash; Word (fst q)]) ++ flat_map kv_tokens (snd q)); [now apply good_conds|].
        unfold steps_tokens. rewrite flat_map_app. cbn [flat_map]. rewrite app_nil_r. unfold step_tokens at 4. rewrite <- !app_assoc. reflexivity.
      + unfold lined. rewrite fold_left_app. cbn [fold_left]. now apply alike_conds.
  Qed.
End Meaning.

(** ** What is selected *)
Definition holds (u : xtree) (kv : str * str) : bool :=
  match u with XE _ ats _ => match dict_get ats (fst kv) with Some x => str_eqb x (snd kv) | None => false end | XT _ => false end.
Section Selected.
  Variable w : env.
  Notation D := (doc w).
  Lemma key_first k (ats : dict str) : match filter (fun kv => str_eqb k (fst kv)) ats with [] => None | kv :: _ => Some (snd kv) end = dict_get ats k.
  Proof.
    induction ats as [|[k' x] ats IH]; cbn [filter dict_get fst]; [reflexivity|]. destruct (str_eqb k k') eqn:E.
    - apply ParserInv.str_eqb_eq in E as ->. now rewrite ParserInv.str_eqb_refl.
    - destruct (str_eqb k' k) eqn:E'; [|exact IH]. apply ParserInv.str_eqb_eq in E' as ->. now rewrite ParserInv.str_eqb_refl in E.
  Qed.
  Lemma cond_eval n a m ats ks kv : subtree D a = Some (XE m ats ks) -> fst kv <> lit "*" -> eval w n (cond kv) (INode a) = ([IBool (holds (XE m ats ks) kv)], Done).
  Proof.
    intros E S. unfold cond. rewrite eval_bin. cbn [binary]. unfold right_of. rewrite eval_step, eval_lit. cbn [step]. unfold node_at. rewrite E. cbn [test_name].
    rewrite (filter_ext (fun kv0 : str * str => str_eqb (fst kv) (lit "*") || str_eqb (fst kv) (fst kv0)) (fun kv0 => str_eqb (fst kv) (fst kv0)))
      by (intros; destruct (str_eqb (fst kv) (lit "*")) eqn:X; [apply ParserInv.str_eqb_eq in X; contradiction|reflexivity]).
    cbn [holds]. rewrite <- (key_first (fst kv) ats). destruct (filter _ ats) as [|[k x] l]; [reflexivity|]. cbn [map equality fst snd yield1 lit_item eq_scan is_node plain node_value].
    unfold py_eq. cbn. destruct (str_eqb x (snd kv)); reflexivity.
  Qed.
  Lemma conds_verdict n a m ats ks kvs pos : subtree D a = Some (XE m ats ks) -> Forall (fun kv => fst kv <> lit "*") kvs ->
    verdict_of w pos (INode a) (map (eval w n) (map cond kvs)) = if forallb (holds (XE m ats ks)) kvs then VKeep else VDrop.
  Proof.
    intros E H. induction H as [|kv kvs H1 H2 IH]; cbn [map verdict_of forallb]; [reflexivity|]. rewrite (cond_eval n a m ats ks kv E H1). cbn [number_of to_boolean as_str is_node truthy].
    destruct (holds (XE m ats ks) kv); cbn; [exact IH|reflexivity].
  Qed.
  Lemma conds_selects n e (kvs : list (str * str)) (Q : addr -> xtree -> Prop) : Forall (fun kv => fst kv <> lit "*") kvs -> (forall a u, Q a u -> is_element u) -> selects w Q (eval w n e IRoot) ->
    selects w (fun a u => Q a u /\ forallb (holds u) kvs = true) (eval w n (with_conds e kvs) IRoot).
  Proof.
    intros S U (l & L & E). exists (filter (fun x => forallb (holds (snd x)) kvs) l). split; [apply (listing_filter D Q l _ (fun _ u => forallb (holds u) kvs = true) L); intros; reflexivity|].
    destruct kvs as [|kv kvs]; cbn [with_conds]; [rewrite filter_true; [exact E|intros; reflexivity]|].
    rewrite eval_pred, E. cbn [fst snd]. assert (A : Forall (fun x => subtree D (fst x) = Some (snd x) /\ is_element (snd x)) l).
    { apply Forall_forall. intros [a u] H. apply (proj2 L) in H as (H & H'). split; [exact H|]. exact (U a u H'). }
    clear E L. pose proof (fun a m ats ks pos E => conds_verdict n a m ats ks (kv :: kvs) pos E S) as V. revert V. generalize (map (eval w n) (map cond (kv :: kvs))) as ps. intros ps V. generalize 1 as pos. induction A as [|[a u] l (A1 & m & ats & ks & A2) A3 IH]; intros pos; cbn [nodes map predicated]; [reflexivity|]. cbn [fst snd] in *. subst u.
    replace (copy w IRoot (INode a)) with (INode a). 2: { unfold copy. cbn [truthy]. unfold text_at, node_at. now rewrite A1. }
    rewrite (V a m ats ks pos A1). change (map (fun x => INode (fst x)) l) with (nodes l). rewrite IH. cbn [filter snd]. destruct (forallb (holds (XE m ats ks)) (kv :: kvs)); reflexivity.
  Qed.
  Lemma step_selects n e m d (Q : addr -> xtree -> Prop) : (forall a u, Q a u -> is_element u /\ length a = d) -> selects w Q (eval w n e IRoot) ->
    selects w (fun b u => exists a i x, b = a ++ [i] /\ subtree D a = Some x /\ Q a x /\ passes (TName m) u) (eval w n (EBin e OpPath (name_step m)) IRoot).
  Proof.
    intros U (l & (Sl & Il) & El).
    assert (G : exists groups, Forall2 (fun x g => listing D (fun b u => (exists i, b = fst x ++ [i]) /\ passes (TName m) u) g /\ eval w n (name_step m) (INode (fst x)) = (nodes g, Done)) l groups).
    { assert (A : Forall (fun x => subtree D (fst x) = Some (snd x)) l) by (apply Forall_forall; intros [a u] H; now apply Il in H).
      clear - A. induction A as [|[a u] l E _ (groups & IH)]; [exists []; constructor|]. assert (TI : tree_item w (INode a)) by (exists u; exact E).
      destruct (child_axis w n (TName m) (INode a) TI (or_introl eq_refl)) as (g & Lg & Eg). exists (g :: groups). constructor; [|assumption]. split; [exact Lg|]. unfold name_step. rewrite eval_step. exact Eg. }
    destruct G as (groups & G). exists (concat groups). split.
    - assert (C : listing D (fun b u => (exists a i, In a (map fst l) /\ b = a ++ [i]) /\ passes (TName m) u) (concat groups)).
      { apply (children_listing D (fun _ u => passes (TName m) u) d); auto.
        - apply Forall_forall. intros [a u] H. apply Il in H as (_ & H). exact (proj2 (U a u H)).
        - clear - G. induction G as [|x g l groups (H & _) _ IH]; constructor; auto. }
      destruct C as (CS & CI). split; [exact CS|]. intros b u. rewrite CI. split.
      + intros (E & (a & i & Ha & ->) & T). split; [exact E|]. apply in_map_iff in Ha as ([a' x] & <- & Ha). apply Il in Ha as (Ea & Q'). exists a', i, x. auto.
      + intros (E & a & i & x & -> & Ea & Q' & T). split; [exact E|]. split; [|exact T]. exists a, i. split; [|reflexivity]. apply in_map_iff. exists (a, x). split; [reflexivity|]. apply Il. auto.
    - rewrite (path_eq w n _ _ IRoot (nodes l) (map nodes groups) El).
      + unfold nodes. rewrite concat_map. reflexivity.
      + assert (A : Forall (fun x => subtree D (fst x) = Some (snd x) /\ is_element (snd x)) l).
        { apply Forall_forall. intros [a u] H. apply Il in H as (H & H'). split; [exact H|]. exact (proj1 (U a u H')). }
        clear - G A. induction G as [|x g l groups (_ & H) _ IH]; cbn [nodes map]; [constructor|]. inversion A as [|y z (A1 & A2) A3]; subst.
        constructor; [|now apply IH]. exists (INode (fst x)). split; [left; split; [eapply element_true; eassumption|reflexivity]|exact H].
  Qed.
  Definition fits (p : pstep) (x : option xtree) : Prop := exists ats ks, x = Some (XE (fst p) ats ks) /\ forallb (holds (XE (fst p) ats ks)) (snd p) = true.
  Definition fit (ps : list pstep) (b : addr) : Prop := length ps = S (length b) /\ forall k p, nth_error ps k = Some p -> fits p (subtree D (firstn k b)).
  Lemma fit_length ps b : fit ps b -> length ps = S (length b).
  Proof. intros (H & _). exact H. Qed.
  Lemma fit_element ps b u : fit ps b -> subtree D b = Some u -> is_element u.
  Proof.
    intros (L & F) E. destruct (nth_error ps (length b)) as [p|] eqn:N; [|apply nth_error_None in N; lia]. apply F in N as (ats & ks & X & _). rewrite firstn_all, E in X. injection X as ->. do 3 eexists. reflexivity.
  Qed.
  Lemma fit_snoc ps q a i u : subtree D (a ++ [i]) = Some u -> (fit (ps ++ [q]) (a ++ [i]) <-> fit ps a /\ fits q (Some u)).
  Proof.
    intros E. unfold fit. rewrite !app_length. cbn [length]. split.
    - intros (L & F). assert (L' : length ps = S (length a)) by lia. split; [split; [exact L'|]|].
      + intros k p N. assert (K : k < length ps) by (apply nth_error_Some; congruence). specialize (F k p). rewrite nth_error_app1 in F by exact K. specialize (F N).
        rewrite firstn_app in F. replace (k - length a) with 0 in F by lia. cbn [firstn] in F. now rewrite app_nil_r in F.
      + specialize (F (length ps) q). rewrite nth_error_app2, PeanoNat.Nat.sub_diag in F by lia. specialize (F eq_refl). rewrite L' in F. rewrite firstn_all2 in F by (rewrite app_length; cbn; lia). now rewrite E in F.
    - intros ((L & F) & Q). split; [lia|]. intros k p N. destruct (PeanoNat.Nat.lt_ge_cases k (length ps)) as [K|K].
      + rewrite nth_error_app1 in N by exact K. rewrite firstn_app. replace (k - length a) with 0 by lia. cbn [firstn]. rewrite app_nil_r. now apply F.
      + rewrite nth_error_app2 in N by exact K. destruct (k - length ps) as [|z] eqn:Z; [|destruct z; discriminate]. injection N as <-. rewrite firstn_all2 by (rewrite app_length; cbn; lia). now rewrite E.
  Qed.
  Lemma lined_selects n p ps : Forall (fun q : pstep => Forall (fun kv => fst kv <> lit "*") (snd q)) (p :: ps) ->
    selects w (fun b _ => fit (p :: ps) b) (eval w n (lined p ps) IRoot).
  Proof.
    induction ps as [|q ps IH] using rev_ind; intros S.
    - unfold lined. cbn [fold_left]. apply Forall_inv in S. pose proof (child_axis w n (TName (fst p)) IRoot I (or_introl eq_refl)) as H. unfold name_step at 1.
      assert (H' : selects w (fun b u => child_of IRoot b /\ child_passes (TName (fst p)) u) (eval w n (name_step (fst p)) IRoot)) by (unfold name_step; rewrite eval_step; exact H).
      apply (conds_selects n _ (snd p)) in H'; [|exact S|intros a u (_ & at_ & ks & ->); do 3 eexists; reflexivity]. revert H'. apply selects_ext. intros a u E. cbn [child_of child_passes passes]. split.
      + intros ((-> & ats & ks & ->) & C). split; [reflexivity|]. intros [|k] p' N; [|destruct k; discriminate]. injection N as <-. exists ats, ks. cbn. cbn in E. split; [exact E|exact C].
      + intros (L & F). cbn in L. destruct a; [|discriminate]. specialize (F 0 p eq_refl). destruct F as (ats & ks & X & C). cbn in X, E. rewrite E in X. injection X as ->. split; [split; [reflexivity|eauto]|exact C].
    - rewrite app_comm_cons in S. apply Forall_app in S as (S1 & S2). apply Forall_inv in S2. specialize (IH S1). unfold lined. rewrite fold_left_app. cbn [fold_left]. fold (lined p ps).
      assert (IH' : selects w (fun b u => fit (p :: ps) b /\ is_element u) (eval w n (lined p ps) IRoot)) by (revert IH; apply selects_ext; intros a u E; split; [intros F; split; [exact F|exact (fit_element _ _ _ F E)]|tauto]).
      apply (step_selects n _ (fst q) (length ps)) in IH'; [|intros a u (F & U); split; [exact U|apply fit_length in F; cbn in F; lia]].
      apply (conds_selects n _ (snd q)) in IH'; [|exact S2|intros b u (a & i & x & _ & _ & _ & ats & ks & ->); do 3 eexists; reflexivity].
      revert IH'. apply selects_ext. intros b u E. change (p :: ps ++ [q]) with ((p :: ps) ++ [q]). split.
      + intros ((a & i & x & -> & Ea & (F & _) & ats & ks & ->) & C). apply (fit_snoc _ _ _ _ _ E). split; [exact F|]. exists ats, ks. auto.
      + intros F. destruct b as [|i a _] using rev_ind; [apply fit_length in F; rewrite app_length in F; cbn in F; lia|]. apply (fit_snoc _ _ _ _ _ E) in F as (F & ats & ks & X & C). injection X as ->.
        split; [|exact C]. pose proof E as E'. rewrite subtree_app in E'. destruct (subtree D a) as [x|] eqn:Ea; [|discriminate]. exists a, i, x. split; [reflexivity|]. split; [exact Ea|]. split; [split; [exact F|exact (fit_element _ _ _ F Ea)]|]. cbn. eauto.
  Qed.
End Selected.

(** ** The line *)
Section Line.
  Variable w : env.
  Notation D := (doc w).
  Variable show : list str.
  Definition kvs_of (ats : dict str) : list (str * str) := flat_map (fun k => match dict_get ats k with Some x => [(k, x)] | None => [] end) show.
  Definition step_of (t : option xtree) : pstep := match t with Some (XE n ats _) => (n, kvs_of ats) | _ => ([], []) end.
  Definition steps_of (a : addr) : list pstep := map (fun k => step_of (subtree D (firstn k a))) (seq 0 (length a)).
  Lemma step_of_text t : step_text (step_of t) = step_line show t.
  Proof.
    destruct t as [[n ats ks|s]|]; try reflexivity. cbn [step_of step_line]. unfold step_text. cbn [fst snd]. f_equal. unfold kvs_of. generalize show as l. intros l. induction l as [|k l IH]; cbn [flat_map]; [reflexivity|].
    rewrite flat_map_app, IH. f_equal. unfold shown. destruct (dict_get ats k); [|reflexivity]. cbn [flat_map]. rewrite app_nil_r. reflexivity.
  Qed.
  Lemma slashed_text p ps s : slashed (map step_text (p :: ps)) s -> s = steps_text p ps.
  Proof.
    revert p s. induction ps as [|q ps IH]; intros p s H; cbn [map] in H; inversion H as [|x|x y l s' H']; subst.
    - unfold steps_text. cbn [flat_map]. now rewrite app_nil_r.
    - apply (IH q) in H' as ->. unfold steps_text. cbn [flat_map app]. reflexivity.
  Qed.
  Lemma kvs_in ats k x : In (k, x) (kvs_of ats) <-> In k show /\ dict_get ats k = Some x.
  Proof.
    unfold kvs_of. rewrite in_flat_map. split.
    - intros (k' & K & H). destruct (dict_get ats k') eqn:E; [|contradiction]. destruct H as [[= -> ->]|[]]. auto.
    - intros (K & E). exists k. split; [exact K|]. rewrite E. now left.
  Qed.
  Lemma name_star k : name k -> k <> lit "*".
  Proof. intros N ->. destruct (name_head (lit "*") N) as (c & r & E & B & _). cbn in E. injection E as <- <-. vm_compute in B. discriminate. Qed.
  Lemma prefix_element a u k : subtree D a = Some u -> k < length a -> exists n ats ks, subtree D (firstn k a) = Some (XE n ats ks).
  Proof.
    intros E K. rewrite <- (firstn_skipn k a), subtree_app in E. destruct (subtree D (firstn k a)) as [[n ats ks|s]|] eqn:X; [eauto| |discriminate].
    destruct (skipn k a) eqn:Y; [|discriminate]. apply (f_equal (@length nat)) in Y. rewrite skipn_length in Y. cbn in Y. lia.
  Qed.
  Lemma fits_resembles t x : (exists n ats ks, t = Some (XE n ats ks)) -> (fits (step_of t) x <-> resembles show t x).
  Proof.
    intros (n & ats & ks & ->). cbn [step_of]. unfold fits, resembles. cbn [fst snd]. split.
    - intros (ats' & ks' & -> & H). exists n, ats, ks, ats', ks'. split; [reflexivity|]. split; [reflexivity|]. intros k v K E. rewrite forallb_forall in H. specialize (H (k, v)).
      cbn [holds fst snd] in H. rewrite kvs_in in H. specialize (H (conj K E)). destruct (dict_get ats' k) as [v'|]; [|discriminate]. apply ParserInv.str_eqb_eq in H. congruence.
    - intros (n0 & a0 & k0 & ats' & ks' & [= <- <- <-] & -> & H). exists ats', ks'. split; [reflexivity|]. apply forallb_forall. intros [k v] I. apply kvs_in in I as (K & E). cbn [holds fst snd]. rewrite (H k v K E). apply ParserInv.str_eqb_refl.
  Qed.
  Theorem line_selects v n a u : xparse w = uxpath_parse v -> no_empty_text w -> subtree D a = Some u -> a <> [] ->
    (forall k, k < length a -> writable show (subtree D (firstn k a))) ->
    selects w (fun b _ => S (length b) = length a /\ forall k, k < length a -> resembles show (subtree D (firstn k a)) (subtree D (firstn k b)))
      (xml_xpath w n (INode []) (Text (xpath_to w show a))).
  Proof.
    intros X F E NE W. pose proof (xpath_to_steps w show a u E) as L.
    assert (M : map (fun k => step_line show (subtree D (firstn k a))) (seq 0 (length a)) = map step_text (steps_of a)) by (unfold steps_of; rewrite map_map; apply map_ext; intros; symmetry; apply step_of_text).
    rewrite M in L. assert (LS : length (steps_of a) = length a) by (unfold steps_of; now rewrite map_length, seq_length).
    assert (NS : forall k, k < length a -> nth_error (steps_of a) k = Some (step_of (subtree D (firstn k a)))).
    { intros k K. unfold steps_of. rewrite nth_error_map. rewrite (nth_error_nth' _ 0) by (now rewrite seq_length). now rewrite seq_nth by exact K. }
    assert (OK : Forall okp (steps_of a)).
    { unfold steps_of. apply Forall_map, Forall_forall. intros k K. apply in_seq in K. destruct (prefix_element a u k E) as (m & ats & ks & Y); [lia|]. destruct (W k ltac:(lia) m ats ks Y) as (Nm & Nk). rewrite Y. split; [exact Nm|].
      apply Forall_forall. intros [k' x] I. apply kvs_in in I as (I1 & I2). exact (Nk k' x I1 I2). }
    destruct (steps_of a) as [|p ps] eqn:SE; [destruct a; [congruence|discriminate]|]. apply slashed_text in L. rewrite L.
    destruct (lined_good w F p ps) as (e & G & A). pose proof (Forall_inv OK) as OK1. pose proof (Forall_inv_tail OK) as OK2.
    assert (EX : expression v (steps_text p ps) e) by (exists (steps_tokens p ps); split; [now apply steps_scans|now apply good_reads]).
    assert (DN : document_node w (INode [])). { cbn. destruct (prefix_element a u 0 E) as (m & ats & ks & Y); [destruct a; [congruence|cbn; lia]|]. cbn in Y. injection Y as Y. eauto. }
    rewrite (xml_xpath_text w v n (INode []) _ e X DN EX). cbn [start_item]. rewrite (A n IRoot eq_refl).
    pose proof (lined_selects w n p ps) as S. assert (SS : Forall (fun q : pstep => Forall (fun kv => fst kv <> lit "*") (snd q)) (p :: ps)).
    { eapply Forall_impl; [|exact OK]. intros q (_ & Q). eapply Forall_impl; [|exact Q]. intros kv (N & _). now apply name_star. }
    specialize (S SS). revert S. apply selects_ext. intros b x Eb. unfold fit. rewrite LS. split.
    - intros (H1 & H2). split; [congruence|]. intros k K. apply fits_resembles; [exact (prefix_element a u k E K)|]. apply (H2 k). now apply NS.
    - intros (H1 & H2). split; [congruence|]. intros k q N. assert (K : k < length a) by (rewrite <- LS; apply nth_error_Some; congruence). rewrite (NS k K) in N. injection N as <-. apply fits_resembles; [exact (prefix_element a u k E K)|]. now apply H2.
  Qed.
  (** The element above the one that has the text is among them. *)
  Theorem line_finds v n a u : xparse w = uxpath_parse v -> no_empty_text w -> subtree D a = Some u -> a <> [] ->
    (forall k, k < length a -> writable show (subtree D (firstn k a))) ->
    exists l, xml_xpath w n (INode []) (Text (xpath_to w show a)) = (l, Done) /\ In (INode (removelast a)) l.
  Proof.
    intros X F E NE W. destruct (line_selects v n a u X F E NE W) as (l & (_ & I) & R). exists (nodes l). split; [exact R|].
    assert (L : removelast a = firstn (pred (length a)) a) by apply removelast_firstn_len. assert (P : 0 < length a) by (destruct a; [congruence|cbn; lia]).
    destruct (prefix_element a u (pred (length a)) E) as (m & ats & ks & Y); [lia|]. rewrite <- L in Y.
    assert (H : In (removelast a, XE m ats ks) l).
    { apply I. split; [exact Y|]. assert (LR : S (length (removelast a)) = length a) by (rewrite L, firstn_length; lia). split; [exact LR|]. intros k K.
      rewrite L, firstn_firstn. replace (Nat.min k (pred (length a))) with k by lia. destruct (prefix_element a u k E K) as (m' & ats' & ks' & Z). rewrite Z. exists m', ats', ks', ats', ks'. auto. }
    unfold nodes. apply in_map_iff. exists (removelast a, XE m ats ks). split; [reflexivity|exact H].
  Qed.
  Theorem line_alone v n a u : xparse w = uxpath_parse v -> no_empty_text w -> subtree D a = Some u -> a <> [] ->
    (forall k, k < length a -> writable show (subtree D (firstn k a))) ->
    (forall b, S (length b) = length a -> (forall k, k < length a -> resembles show (subtree D (firstn k a)) (subtree D (firstn k b))) -> b = removelast a) ->
    xml_xpath w n (INode []) (Text (xpath_to w show a)) = ([INode (removelast a)], Done).
  Proof.
    intros X F E NE W U. destruct (line_selects v n a u X F E NE W) as (l & (S & I) & R). destruct (line_finds v n a u X F E NE W) as (l' & R' & H).
    assert (l' = nodes l) as -> by congruence. rewrite R. f_equal. clear R R' E X.
    assert (A : forall x, In x l -> fst x = removelast a) by (intros [b x] J; apply I in J as (_ & J1 & J2); exact (U b J1 J2)). clear I U.
    destruct l as [|x [|y l]]; [destruct H| |].
    - unfold nodes. cbn [map]. now rewrite (A x (or_introl eq_refl)).
    - exfalso. apply StronglySorted_inv in S as (_ & S). apply Forall_inv in S. rewrite (A x (or_introl eq_refl)), (A y (or_intror (or_introl eq_refl))) in S. revert S. generalize (removelast a) as b. induction b as [|j b IH]; intros S; inversion S; subst; [lia|auto].
  Qed.
  (** Texts and lines *)
  Lemma find_lines fuel q foreach limit s : is_element D -> In s (fst (run w fuel (CmdFind q) foreach limit show)) <->
    exists a i x, subtree D (a ++ [i]) = Some (XT x) /\ contains x q /\ s = xpath_to w show a.
  Proof.
    intros T. cbn [run]. destruct (find_text_lines w q show T) as (l & (_ & I) & H).
    set (b := fun s => has_text q (Some (XT s))). assert (B : forall x, b x = true <-> contains x q).
    { intros x. unfold b. rewrite has_text_spec. split; [intros (x' & [= <-] & C); exact C|intros C; eauto]. }
    rewrite (H b B). cbn [fst]. rewrite in_flat_map. split.
    - intros ((a & u) & J & R). apply I in J as (E & m & ats & ks & ->). cbn [fst snd kids_of] in R. pose proof (repeat_spec _ _ _ R) as ->.
      destruct (filter _ ks) as [|k r] eqn:K; [destruct R|]. assert (J : In k (k :: r)) by now left. rewrite <- K in J. apply filter_In in J as (J & Y). destruct k as [|x]; [discriminate|].
      apply In_nth_error in J as (i & N). exists a, i, x. split; [rewrite subtree_app, E; cbn [subtree]; now rewrite N|]. split; [now apply B|reflexivity].
    - intros (a & i & x & E & C & ->). rewrite subtree_app in E. destruct (subtree D a) as [[m ats ks|]|] eqn:Ea; try discriminate. cbn [subtree] in E. destruct (nth_error ks i) as [k|] eqn:N; [|discriminate]. injection E as ->.
      exists (a, XE m ats ks). split; [apply I; split; [exact Ea|do 3 eexists; reflexivity]|]. cbn [fst snd kids_of]. apply nth_error_In in N.
      assert (J : In (XT x) (filter (fun k => match k with XT s => b s | XE _ _ _ => false end) ks)) by (apply filter_In; split; [exact N|now apply B]).
      destruct (filter _ ks) as [|k r]; [destruct J|]. now left.
  Qed.
  Theorem found v n fuel q foreach limit s : is_element D -> xparse w = uxpath_parse v -> no_empty_text w -> (forall a, writable show (subtree D a)) ->
    In s (fst (run w fuel (CmdFind q) foreach limit show)) ->
    exists a i x, subtree D (a ++ [i]) = Some (XT x) /\ contains x q /\
      (a = [] /\ s = [] \/ a <> [] /\ exists l, xml_xpath w n (INode []) (Text s) = (l, Done) /\ In (INode (removelast a)) l).
  Proof.
    intros T X F W H. apply find_lines in H as (a & i & x & E & C & ->); [|exact T]. exists a, i, x. split; [exact E|]. split; [exact C|]. destruct a as [|j a]; [left; auto|right]. split; [discriminate|].
    rewrite subtree_app in E. destruct (subtree D (j :: a)) as [u|] eqn:Ea; [|discriminate]. apply (line_finds v n _ u X F Ea); [discriminate|auto].
  Qed.
  Theorem every_text v n fuel q foreach limit a i x : is_element D -> xparse w = uxpath_parse v -> no_empty_text w -> (forall a, writable show (subtree D a)) ->
    subtree D (a ++ [i]) = Some (XT x) -> contains x q -> a <> [] ->
    exists s l, In s (fst (run w fuel (CmdFind q) foreach limit show)) /\ xml_xpath w n (INode []) (Text s) = (l, Done) /\ In (INode (removelast a)) l.
  Proof.
    intros T X F W E C NE. assert (Ea : exists u, subtree D a = Some u) by (rewrite subtree_app in E; destruct (subtree D a); [eauto|discriminate]). destruct Ea as (u & Ea).
    destruct (line_finds v n a u X F Ea NE (fun k _ => W _)) as (l & R & I). exists (xpath_to w show a), l. split; [|auto]. apply find_lines; [exact T|]. exists a, i, x. auto.
  Qed.
End Line.
