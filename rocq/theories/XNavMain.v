(** Paths with conditions select what XNavSpec says, in the order it says. *)
From Verif Require Import PyStr XTree Path PatternFacts XPath XPathSpec XPathFacts XPathFuel XPathExpr XPathFun XPathLast XNavSpec XNav XNavOrder.
From Coq Require Import Sorted.

Section Main.
  Variables (w : env) (n : nat).
  Hypothesis W : proper w.
  Notation D := (doc w).
  Let We : no_empty_text w := proj1 (proj2 W).
  Definition good (e : expr) : Prop := forall k k' c, kind_of k e = Some k' -> of_kind w k c -> result w k' (nav w e c) (eval w n e c).

  Lemma good_path l r c k k1 k2 (Q : item -> item -> Prop) : good l -> kind_of k l = Some k1 -> of_kind w k c -> is_value k1 = false -> is_value k2 = false ->
    (forall i, of_kind w k1 i -> result w k2 (Q i) (eval w n r i)) -> result w k2 (fun d => exists i, nav w l c i /\ Q i d) (eval w n (EBin l OpPath r) c).
  Proof.
    intros G E1 Hc N1 N2 H. destruct (path_yields w n W l r c k1 (nav w l c) Q N1 (G k k1 c E1 Hc)) as (ls & E & I).
    { intros i Hi. destruct (H i Hi) as (o & Eo & Io & _). exists o. auto. }
    exists ls. split; [exact E|]. split; [exact I|]. split; [|congruence]. intros d Hd. apply I in Hd as (i & Hi & Hd).
    destruct (G k k1 c E1 Hc) as (ls1 & _ & I1 & K1 & _). apply I1, K1 in Hi. destruct (H i Hi) as (o & _ & Io & Ko & _). apply Ko, Io, Hd.
  Qed.
  Lemma good_connective l r c k (op : binop) : good l -> good r -> op = OpOr \/ op = OpAnd -> kind_of k l = Some KBool -> kind_of k r = Some KBool -> of_kind w k c ->
    result w KBool (nav w (EBin l op r) c) (eval w n (EBin l op r) c).
  Proof.
    intros Gl Gr Op E1 E2 Hc. destruct (Gl k KBool c E1 Hc) as (ls & El & Il & Kl & Bl). destruct (Bl eq_refl) as (xi & ->). destruct (Gr k KBool c E2 Hc) as (rs & Er & Ir & Kr & Br). destruct (Br eq_refl) as (yi & ->). destruct (Kl xi (or_introl eq_refl)) as (x & ->). destruct (Kr yi (or_introl eq_refl)) as (y & ->).
    assert (E : eval w n (EBin l op r) c = ([IBool (match op with OpOr => x || y | _ => x && y end)], Done)).
    { destruct Op as [-> | ->].
      - destruct x; [apply (connective_short w n l r c _ _ _ El); rewrite falsy_bool; discriminate|apply (connective_second w n l r c _ _ _ _ _ _ El Er); apply falsy_bool; reflexivity].
      - destruct x; [apply (connective_second w n l r c _ _ _ _ _ _ El Er); rewrite falsy_bool; discriminate|apply (connective_short w n l r c _ _ _ El); apply falsy_bool; reflexivity]. }
    eexists. split; [exact E|]. split; [|split; [intros d [<-|[]]; eexists; reflexivity|eauto]].
    intros d. destruct Op as [-> | ->]; cbn [nav]; (split; [intros [<-|[]]; exists x, y; (split; [apply Il; left; reflexivity|split; [apply Ir; left; reflexivity|reflexivity]])|]);
      intros (x' & y' & Hx & Hy & ->); apply Il in Hx as [Hx|[]]; apply Ir in Hy as [Hy|[]]; left; congruence.
  Qed.
  Lemma good_abs dd e c k' : good e -> kind_of KElem (EAbs dd (Some e)) = Some k' -> of_kind w KElem c -> result w k' (nav w (EAbs dd (Some e)) c) (eval w n (EAbs dd (Some e)) c).
  Proof.
    intros G HK Hc. assert (X : just_node e = false /\ kind_of (if dd then KNode else KElem) e = Some k' /\ is_value k' = false).
    { cbn [kind_of] in HK. destruct dd; (destruct (just_node e); [discriminate|]); apply no_value_some in HK as (HK & N); auto. }
    destruct X as (J & E & N). destruct dd; cbn [nav].
    + destruct (all_yield (nav w e) (eval w n e) (IRoot :: nodes (all_nodes D))) as (outs & F & I).
      { intros i Hi. assert (Ti : of_kind w KNode i).
        { destruct Hi as [<-|Hi]; [exact Logic.I|]. unfold nodes in Hi. apply in_map_iff in Hi as ([a u] & <- & Hi). apply all_nodes_in in Hi. exists u. exact Hi. }
        destruct (G KNode k' i E Ti) as (ls & Els & Ils & _). exists ls. auto. }
      exists (concat outs). assert (A : forall i, In i (IRoot :: nodes (all_nodes D)) <-> tree_item w i).
      { intros i. split.
        - intros [<-|Hi]; [exact Logic.I|]. unfold nodes in Hi. apply in_map_iff in Hi as ([a u] & <- & Hi). apply all_nodes_in in Hi. exists u. exact Hi.
        - destruct i as [|a| | | | |]; try (intros []; fail); [left; reflexivity|]. intros (u & Ea). right. unfold nodes. apply in_map_iff. exists (a, u). split; [reflexivity|]. apply all_nodes_in. exact Ea. }
      split; [apply (deep_any w n e c (all_nodes D) outs We Hc J (all_nodes_listing D) F)|].
      assert (I' : forall d, In d (concat outs) <-> exists i, tree_item w i /\ nav w e i d) by (intros d; rewrite I; split; intros (i & Hi & Hd); exists i; (split; [apply A; exact Hi|exact Hd])).
      split; [exact I'|]. split; [|congruence]. intros d Hd. apply I' in Hd as (i & Hi & Hd). destruct (G KNode k' i E Hi) as (ls & _ & Ils & Kls & _). apply Kls, Ils, Hd.
    + rewrite (absolute_relative w n e c Hc J). apply (G KElem k' IRoot E). left. reflexivity.
  Qed.
  Lemma is_fn_eq f g : is_fn f g = true -> f = lit g.
  Proof. apply ParserInv.str_eqb_eq. Qed.

  Lemma no_start k e : is_value k = true -> kind_of k e = None.
  Proof.
    intros V. induction e as [l|e IHe|l op r IHl IHr|dd|dd e IHe|ax t|e ps IHe IHps|t|u|v|f l IHl|l IHl] using expr_ind'; try reflexivity; cbn [kind_of].
    - rewrite V. destruct l; reflexivity.
    - rewrite IHl, IHr. destruct op, r; reflexivity.
    - destruct dd; reflexivity.
    - destruct dd, k; try discriminate V; reflexivity.
    - destruct k; try discriminate V; destruct ax; reflexivity.
    - rewrite IHe. reflexivity.
    - rewrite V. destruct u; reflexivity.
    - rewrite V. reflexivity.
  Qed.
  Lemma start k e k' : kind_of k e = Some k' -> is_value k = false.
  Proof. intros H. destruct (is_value k) eqn:V; [|reflexivity]. rewrite (no_start k e V) in H. discriminate. Qed.

  Section Step.
    Variable e0 : expr.
    Hypothesis NR : forall e, size e < size e0 -> good e.
    Let line e k k' c : size e < size e0 -> in_line e = true -> kind_of k e = Some k' -> of_kind w k c -> StronglySorted (direction w e) (fst (eval w n e c)).
    Proof. intros L. apply (in_line_order w n W (size e0)); [|lia]. intros e1 k1 k1' c1 L1. exact (NR e1 L1 k1 k1' c1). Qed.
    Let single e k k' c : size e < size e0 -> once e = true -> kind_of k e = Some k' -> of_kind w k c -> NoDup (fst (eval w n e c)).
    Proof. intros L. apply (once_nodup w n W (size e0)); [|lia]. intros e1 k1 k1' c1 L1. exact (NR e1 L1 k1 k1' c1). Qed.

    Let firsts e k k' c : size e < size e0 -> kind_of k e = Some k' -> of_kind w k c -> has_first k' e = true -> StronglySorted (direction w e) (fst (eval w n e c)).
    Proof.
      intros L HK Hc F. unfold has_first in F. apply orb_prop in F as [F|F]; [|exact (line e k k' c L F HK Hc)].
      destruct (NR e L k k' c HK Hc) as (ls & E & _ & _ & B). destruct (B F) as (i & ->). rewrite E. repeat constructor.
    Qed.
    Lemma good_bin l op r k k' c : e0 = EBin l op r -> kind_of k e0 = Some k' -> of_kind w k c -> result w k' (nav w e0 c) (eval w n e0 c).
    Proof.
      intros E0 HK Hc. assert (Ll : size l < size e0) by (rewrite E0; cbn [size]; lia). assert (Lr : size r < size e0) by (rewrite E0; cbn [size]; lia).
      pose proof (NR l Ll) as Gl. pose proof (NR r Lr) as Gr.
      assert (C : match kind_of k l, kind_of k r with Some k1, Some k2 => if comparable op k1 k2 && has_first k1 l then Some KBool else None | _, _ => None end = Some k' ->
        result w k' (verdict (exists i j, first_of (direction w l) (nav w l c) i /\ nav w r c j /\ related w op i j)) (eval w n (EBin l op r) c)).
      { intros H. destruct (kind_of k l) as [k1|] eqn:E1; [|discriminate]. destruct (kind_of k r) as [k2|] eqn:E2; [|discriminate]. destruct (comparable op k1 k2) eqn:Cm; [|discriminate].
        destruct (has_first k1 l) eqn:F; [|discriminate]. injection H as <-. exact (compare_result w n W op k1 k2 l r c _ _ Cm (Gl k k1 c E1 Hc) (Gr k k2 c E2 Hc) (firsts l k k1 c Ll E1 Hc F)). }
      rewrite E0 in HK |- *. destruct op; cbn [kind_of] in HK; try exact (C HK).
      - (* / *) destruct (no_value (kind_of k l)) as [k1|] eqn:E1; [|discriminate]. apply no_value_some in E1 as (E1 & N1). apply no_value_some in HK as (HK & N2).
        apply (good_path l r c k k1 k' (nav w r) Gl E1 Hc N1 N2). intros i Hi. exact (Gr k1 k' i HK Hi).
      - (* // *) destruct r as [| | | |ax t| | | | | |]; try discriminate. rewrite deep_step. cbn [nav].
        assert (X : exists k1, kind_of k l = Some k1 /\ (k1 = KElem \/ k1 = KNode) /\ k' = tested t) by (destruct (kind_of k l) as [[]|]; try discriminate; injection HK as <-; eexists; (split; [reflexivity|auto])).
        destruct X as (k1 & E1 & N1 & ->). apply (good_path l _ c k k1 (tested t) _ Gl E1 Hc); [destruct N1; subst; reflexivity|destruct t; reflexivity|]. intros i Hi. exact (deep_result w n W k1 t i N1 Hi).
      - (* | *) destruct (no_value (kind_of k l)) as [k1|] eqn:E1; [|discriminate]. destruct (no_value (kind_of k r)) as [k2|] eqn:E2; [|discriminate]. apply no_value_some in E1 as (E1 & N1). apply no_value_some in E2 as (E2 & N2).
        destruct (elements_only l && elements_only r) eqn:El; [|discriminate]. injection HK as <-. apply andb_prop in El as (El & Er).
        apply (union_result w n W k l r c k1 k2 Hc); [exact (start k l k1 E1)|exact El|exact Er|exact (Gl k k1 c E1 Hc)|exact (Gr k k2 c E2 Hc)].
      - (* or *) destruct (kind_of k l) as [[]|] eqn:E1; try discriminate. destruct (kind_of k r) as [[]|] eqn:E2; try discriminate. injection HK as <-. apply (good_connective l r c k OpOr Gl Gr); auto.
      - (* and *) destruct (kind_of k l) as [[]|] eqn:E1; try discriminate. destruct (kind_of k r) as [[]|] eqn:E2; try discriminate. injection HK as <-. apply (good_connective l r c k OpAnd Gl Gr); auto.
    Qed.
    Lemma good_call f l k k' c : e0 = ECall f l -> kind_of k e0 = Some k' -> of_kind w k c -> result w k' (nav w e0 c) (eval w n e0 c).
    Proof.
      intros E0 HK Hc. pose proof (start k e0 k' HK) as V. assert (Sm : forall e, In e l -> size e < size e0) by (intros e He; rewrite E0; cbn [size]; apply size_in in He; lia).
      rewrite E0 in HK |- *. cbn [kind_of] in HK. rewrite V in HK. destruct (is_fn f "concat") eqn:Fc.
      - apply is_fn_eq in Fc as ->. match type of HK with (if ?b then _ else _) = _ => destruct b eqn:B; [|discriminate] end. injection HK as <-. apply (concat_result w n W).
        assert (A : forall e, In e l -> exists ke, kind_of k e = Some ke /\ has_first ke e = true).
        { clear E0 Sm. induction l as [|e l IH]; [intros e []|]. apply andb_prop in B as (B1 & B2). intros x [<-|Hx]; [|exact (IH B2 x Hx)]. destruct (kind_of k e) as [ke|]; [eauto|discriminate]. }
        intros e He. destruct (A e He) as (ke & Ke & F). exists ke. split; [exact (NR e (Sm e He) k ke c Ke Hc)|exact (firsts e k ke c (Sm e He) Ke Hc F)].
      - cbn [nav]. rewrite Fc. destruct l as [|e [|e' [|e'' [|]]]]; try discriminate.
        + exact (call0_result w n f k k' c HK V Hc).
        + assert (L : size e < size e0) by (apply Sm; left; reflexivity). destruct (kind_of k e) as [ke|] eqn:Ke; [|discriminate].
          exact (call1_result w n W f e ke k' c _ HK (NR e L k ke c Ke Hc) (firsts e k ke c L Ke Hc) (fun O => single e k ke c L O Ke Hc)).
        + assert (L : size e < size e0) by (apply Sm; left; reflexivity). assert (L' : size e' < size e0) by (apply Sm; right; left; reflexivity).
          destruct (kind_of k e) as [ke|] eqn:Ke; [|discriminate]. destruct (kind_of k e') as [ke'|] eqn:Ke'; [|discriminate].
          exact (call2_result w n W f e e' ke ke' k' c _ _ HK (NR e L k ke c Ke Hc) (NR e' L' k ke' c Ke' Hc) (firsts e k ke c L Ke Hc) (firsts e' k ke' c L' Ke' Hc)).
        + assert (L : size e < size e0) by (apply Sm; left; reflexivity). destruct (kind_of k e) as [ke|] eqn:Ke; [|discriminate]. unfold call3_kind in HK.
          destruct e' as [[|i|]| | | | | | | | | |]; try discriminate. destruct e'' as [[|m|]| | | | | | | | | |]; try discriminate.
          exact (call3_result w n W f e i m ke k' c _ HK (NR e L k ke c Ke Hc) (firsts e k ke c L Ke Hc)).
    Qed.
    Lemma good_pred e ps k k' c : e0 = EPred e ps -> kind_of k e0 = Some k' -> of_kind w k c -> result w k' (nav w e0 c) (eval w n e0 c).
    Proof.
      intros E0 HK Hc. rewrite E0 in HK |- *. assert (L : size e < size e0) by (rewrite E0; cbn [size]; lia). destruct (kind_pred_all k e ps k' HK) as (Ke & _).
      apply (pred_result w n W e ps c k k' HK).
      - exact (NR e L k k' c Ke Hc).
      - intros p kp i Hp Kp Ki. apply (NR p) with (k := k'); [|exact Kp|exact Ki]. rewrite E0. exact (size_pred e ps p Hp).
      - intros I. exact (line e k k' c L I Ke Hc).
    Qed.
    Lemma good_step : good e0.
    Proof.
      intros k k' c HK Hc. pose proof (start k e0 k' HK) as V. destruct e0 as [l|e|l op r|dd [e|]|ax t|e ps|t|u|v|f l|l] eqn:E0; try discriminate; try (destruct dd; discriminate); rewrite <- E0 in *.
      - rewrite E0 in HK |- *. cbn [kind_of] in HK. rewrite V in HK. destruct l as [s|z|x]; try discriminate; injection HK as <-; cbn [nav].
        + apply (value_result w KStr _ _ (IStr s)); [eexists; reflexivity|rewrite eval_lit; reflexivity|reflexivity].
        + apply (value_result w KNum _ _ (IInt z)); [eexists; reflexivity|rewrite eval_lit; reflexivity|reflexivity].
      - exact (good_bin l op r k k' c E0 HK Hc).
      - rewrite E0 in HK |- *. assert (k = KElem) as -> by (cbn [kind_of] in HK; destruct dd, k; congruence). apply good_abs; [|exact HK|exact Hc]. apply NR. rewrite E0. cbn [size]. lia.
      - rewrite E0 in HK |- *. exact (step_result w n W k ax t k' c HK Hc).
      - exact (good_pred e ps k k' c E0 HK Hc).
      - rewrite E0 in HK |- *. cbn [kind_of] in HK. rewrite V in HK. destruct u; injection HK as <-; cbn [nav].
        + exact (up_result w n W k c V Hc).
        + apply (value_result w k _ _ c); [exact Hc|rewrite eval_abbrev; reflexivity|reflexivity].
      - exact (good_call f l k k' c E0 HK Hc).
    Qed.
  End Step.

  Theorem nav_result e : good e.
  Proof.
    assert (G : forall m e, size e < m -> good e) by (induction m as [|m IH]; intros e' L; [lia|]; apply good_step; intros e1 L1; apply IH; lia).
    exact (G (S (size e)) e (Nat.lt_succ_diag_r _)).
  Qed.
  Theorem nav_order e k k' c : orderly e = true -> kind_of k e = Some k' -> of_kind w k c -> StronglySorted (precedes w) (fst (eval w n e c)).
  Proof. apply (orderly_order w n W (size e)); [|lia]. intros e1 k1 k1' c1 _. exact (nav_result e1 k1 k1' c1). Qed.
  Theorem nav_line e k k' c : in_line e = true -> kind_of k e = Some k' -> of_kind w k c -> StronglySorted (direction w e) (fst (eval w n e c)).
  Proof. apply (in_line_order w n W (size e)); [|lia]. intros e1 k1 k1' c1 _. exact (nav_result e1 k1 k1' c1). Qed.
  Theorem nav_once e k k' c : once e = true -> kind_of k e = Some k' -> of_kind w k c -> NoDup (fst (eval w n e c)).
  Proof. apply (once_nodup w n W (size e)); [|lia]. intros e1 k1 k1' c1 _. exact (nav_result e1 k1 k1' c1). Qed.
End Main.
