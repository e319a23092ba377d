(** How readings are put together: predicates, steps and operators at the end of an expression. *)
From Verif Require Import PyStr XPath Lalr XGram XGramSpec XTok XParse XSim XParseFacts XReads.
From Verif Require ParserInv.

Lemma preds_app : forall ps es, predicates ps es -> forall ps' es', predicates ps' es' -> predicates (ps ++ ps') (es ++ es').
Proof.
  intros ps es H. induction H as [ts e R|ts e ts' es R H IH]; intros ps' es' H'.
  - cbn [app]. rewrite <- app_assoc. cbn [app]. apply Ps_more; assumption.
  - cbn [app]. rewrite <- app_assoc. cbn [app]. apply Ps_more; [assumption|]. apply IH; assumption.
Qed.
Lemma reads_epred : forall m l a es, reads m l (EPred a es) -> m = 0 /\ exists l' ps, l = l' ++ ps /\ reads 0 l' a /\ is_predicated a = false /\ predicates ps es.
Proof.
  intros m l a es H. inversion H; subst.
  - match goal with H : path _ _ _ |- _ => apply path_facts in H as (_ & X & _) end. discriminate.
  - split; [reflexivity|]. eauto 8.
Qed.
(** A predicate at the end goes to the whole expression. *)
Definition with_predicate (a e : expr) : expr := match a with EPred b es => EPred b (es ++ [e]) | _ => EPred a [e] end.
Lemma reads_predicate : forall l a p e, reads 0 l a -> reads 0 p e -> reads 0 (l ++ P LBrk :: p ++ [P RBrk]) (with_predicate a e).
Proof.
  intros l a p e H He. destruct (is_predicated a) eqn:Ea.
  - destruct a; try discriminate. cbn [with_predicate]. apply reads_epred in H as (_ & l' & ps' & -> & H & Hp & Hps).
    rewrite <- app_assoc. apply R_pred; [assumption|assumption|]. apply preds_app; [assumption|]. apply Ps_one. assumption.
  - replace (with_predicate a e) with (EPred a [e]) by (destruct a; try discriminate; reflexivity).
    apply R_pred; [assumption|assumption|]. apply Ps_one. assumption.
Qed.

(** A step at the end continues the path at the right end, or goes to the whole expression. *)
Fixpoint continued (a : expr) (d : bool) (st : expr) : expr :=
  match a with
  | EAbs dd (Some p) => EAbs dd (Some (EBin p (sep_op d) st))
  | ENeg e => ENeg (continued e d st)
  | EBin l op r =>
      match op with
      | OpPath | OpDeep => if ends_in_path l then EBin a (sep_op d) st else EBin l op (continued r d st)
      | _ => EBin l op (continued r d st)
      end
  | _ => EBin a (sep_op d) st
  end.
Definition with_step (a : expr) (d : bool) (st : expr) : expr := if ends_in_path a then continued a d st else EBin a (sep_op d) st.

Lemma continued_bin : forall l op r d st, op <> OpPath -> op <> OpDeep -> continued (EBin l op r) d st = EBin l op (continued r d st).
Proof. intros l op r d st A B. destruct op; try contradiction; reflexivity. Qed.
Lemma continued_path : forall f ts e, path f ts e -> forall d st, continued e d st = EBin e (sep_op d) st.
Proof.
  intros f ts e H d st. destruct H as [f ts e H|f ts e d' ts' e' H H'].
  - inversion H; subst; reflexivity.
  - apply path_facts in H as (X & _). destruct d'; cbn [sep_op continued]; rewrite X; reflexivity.
Qed.
Lemma reads_continued : forall m l a, reads m l a -> ends_in_path a = true -> forall d ts st, one_step true ts st -> reads m (l ++ sep d :: ts) (continued a d st).
Proof.
  intros m l a H. induction H; intros E dd ts' st S; try discriminate.
  - apply R_path. erewrite continued_path by eassumption. apply XGramSpec.P_more; assumption.
  - cbn [app continued]. apply R_abs. apply XGramSpec.P_more; assumption.
  - cbn [app continued]. apply R_neg. apply IHreads; assumption.
  - destruct (operator_step _ _ H) as (N1 & N2). rewrite continued_bin by assumption. rewrite <- app_assoc. cbn [app].
    apply R_bin; try assumption. apply IHreads2; [|assumption]. revert E. cbn [ends_in_path]. destruct op; try contradiction; intros E; exact E.
  - replace (continued (EBin a (sep_op d) p) dd st) with (EBin a (sep_op d) (EBin p (sep_op dd) st)).
    + rewrite <- app_assoc. cbn [app]. apply R_step; try assumption. apply XGramSpec.P_more; assumption.
    + destruct d; cbn [sep_op continued]; rewrite H0; erewrite continued_path by eassumption; reflexivity.
Qed.
Lemma reads_with_step : forall l a d ts st, reads 0 l a -> one_step true ts st -> reads 0 (l ++ sep d :: ts) (with_step a d st).
Proof.
  intros l a d ts st H S. unfold with_step. destruct (ends_in_path a) eqn:E.
  - apply reads_continued; assumption.
  - apply R_step; try assumption. apply XGramSpec.P_step. assumption.
Qed.

(** What can stand on both sides of every operator. *)
Definition operand (l : list token) (a : expr) : Prop := reads 8 l a /\ forall op, absorbs a op = false.

Lemma reads_weaken : forall m l a, reads m l a -> forall k, k <= m -> reads k l a.
Proof.
  intros m l a H. induction H; intros k K; try (econstructor; eassumption).
  - apply R_bin; try assumption; [lia|]. apply IHreads1. exact K.
  - assert (k = 0) as -> by lia. apply R_pred; assumption.
  - assert (k = 0) as -> by lia. apply R_step; assumption.
Qed.
Lemma operator_strength : forall t op, operator t = Some op -> 0 < strength op < 8.
Proof.
  intros t op E. destruct t as [w|w|z|f|p]; try discriminate; cbn [operator] in E.
  - destruct (str_eqb w (lit "or")); [inversion E; cbn; lia|]. destruct (str_eqb w (lit "and")); [inversion E; cbn; lia|].
    destruct (str_eqb w (lit "div") || str_eqb w (lit "mod")); inversion E. cbn [strength]. destruct (_ || _); lia.
  - destruct p; inversion E; cbn; lia.
Qed.
(** Two operators: the tighter one first, the left one first if they are equally tight. *)
Lemma two_operators : forall la a o1 op1 lb b o2 op2 lc c, operand la a -> operand lb b -> operand lc c ->
  operator o1 = Some op1 -> operator o2 = Some op2 ->
  reads 0 (la ++ o1 :: lb ++ o2 :: lc) (if strength op1 <? strength op2 then EBin a op1 (EBin b op2 c) else EBin (EBin a op1 b) op2 c).
Proof.
  intros la a o1 op1 lb b o2 op2 lc c (Ra & Aa) (Rb & Ab) (Rc & Ac) O1 O2.
  pose proof (operator_strength _ _ O1) as S1. pose proof (operator_strength _ _ O2) as S2.
  destruct (Nat.ltb_spec (strength op1) (strength op2)) as [L|L].
  - apply R_bin; [assumption|lia|eapply reads_weaken; [eassumption|lia]|apply Aa|].
    apply R_bin; [assumption|lia|eapply reads_weaken; [eassumption|lia]|apply Ab|eapply reads_weaken; [eassumption|lia]].
  - replace (la ++ o1 :: lb ++ o2 :: lc) with ((la ++ o1 :: lb) ++ o2 :: lc) by (now rewrite <- app_assoc).
    apply R_bin; [assumption|lia| | |eapply reads_weaken; [eassumption|lia]].
    + apply R_bin; [assumption|lia|eapply reads_weaken; [eassumption|lia]|apply Aa|eapply reads_weaken; [eassumption|lia]].
    + cbn [absorbs]. rewrite Ab, orb_false_r. apply Nat.ltb_ge. exact L.
Qed.
(** The unary minus takes the operators that are tighter than it, that is [|]. *)
Lemma minus_operator : forall la a o op lb b, operand la a -> operand lb b -> operator o = Some op ->
  reads 0 (P Minus :: la ++ o :: lb) (if minus_strength <? strength op then ENeg (EBin a op b) else EBin (ENeg a) op b).
Proof.
  intros la a o op lb b (Ra & Aa) (Rb & Ab) O. pose proof (operator_strength _ _ O) as S.
  destruct (Nat.ltb_spec minus_strength (strength op)) as [L|L].
  - apply R_neg. apply R_bin; [assumption|assumption|eapply reads_weaken; [eassumption|unfold minus_strength; lia]|apply Aa|eapply reads_weaken; [eassumption|lia]].
  - change (P Minus :: la ++ o :: lb) with ((P Minus :: la) ++ o :: lb).
    apply R_bin; [assumption|lia| | |eapply reads_weaken; [eassumption|lia]].
    + apply R_neg. eapply reads_weaken; [eassumption|unfold minus_strength; lia].
    + cbn [absorbs]. rewrite Aa, orb_false_r. apply Nat.ltb_ge. exact L.
Qed.

(** No reading contains a multiplication. *)
Inductive inside (x : expr) : expr -> Prop :=
| In_here : inside x x
| In_neg e : inside x e -> inside x (ENeg e)
| In_left l op r : inside x l -> inside x (EBin l op r)
| In_right l op r : inside x r -> inside x (EBin l op r)
| In_abs d e : inside x e -> inside x (EAbs d (Some e))
| In_lhs e ps : inside x e -> inside x (EPred e ps)
| In_pred e ps p : In p ps -> inside x p -> inside x (EPred e ps)
| In_arg f args p : In p args -> inside x p -> inside x (ECall f args)
| In_item l p : In p l -> inside x p -> inside x (ESeq l).
Definition times_free (e : expr) : Prop := forall a b, ~ inside (EBin a (OpOther (lit "*")) b) e.

Lemma operator_times : forall t op, operator t = Some op -> op <> OpOther (lit "*").
Proof.
  intros t op E -> . destruct t as [w|w|z|f|p]; try discriminate; cbn [operator] in E.
  - destruct (str_eqb w (lit "or")); [discriminate|]. destruct (str_eqb w (lit "and")); [discriminate|].
    destruct (str_eqb w (lit "div") || str_eqb w (lit "mod")) eqn:X; inversion E; subst. discriminate.
  - destruct p; discriminate.
Qed.
Lemma times_free_all :
  (forall m l e, reads m l e -> times_free e) /\ (forall l es, arguments l es -> Forall times_free es) /\ (forall l es, listed l es -> Forall times_free es)
  /\ (forall l es, predicates l es -> Forall times_free es) /\ (forall l t, node_type l t -> True) /\ (forall l t, node_test l t -> True)
  /\ (forall f l e, one_step f l e -> times_free e) /\ (forall f l e, path f l e -> times_free e).
Proof.
  apply syntax_min; intros; auto; try (intros x y I; inversion I; subst; fail).
  - intros x y I. inversion I; subst. rewrite Forall_forall in *. eapply H2; eauto.
  - intros x y I. inversion I; subst. rewrite Forall_forall in *. eapply H0; eauto.
  - intros x y I. inversion I; subst. eapply H0; eauto.
  - intros x y I. inversion I; subst. eapply H0; eauto.
  - intros x y I. inversion I; subst; [eapply operator_times; eauto|eapply H2; eauto|eapply H5; eauto].
  - intros x y I. inversion I; subst; [eapply H0; eauto|]. rewrite Forall_forall in *. eapply H3; eauto.
  - intros x y I. destruct d; inversion I; subst; (eapply H0; eauto; fail) || (eapply H3; eauto).
  - intros x y I. destruct d; inversion I; subst; (eapply H0; eauto; fail) || (eapply H2; eauto).
Qed.
