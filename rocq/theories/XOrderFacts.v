(** Laws of the comparisons. *)
From Coq Require Import Lia ZArith.
From Verif Require Import PyStr XTree Path XPath XPathSpec XPathFacts XPathFuel XPathFun XPathExpr XPathLast XOrderSpec.

Section Order.
  Variable w : env.
  Variable n : nat.
  Notation ev := (eval w n).
  Lemma cmp_sym i j : py_cmp w j i = option_map (option_map CompOpp) (py_cmp w i j).
  Proof.
    unfold py_cmp. destruct (as_str w i) as [s|], (as_str w j) as [t|]; try reflexivity.
    - cbn [option_map]. now rewrite (str_cmp_sym s t).
    - destruct (as_num i) as [x|], (as_num j) as [y|]; try reflexivity. cbn [option_map]. now rewrite (flt_cmp_sym x y).
  Qed.
  Lemma mirrored_same op op' l r c i l' f j r' g : mirrored op op' -> ev l c = (i :: l', f) -> ev r c = (j :: r', g) -> ev (EBin l op r) c = ev (EBin r op' l) c.
  Proof.
    intros M L R. assert (O : is_order op /\ is_order op' /\ forall o, rel op' (option_map CompOpp o) = rel op o).
    { unfold mirrored in M. cbn in M. unfold is_order. cbn. destruct M as [[= <- <-]|[[= <- <-]|[[= <- <-]|[[= <- <-]|[]]]]]; (split; [tauto|]); (split; [tauto|]); intros [[]|]; reflexivity. }
    destruct O as (O1 & O2 & O3). rewrite (order_eq w n op l r c i l' f j r' g O1 L R), (order_eq w n op' r l c j r' g i l' f O2 R L), (cmp_sym i j).
    destruct (py_cmp w i j) as [o|]; cbn [option_map]; [now rewrite O3|reflexivity].
  Qed.
  Lemma kind_cmp i j : same_kind w i j -> exists o, py_cmp w i j = Some (Some o).
  Proof.
    intros [(s & t & S & T)|(x & y & X & Y & NX & NY)]; unfold py_cmp.
    - apply as_str_text in S, T. rewrite S, T. eauto.
    - rewrite !number_as, X, Y. assert (as_str w i = None) as -> by (destruct i; cbn in *; try discriminate; reflexivity). assert (as_str w j = None) as -> by (destruct j; cbn in *; try discriminate; reflexivity).
      destruct x as [|[]|m e], y as [|[]|m' e']; try congruence; cbn; eauto.
  Qed.
  Lemma opposite_negated op op' l r c i l' f j r' g : opposite op op' -> ev l c = (i :: l', f) -> ev r c = (j :: r', g) -> same_kind w i j ->
    exists b, ev (EBin l op r) c = ([IBool b], Done) /\ ev (EBin l op' r) c = ([IBool (negb b)], Done).
  Proof.
    intros M L R K. destruct (kind_cmp i j K) as (o & E).
    assert (O : is_order op /\ is_order op' /\ rel op' (Some o) = negb (rel op (Some o))).
    { unfold opposite in M. cbn in M. unfold is_order. cbn. destruct M as [[= <- <-]|[[= <- <-]|[[= <- <-]|[[= <- <-]|[]]]]]; (split; [tauto|]); (split; [tauto|]); destruct o; reflexivity. }
    destruct O as (O1 & O2 & O3). rewrite (order_eq w n op l r c i l' f j r' g O1 L R), (order_eq w n op' l r c i l' f j r' g O2 L R), E, O3. eauto.
  Qed.
  Lemma str_before_trans s t u : str_before s t -> str_before t u -> str_before s u.
  Proof.
    intros H. revert u. induction H as [a s|a b s t L|a s t H IH]; intros u K; inversion K; subst; try (constructor; lia); try (apply sb_end); try (now apply sb_less). apply sb_same. now apply IH.
  Qed.
  Lemma before_trans l m r c i l' f j m' g k r' h s t u : ev l c = (i :: l', f) -> ev m c = (j :: m', g) -> ev r c = (k :: r', h) ->
    text_item w i s -> text_item w j t -> text_item w k u ->
    ev (EBin l OpLt m) c = ([IBool true], Done) -> ev (EBin m OpLt r) c = ([IBool true], Done) -> ev (EBin l OpLt r) c = ([IBool true], Done).
  Proof.
    intros L M R S T U H1 H2. assert (O : is_order OpLt) by (unfold is_order; cbn; tauto).
    destruct (order_strings w n OpLt l m c i l' f j m' g s t O L M S T) as (b1 & E1 & B1). destruct (order_strings w n OpLt m r c j m' g k r' h t u O M R T U) as (b2 & E2 & B2).
    destruct (order_strings w n OpLt l r c i l' f k r' h s u O L R S U) as (b3 & E3 & B3). rewrite E1 in H1. rewrite E2 in H2. injection H1 as ->. injection H2 as ->. rewrite E3. replace b3 with true; [reflexivity|].
    symmetry. apply B3. cbn [ordered]. eapply str_before_trans; [now apply B1|now apply B2].
  Qed.
  Lemma same_value_sym i j : same_value i j -> same_value j i.
  Proof.
    intros [s|i' j' x y X Y S]; [constructor|]. apply (same_num j' i' y x Y X). destruct S as [b|m e m' e' k H1 H2 E]; [constructor|]. now apply (sn_fin m' e' m e k).
  Qed.
  Lemma value_compared i : ~ is_node_item i -> compared w i i.
  Proof. destruct i; cbn; tauto. Qed.
  Lemma equal_swapped l r c i j : ev l c = ([i], Done) -> ev r c = ([j], Done) -> ~ is_node_item i -> ~ is_node_item j ->
    exists b, ev (EBin l OpEq r) c = ([IBool b], Done) /\ ev (EBin r OpEq l) c = ([IBool b], Done) /\ ev (EBin l OpNe r) c = ([IBool (negb b)], Done) /\ ev (EBin r OpNe l) c = ([IBool (negb b)], Done).
  Proof.
    intros L R I J.
    destruct (equality_spec w n l r c i [] [j] i L R (value_compared i I)) as (b & E & B); [intros k [<-|[]]; exact J|].
    destruct (equality_spec w n r l c j [] [i] j R L (value_compared j J)) as (b' & E' & B'); [intros k [<-|[]]; exact I|].
    destruct (differ_values w n l r c i [] Done j [] Done L R I J) as (d & F & G). destruct (differ_values w n r l c j [] Done i [] Done R L J I) as (d' & F' & G').
    assert (Q : b = true <-> same_value i j) by (rewrite B; split; [intros (k & [<-|[]] & K); exact K|intros K; exists j; split; [now left|exact K]]).
    assert (Q' : b' = true <-> same_value j i) by (rewrite B'; split; [intros (k & [<-|[]] & K); exact K|intros K; exists i; split; [now left|exact K]]).
    assert (S : same_value i j <-> same_value j i) by (split; apply same_value_sym).
    exists b. rewrite E, E', F, F'. repeat split; do 3 f_equal; apply Bool.eq_true_iff_eq; rewrite ?Bool.negb_true_iff, ?G, ?G'; destruct b, b'; intuition congruence.
  Qed.
  (** Neither before nor after: the same. *)
  Lemma trichotomy l r c i l' f j r' g s t : ev l c = (i :: l', f) -> ev r c = (j :: r', g) -> text_item w i s -> text_item w j t ->
    (ev (EBin l OpLe r) c = ([IBool true], Done) /\ ev (EBin l OpGe r) c = ([IBool true], Done) <-> s = t).
  Proof.
    intros L R S T. destruct (order_strings w n OpLe l r c i l' f j r' g s t ltac:(unfold is_order; cbn; tauto) L R S T) as (b & E & B).
    destruct (order_strings w n OpGe l r c i l' f j r' g s t ltac:(unfold is_order; cbn; tauto) L R S T) as (b' & E' & B'). cbn [ordered] in B, B'. rewrite E, E'. split.
    - intros (H1 & H2). injection H1 as ->. injection H2 as ->. destruct (proj1 B eq_refl) as [X|]; [|assumption]. destruct (proj1 B' eq_refl) as [Y|]; [|assumption].
      apply str_cmp_lt in X. apply str_cmp_gt in Y. congruence.
    - intros ->. replace b with true by (symmetry; apply B; auto). replace b' with true by (symmetry; apply B'; auto). auto.
  Qed.
End Order.
