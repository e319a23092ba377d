(** The recursive descent parser reads what XGramSpec says. *)
From Verif Require Import PyStr XPath Lalr XGram XGramSpec XTok XParse XSim.

(** ** Fuel *)
Section Fuel.
  Variable br : bool.
  Definition shrinks {A} (l : list token) (r : rr A) : Prop := match r with Ok _ rest => length rest < length l | _ => True end.
  Definition keeps {A} (l : list token) (r : rr A) : Prop := match r with Ok _ rest => length rest <= length l | _ => True end.
  Lemma shrinks_bind : forall A B l (r : rr A) (k : A -> list token -> rr B), shrinks l r ->
    (forall a rest, length rest < length l -> keeps rest (k a rest)) -> shrinks l (rbind r k).
  Proof.
    intros A B l r k H Hk. destruct r as [| |a rest]; cbn in *; auto. specialize (Hk a rest H). destruct (k a rest); cbn in *; auto. lia.
  Qed.
  Lemma shrinks_keeps : forall A l (r : rr A), shrinks l r -> keeps l r.
  Proof. intros A l [| |a rest] H; cbn in *; auto. lia. Qed.
  Lemma shrinks_less : forall A l l' (r : rr A), keeps l r -> length l < length l' -> shrinks l' r.
  Proof. intros A l l' [| |a rest] H L; cbn in *; auto. lia. Qed.
  Lemma keeps_done : forall A (a : A) l, keeps l (done br a l).
  Proof. intros A a l. unfold done. destruct (follow br l); cbn; auto. Qed.
  Lemma keeps_bind : forall A B l (r : rr A) (k : A -> list token -> rr B), keeps l r ->
    (forall a rest, length rest <= length l -> keeps rest (k a rest)) -> keeps l (rbind r k).
  Proof.
    intros A B l r k H Hk. destruct r as [| |a rest]; cbn in *; auto. specialize (Hk a rest H). destruct (k a rest); cbn in *; auto. lia.
  Qed.
  Lemma shrinks_more : forall A l l' (r : rr A), shrinks l r -> length l <= length l' -> shrinks l' r.
  Proof. intros A l l' [| |a rest] H L; cbn in *; auto. lia. Qed.

  Lemma shrinking : forall n,
    (forall m l, shrinks l (r_expr br n m l)) /\ (forall l, shrinks l (r_primary br n l)) /\ (forall m e l, keeps l (r_loop br n m e l))
    /\ (forall l, shrinks l (r_args br n l)) /\ (forall acc l, shrinks l (r_list br n acc l)) /\ (forall acc l, shrinks l (r_preds br n acc l))
    /\ (forall l, shrinks l (r_test br n l)) /\ (forall l, shrinks l (r_step br n l)) /\ (forall l, shrinks l (r_path br n l))
    /\ (forall e l, keeps l (r_more br n e l)).
  Proof.
    induction n as [|n (I1 & I2 & I3 & I4 & I5 & I6 & I7 & I8 & I9 & I10)].
    { repeat split; intros; exact I. }
    assert (OK : forall A (a : A) l, keeps l (Ok a l)) by (intros; cbn; lia).
    assert (Lt : forall (t : token) l, length l < length (t :: l)) by (intros; cbn; lia).
    repeat apply conj; intros.
    - rewrite r_expr_S. apply shrinks_bind; auto.
    - rewrite r_primary_S.
      destruct l as [|[w|w|z|f|p] l]; auto.
      + destruct l as [|[w2|w2|z2|f2|p2] l]; auto. destruct p2; auto. eapply shrinks_more; [apply shrinks_bind; [apply I4 | auto] | cbn; lia].
      + eapply shrinks_less; [apply keeps_done | auto].
      + eapply shrinks_less; [apply keeps_done | auto].
      + eapply shrinks_less; [apply keeps_done | auto].
      + destruct p; auto.
        * destruct (step_start l); (eapply shrinks_less; [|apply Lt]); [apply keeps_bind; [apply shrinks_keeps; auto | auto] | apply keeps_done].
        * eapply shrinks_less; [|apply Lt]. apply keeps_bind; [apply shrinks_keeps; auto | auto].
        * apply shrinks_bind; auto.
        * eapply shrinks_less; [|apply Lt]. apply keeps_bind; [apply shrinks_keeps; auto | auto].
        * destruct l as [|[w2|w2|z2|f2|p2] l]; auto. eapply shrinks_less; [apply keeps_done | cbn; lia].
    - rewrite r_loop_S. destruct l as [|t l]; [cbn; lia|]. destruct (operator t) as [op|].
      + destruct (Nat.ltb m (strength op)); [|cbn; lia]. apply shrinks_keeps. eapply shrinks_less; [|apply Lt]. apply keeps_bind; [apply shrinks_keeps; auto | auto].
      + destruct (Nat.eqb m 0); [|cbn; lia]. destruct t as [| | | |p]; try (cbn; lia). destruct p; try (cbn; lia); apply shrinks_keeps; (eapply shrinks_less; [|apply Lt]); apply keeps_bind; [apply shrinks_keeps; auto | auto | apply shrinks_keeps; auto | auto | apply shrinks_keeps; auto | auto].
    - rewrite r_args_S. destruct l as [|[| | | |p] l]; try exact I. destruct p; try exact I.
      assert (D : shrinks (P LPar :: l) (r_list br n [] l)) by (eapply shrinks_more; [apply I5 | cbn; lia]).
      destruct l as [|[| | | |p] l]; auto. destruct p; auto. eapply shrinks_less; [apply keeps_done | cbn; lia].
    - rewrite r_list_S. apply shrinks_bind; auto. intros a rest _. destruct rest as [|[| | | |p] rest]; try exact I. destruct p; try exact I.
      + apply shrinks_keeps. eapply shrinks_less; [apply keeps_done | auto].
      + apply shrinks_keeps. eapply shrinks_more; [apply I5 | cbn; lia].
    - rewrite r_preds_S. apply shrinks_bind; auto. intros a rest _. destruct rest as [|[| | | |p] rest]; try exact I. destruct p; try exact I.
      assert (D : keeps (P RBrk :: rest) (done br (acc ++ [a]) rest)) by (apply shrinks_keeps; eapply shrinks_less; [apply keeps_done | auto]).
      destruct rest as [|[| | | |p] rest]; auto. destruct p; auto. apply shrinks_keeps. eapply shrinks_more; [apply I6 | cbn; lia].
    - rewrite r_test_S. destruct l as [|[w|w|z|f|p] l]; try exact I.
      + assert (D : shrinks (Word w :: l) (done br (TName w) l)) by (eapply shrinks_less; [apply keeps_done | auto]).
        destruct l as [|[| | | |p] l]; auto. destruct p; auto. eapply shrinks_more; [apply shrinks_bind; [apply I4|] | cbn; lia].
        intros es rest _. destruct (call_of w es); cbn; auto.
      + destruct p; try exact I. eapply shrinks_less; [apply keeps_done | auto].
    - rewrite r_step_S. destruct l as [|[w|w|z|f|p] l]; try (apply shrinks_bind; auto; fail).
      + assert (D : shrinks (Word w :: l) (rbind (r_test br n (Word w :: l)) (fun t l => Ok (EStep AxChild t) l))) by (apply shrinks_bind; auto).
        destruct l as [|[| | | |p] l]; auto. destruct p; auto. destruct (axis_of w); [|exact I]. eapply shrinks_more; [apply shrinks_bind; [apply I7 | auto] | cbn; lia].
      + destruct p; try (apply shrinks_bind; auto; fail).
        * eapply shrinks_less; [apply keeps_done | auto].
        * eapply shrinks_less; [apply keeps_done | auto].
        * eapply shrinks_more; [apply shrinks_bind; [apply I7 | auto] | cbn; lia].
    - rewrite r_path_S. apply shrinks_bind; auto.
    - rewrite r_more_S. destruct l as [|[| | | |p] l]; try (cbn; lia). destruct p; try (cbn; lia).
      + apply shrinks_keeps. eapply shrinks_less; [|apply Lt]. apply keeps_bind; [apply shrinks_keeps; auto | auto].
      + apply shrinks_keeps. eapply shrinks_less; [|apply Lt]. apply keeps_bind; [apply shrinks_keeps; auto | auto].
  Qed.

  (** More fuel changes nothing. *)
  Definition le_rr {A} (r r' : rr A) : Prop := r = Fuel \/ r = r'.
  Lemma le_bind : forall A B (r r' : rr A) (k k' : A -> list token -> rr B), le_rr r r' -> (forall a l, le_rr (k a l) (k' a l)) ->
    le_rr (rbind r k) (rbind r' k').
  Proof. intros A B r r' k k' [-> | ->] Hk; [left; reflexivity|]. destruct r' as [| |a l]; cbn; [left; reflexivity | right; reflexivity | apply Hk]. Qed.
  Lemma le_refl : forall A (r : rr A), le_rr r r. Proof. right. reflexivity. Qed.
  Lemma more_fuel : forall n,
    (forall m l, le_rr (r_expr br n m l) (r_expr br (S n) m l)) /\ (forall l, le_rr (r_primary br n l) (r_primary br (S n) l))
    /\ (forall m e l, le_rr (r_loop br n m e l) (r_loop br (S n) m e l)) /\ (forall l, le_rr (r_args br n l) (r_args br (S n) l))
    /\ (forall acc l, le_rr (r_list br n acc l) (r_list br (S n) acc l)) /\ (forall acc l, le_rr (r_preds br n acc l) (r_preds br (S n) acc l))
    /\ (forall l, le_rr (r_test br n l) (r_test br (S n) l)) /\ (forall l, le_rr (r_step br n l) (r_step br (S n) l))
    /\ (forall l, le_rr (r_path br n l) (r_path br (S n) l)) /\ (forall e l, le_rr (r_more br n e l) (r_more br (S n) e l)).
  Proof.
    induction n as [|n (I1 & I2 & I3 & I4 & I5 & I6 & I7 & I8 & I9 & I10)].
    { repeat apply conj; intros; left; reflexivity. }
    repeat apply conj; intros.
    - rewrite (r_expr_S br (S n)), (r_expr_S br n). apply le_bind; auto.
    - rewrite (r_primary_S br (S n)), (r_primary_S br n). destruct l as [|[w|w|z|f|p] l]; auto using le_refl.
      + destruct l as [|[w2|w2|z2|f2|p2] l]; auto. destruct p2; auto. apply le_bind; auto using le_refl.
      + destruct p; auto using le_refl.
        * destruct (step_start l); [apply le_bind|]; auto using le_refl.
        * apply le_bind; auto using le_refl.
        * apply le_bind; auto using le_refl.
        * apply le_bind; auto using le_refl.
        * destruct l as [|[w2|w2|z2|f2|p2] l]; auto using le_refl.
    - rewrite (r_loop_S br (S n)), (r_loop_S br n). destruct l as [|t l]; [apply le_refl|]. destruct (operator t) as [op|].
      + destruct (Nat.ltb m (strength op)); [apply le_bind|]; auto using le_refl.
      + destruct (Nat.eqb m 0); [|apply le_refl]. destruct t as [| | | |p]; try apply le_refl. destruct p; try apply le_refl; apply le_bind; auto.
    - rewrite (r_args_S br (S n)), (r_args_S br n). destruct l as [|[| | | |p] l]; try apply le_refl. destruct p; try apply le_refl.
      destruct l as [|[| | | |p] l]; auto. destruct p; auto using le_refl.
    - rewrite (r_list_S br (S n)), (r_list_S br n). apply le_bind; auto. intros a rest. destruct rest as [|[| | | |p] rest]; try apply le_refl. destruct p; try apply le_refl. auto.
    - rewrite (r_preds_S br (S n)), (r_preds_S br n). apply le_bind; auto. intros a rest. destruct rest as [|[| | | |p] rest]; try apply le_refl. destruct p; try apply le_refl.
      destruct rest as [|[| | | |p] rest]; try apply le_refl. destruct p; try apply le_refl. auto.
    - rewrite (r_test_S br (S n)), (r_test_S br n). destruct l as [|[w|w|z|f|p] l]; try apply le_refl.
      destruct l as [|[| | | |p] l]; try apply le_refl. destruct p; try apply le_refl. apply le_bind; auto. intros es rest. apply le_refl.
    - rewrite (r_step_S br (S n)), (r_step_S br n). destruct l as [|[w|w|z|f|p] l]; try (apply le_bind; auto using le_refl; fail).
      + destruct l as [|[| | | |p] l]; try (apply le_bind; auto using le_refl; fail). destruct p; try (apply le_bind; auto using le_refl; fail).
        destruct (axis_of w); [apply le_bind|]; auto using le_refl.
      + destruct p; try apply le_refl; apply le_bind; auto using le_refl.
    - rewrite (r_path_S br (S n)), (r_path_S br n). apply le_bind; auto.
    - rewrite (r_more_S br (S n)), (r_more_S br n). destruct l as [|[| | | |p] l]; try apply le_refl. destruct p; try apply le_refl; apply le_bind; auto.
  Qed.

  (** Enough fuel *)
  Lemma nofuel_bind : forall A B l (r : rr A) (k : A -> list token -> rr B), r <> Fuel -> shrinks l r ->
    (forall a rest, length rest < length l -> k a rest <> Fuel) -> rbind r k <> Fuel.
  Proof. intros A B l r k H S Hk. destruct r as [| |a rest]; cbn in *; [contradiction | discriminate | auto]. Qed.
  Lemma nofuel_done : forall A (a : A) l, done br a l <> Fuel.
  Proof. intros A a l. unfold done. destruct (follow br l); discriminate. Qed.
  Lemma enough : forall n,
    (forall m l, 8 * length l + 6 <= n -> r_expr br n m l <> Fuel) /\ (forall l, 8 * length l + 5 <= n -> r_primary br n l <> Fuel)
    /\ (forall m e l, 8 * length l + 1 <= n -> r_loop br n m e l <> Fuel) /\ (forall l, 8 * length l + 1 <= n -> r_args br n l <> Fuel)
    /\ (forall acc l, 8 * length l + 7 <= n -> r_list br n acc l <> Fuel) /\ (forall acc l, 8 * length l + 7 <= n -> r_preds br n acc l <> Fuel)
    /\ (forall l, 8 * length l + 2 <= n -> r_test br n l <> Fuel) /\ (forall l, 8 * length l + 3 <= n -> r_step br n l <> Fuel)
    /\ (forall l, 8 * length l + 4 <= n -> r_path br n l <> Fuel) /\ (forall e l, 8 * length l + 1 <= n -> r_more br n e l <> Fuel).
  Proof.
    induction n as [|n (I1 & I2 & I3 & I4 & I5 & I6 & I7 & I8 & I9 & I10)].
    { repeat apply conj; intros; lia. }
    destruct (shrinking n) as (S1 & S2 & S3 & S4 & S5 & S6 & S7 & S8 & S9 & S10).
    assert (OK : forall A (a : A) l, Ok a l <> Fuel) by discriminate.
    assert (BD : forall A, @Bad A <> Fuel) by discriminate.
    repeat apply conj; intros.
    - rewrite r_expr_S. eapply nofuel_bind; [apply I2; lia | apply S2 | intros; apply I3; lia].
    - rewrite r_primary_S. assert (D : r_path br n l <> Fuel) by (apply I9; lia).
      destruct l as [|[w|w|z|f|p] l]; auto using nofuel_done; cbn [length] in *.
      + destruct l as [|[w2|w2|z2|f2|p2] l]; auto. destruct p2; auto. eapply nofuel_bind; [apply I4; cbn [length] in *; lia | apply S4 | auto].
      + destruct p; auto using nofuel_done.
        * destruct (step_start l); auto using nofuel_done. eapply nofuel_bind; [apply I9; lia | apply S9 | auto].
        * eapply nofuel_bind; [apply I9; lia | apply S9 | auto].
        * eapply nofuel_bind; [apply I4; cbn [length]; lia | apply S4 | auto].
        * eapply nofuel_bind; [apply I1; lia | apply S1 | auto].
        * destruct l as [|[w2|w2|z2|f2|p2] l]; auto using nofuel_done.
    - rewrite r_loop_S. destruct l as [|t l]; [apply OK|]. cbn [length] in *. destruct (operator t) as [op|].
      + destruct (Nat.ltb m (strength op)); [|apply OK]. eapply nofuel_bind; [apply I1; lia | apply S1 | intros; apply I3; lia].
      + destruct (Nat.eqb m 0); [|apply OK]. destruct t as [| | | |p]; auto. destruct p; auto.
        * eapply nofuel_bind; [apply I9; lia | apply S9 | intros; apply I3; lia].
        * eapply nofuel_bind; [apply I9; lia | apply S9 | intros; apply I3; lia].
        * eapply nofuel_bind; [apply I6; lia | apply S6 | intros; apply I3; lia].
    - rewrite r_args_S. destruct l as [|[| | | |p] l]; auto. destruct p; auto. cbn [length] in *. assert (D : r_list br n [] l <> Fuel) by (apply I5; lia).
      destruct l as [|[| | | |p] l]; auto. destruct p; auto using nofuel_done.
    - rewrite r_list_S. eapply nofuel_bind; [apply I1; lia | apply S1 |]. intros a rest L. destruct rest as [|[| | | |p] rest]; auto. destruct p; auto using nofuel_done.
      apply I5. cbn [length] in *. lia.
    - rewrite r_preds_S. eapply nofuel_bind; [apply I1; lia | apply S1 |]. intros a rest L. destruct rest as [|[| | | |p] rest]; auto. destruct p; auto.
      destruct rest as [|[| | | |p] rest]; auto using nofuel_done. destruct p; auto using nofuel_done. apply I6. cbn [length] in *. lia.
    - rewrite r_test_S. destruct l as [|[w|w|z|f|p] l]; auto.
      + destruct l as [|[| | | |p] l]; auto using nofuel_done. destruct p; auto using nofuel_done.
        eapply nofuel_bind; [apply I4; cbn [length] in *; lia | apply S4 |]. intros es rest L. destruct (call_of w es); auto.
      + destruct p; auto using nofuel_done.
    - rewrite r_step_S. assert (D : rbind (r_test br n l) (fun t l => Ok (EStep AxChild t) l) <> Fuel) by (eapply nofuel_bind; [apply I7; lia | apply S7 | auto]).
      destruct l as [|[w|w|z|f|p] l]; auto; cbn [length] in *.
      + destruct l as [|[| | | |p] l]; auto. destruct p; auto. destruct (axis_of w); auto. eapply nofuel_bind; [apply I7; cbn [length] in *; lia | apply S7 | auto].
      + destruct p; auto using nofuel_done. eapply nofuel_bind; [apply I7; lia | apply S7 | auto].
    - rewrite r_path_S. eapply nofuel_bind; [apply I8; lia | apply S8 | intros; apply I10; lia].
    - rewrite r_more_S. destruct l as [|[| | | |p] l]; auto. cbn [length] in *. destruct p; auto.
      + eapply nofuel_bind; [apply I8; lia | apply S8 | intros; apply I10; lia].
      + eapply nofuel_bind; [apply I8; lia | apply S8 | intros; apply I10; lia].
  Qed.

  Lemma same_fuel : forall A (f : nat -> rr A) a n, (forall n, le_rr (f n) (f (S n))) -> f a <> Fuel -> a <= n -> f n = f a.
  Proof.
    intros A f a n Hm Ha Hn. induction Hn as [|n Hn IH]; [reflexivity|]. destruct (Hm n) as [E | E]; [rewrite IH in E; contradiction|]. congruence.
  Qed.

  (** ** Without fuel *)
  Definition x_expr m l := r_expr br (8 * length l + 6) m l.
  Definition x_primary l := r_primary br (8 * length l + 5) l.
  Definition x_loop m e l := r_loop br (8 * length l + 1) m e l.
  Definition x_args l := r_args br (8 * length l + 1) l.
  Definition x_list acc l := r_list br (8 * length l + 7) acc l.
  Definition x_preds acc l := r_preds br (8 * length l + 7) acc l.
  Definition x_test l := r_test br (8 * length l + 2) l.
  Definition x_step l := r_step br (8 * length l + 3) l.
  Definition x_path l := r_path br (8 * length l + 4) l.
  Definition x_more e l := r_more br (8 * length l + 1) e l.
  Lemma is_x : forall n,
    (forall m l, 8 * length l + 6 <= n -> r_expr br n m l = x_expr m l) /\ (forall l, 8 * length l + 5 <= n -> r_primary br n l = x_primary l)
    /\ (forall m e l, 8 * length l + 1 <= n -> r_loop br n m e l = x_loop m e l) /\ (forall l, 8 * length l + 1 <= n -> r_args br n l = x_args l)
    /\ (forall acc l, 8 * length l + 7 <= n -> r_list br n acc l = x_list acc l) /\ (forall acc l, 8 * length l + 7 <= n -> r_preds br n acc l = x_preds acc l)
    /\ (forall l, 8 * length l + 2 <= n -> r_test br n l = x_test l) /\ (forall l, 8 * length l + 3 <= n -> r_step br n l = x_step l)
    /\ (forall l, 8 * length l + 4 <= n -> r_path br n l = x_path l) /\ (forall e l, 8 * length l + 1 <= n -> r_more br n e l = x_more e l).
  Proof.
    intros n. repeat apply conj; intros.
    - apply (same_fuel _ (fun n => r_expr br n m l)); [intros k; apply more_fuel | apply enough; lia | lia].
    - apply (same_fuel _ (fun n => r_primary br n l)); [intros k; apply more_fuel | apply enough; lia | lia].
    - apply (same_fuel _ (fun n => r_loop br n m e l)); [intros k; apply more_fuel | apply enough; lia | lia].
    - apply (same_fuel _ (fun n => r_args br n l)); [intros k; apply more_fuel | apply enough; lia | lia].
    - apply (same_fuel _ (fun n => r_list br n acc l)); [intros k; apply more_fuel | apply enough; lia | lia].
    - apply (same_fuel _ (fun n => r_preds br n acc l)); [intros k; apply more_fuel | apply enough; lia | lia].
    - apply (same_fuel _ (fun n => r_test br n l)); [intros k; apply more_fuel | apply enough; lia | lia].
    - apply (same_fuel _ (fun n => r_step br n l)); [intros k; apply more_fuel | apply enough; lia | lia].
    - apply (same_fuel _ (fun n => r_path br n l)); [intros k; apply more_fuel | apply enough; lia | lia].
    - apply (same_fuel _ (fun n => r_more br n e l)); [intros k; apply more_fuel | apply enough; lia | lia].
  Qed.

  Lemma bind_ext : forall A B l (r r' : rr A) (k k' : A -> list token -> rr B), r = r' -> shrinks l r ->
    (forall a rest, length rest < length l -> k a rest = k' a rest) -> rbind r k = rbind r' k'.
  Proof. intros A B l r r' k k' <- S Hk. destruct r as [| |a rest]; cbn in *; auto. Qed.

  Lemma x_expr_eq : forall m l, x_expr m l = rbind (x_primary l) (fun e l => x_loop m e l).
  Proof.
    intros m l. unfold x_expr. replace (8 * length l + 6) with (S (8 * length l + 5)) by lia. rewrite r_expr_S.
    eapply bind_ext; [apply is_x; lia | apply shrinking | intros; apply is_x; lia].
  Qed.
  Lemma x_primary_eq : forall l, x_primary l =
    match l with
    | P Minus :: l => rbind (x_expr minus_strength l) (fun e l => Ok (ENeg e) l)
    | P LPar :: _ => rbind (x_args l) (fun es l => Ok (ESeq es) l)
    | Quoted s :: l => done br (ELit (LStr s)) l
    | Int z :: l => done br (ELit (LInt z)) l
    | Flt f :: l => done br (ELit (LFlt f)) l
    | P Dollar :: Word s :: l => done br (EVar s) l
    | P Slash :: l => if step_start l then rbind (x_path l) (fun p l => Ok (EAbs false (Some p)) l) else done br (EAbs false None) l
    | P Slashes :: l => rbind (x_path l) (fun p l => Ok (EAbs true (Some p)) l)
    | Word f :: ((P LPar :: _) as l) => rbind (x_args l) (fun es l => Ok (call_of f es) l)
    | _ => x_path l
    end.
  Proof.
    intros l. unfold x_primary. replace (8 * length l + 5) with (S (8 * length l + 4)) by lia. rewrite r_primary_S.
    assert (D : r_path br (8 * length l + 4) l = x_path l) by reflexivity.
    destruct l as [|[w|w|z|f|p] l]; auto.
    - destruct l as [|[w2|w2|z2|f2|p2] l]; auto. destruct p2; auto. eapply bind_ext; [apply is_x; cbn [length]; lia | apply shrinking | auto].
    - destruct p; auto.
      + destruct (step_start l); auto. eapply bind_ext; [apply is_x; cbn [length]; lia | apply shrinking | auto].
      + eapply bind_ext; [apply is_x; cbn [length]; lia | apply shrinking | auto].
      + eapply bind_ext; [apply is_x; cbn [length]; lia | apply shrinking | auto].
      + eapply bind_ext; [apply is_x; cbn [length]; lia | apply shrinking | auto].
  Qed.
  Lemma x_loop_eq : forall m e l, x_loop m e l =
    match l with
    | [] => Ok e l
    | t :: l1 =>
        match operator t with
        | Some op => if Nat.ltb m (strength op) then rbind (x_expr (strength op) l1) (fun r l => x_loop m (EBin e op r) l) else Ok e l
        | None =>
            if Nat.eqb m 0 then
              match t with
              | P LBrk => rbind (x_preds [] l1) (fun ps l => x_loop m (EPred e ps) l)
              | P Slash => rbind (x_path l1) (fun p l => x_loop m (EBin e OpPath p) l)
              | P Slashes => rbind (x_path l1) (fun p l => x_loop m (EBin e OpDeep p) l)
              | _ => Ok e l
              end
            else Ok e l
        end
    end.
  Proof.
    intros m e l. unfold x_loop at 1. replace (8 * length l + 1) with (S (8 * length l)) by lia. rewrite r_loop_S.
    destruct l as [|t l]; auto. cbn [length]. destruct (operator t) as [op|].
    - destruct (Nat.ltb m (strength op)); auto. eapply bind_ext; [apply is_x; lia | apply shrinking | intros; apply is_x; lia].
    - destruct (Nat.eqb m 0); auto. destruct t as [| | | |p]; auto.
      destruct p; auto; (eapply bind_ext; [apply is_x; lia | apply shrinking | intros; apply is_x; lia]).
  Qed.
  Lemma x_args_eq : forall l, x_args l =
    match l with P LPar :: P RPar :: l => done br [] l | P LPar :: l => x_list [] l | _ => Bad end.
  Proof.
    intros l. unfold x_args. replace (8 * length l + 1) with (S (8 * length l)) by lia. rewrite r_args_S.
    destruct l as [|[| | | |p] l]; auto. destruct p; auto. assert (D : r_list br (8 * length (P LPar :: l)) [] l = x_list [] l) by (apply is_x; cbn [length]; lia).
    destruct l as [|[| | | |p] l]; auto. destruct p; auto.
  Qed.
  Lemma x_list_eq : forall acc l, x_list acc l = rbind (x_expr 0 l) (fun e l =>
    match l with P RPar :: l => done br (acc ++ [e]) l | P Comma :: l => x_list (acc ++ [e]) l | _ => Bad end).
  Proof.
    intros acc l. unfold x_list at 1. replace (8 * length l + 7) with (S (8 * length l + 6)) by lia. rewrite r_list_S.
    eapply bind_ext; [apply is_x; lia | apply shrinking |]. intros a rest L. destruct rest as [|[| | | |p] rest]; auto. destruct p; auto.
    apply is_x. cbn [length] in L. lia.
  Qed.
  Lemma x_preds_eq : forall acc l, x_preds acc l = rbind (x_expr 0 l) (fun e l =>
    match l with P RBrk :: P LBrk :: l => x_preds (acc ++ [e]) l | P RBrk :: l => done br (acc ++ [e]) l | _ => Bad end).
  Proof.
    intros acc l. unfold x_preds at 1. replace (8 * length l + 7) with (S (8 * length l + 6)) by lia. rewrite r_preds_S.
    eapply bind_ext; [apply is_x; lia | apply shrinking |]. intros a rest L. destruct rest as [|[| | | |p] rest]; auto. destruct p; auto.
    destruct rest as [|[| | | |p] rest]; auto. destruct p; auto. apply is_x. cbn [length] in L. lia.
  Qed.
  Lemma x_test_eq : forall l, x_test l =
    match l with
    | Word f :: ((P LPar :: _) as l) => rbind (x_args l) (fun es l => match call_of f es with ETest t => Ok t l | _ => Bad end)
    | Word s :: l => done br (TName s) l
    | P Star :: l => done br TStar l
    | _ => Bad
    end.
  Proof.
    intros l. unfold x_test. replace (8 * length l + 2) with (S (8 * length l + 1)) by lia. rewrite r_test_S.
    destruct l as [|[w|w|z|f|p] l]; auto. destruct l as [|[| | | |p] l]; auto. destruct p; auto.
    eapply bind_ext; [apply is_x; cbn [length]; lia | apply shrinking | auto].
  Qed.
  Lemma x_step_eq : forall l, x_step l =
    match l with
    | P Dot :: l => done br (EAbbrev false) l
    | P Dots :: l => done br (EAbbrev true) l
    | P At :: l => rbind (x_test l) (fun t l => Ok (EStep AxAttribute t) l)
    | Word s :: P Colons :: l => match axis_of s with
                                 | Some ax => rbind (x_test l) (fun t l => Ok (EStep ax t) l)
                                 | None => Bad
                                 end
    | _ => rbind (x_test l) (fun t l => Ok (EStep AxChild t) l)
    end.
  Proof.
    intros l. unfold x_step. replace (8 * length l + 3) with (S (8 * length l + 2)) by lia. rewrite r_step_S.
    assert (D : rbind (r_test br (8 * length l + 2) l) (fun t l => Ok (EStep AxChild t) l) = rbind (x_test l) (fun t l => Ok (EStep AxChild t) l)) by reflexivity.
    destruct l as [|[w|w|z|f|p] l]; auto.
    - destruct l as [|[| | | |p] l]; auto. destruct p; auto. destruct (axis_of w); auto. eapply bind_ext; [apply is_x; cbn [length]; lia | apply shrinking | auto].
    - destruct p; auto. eapply bind_ext; [apply is_x; cbn [length]; lia | apply shrinking | auto].
  Qed.
  Lemma x_path_eq : forall l, x_path l = rbind (x_step l) (fun e l => x_more e l).
  Proof.
    intros l. unfold x_path. replace (8 * length l + 4) with (S (8 * length l + 3)) by lia. rewrite r_path_S.
    eapply bind_ext; [apply is_x; lia | apply shrinking | intros; apply is_x; lia].
  Qed.
  Lemma x_more_eq : forall e l, x_more e l =
    match l with
    | P Slash :: l => rbind (x_step l) (fun s l => x_more (EBin e OpPath s) l)
    | P Slashes :: l => rbind (x_step l) (fun s l => x_more (EBin e OpDeep s) l)
    | _ => Ok e l
    end.
  Proof.
    intros e l. unfold x_more at 1. replace (8 * length l + 1) with (S (8 * length l)) by lia. rewrite r_more_S.
    destruct l as [|[| | | |p] l]; auto. cbn [length]. destruct p; auto.
    - eapply bind_ext; [apply is_x; lia | apply shrinking | intros; apply is_x; lia].
    - eapply bind_ext; [apply is_x; lia | apply shrinking | intros; apply is_x; lia].
  Qed.
End Fuel.
