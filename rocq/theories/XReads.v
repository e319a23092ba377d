(** What the tables accept, and what they make of it: exactly what XGramSpec says. *)
From Verif Require Import PyStr XPath Lalr XGram XGramSpec XTok XParse XSim XParseFacts.
From Verif Require ParserInv.

Definition blocks (e : expr) (l : list token) : Prop :=
  match l with
  | [] => True
  | t :: _ => (forall op, operator t = Some op -> absorbs e op = false)
              /\ (t = P Slash \/ t = P Slashes -> ends_in_path e = false) /\ (t = P LBrk -> is_predicated e = false)
  end.
Definition call_start (l : list token) : bool := match l with Word _ :: P LPar :: _ => true | _ => false end.

Lemma axis_of_name : forall ax, axis_of (axis_word ax) = Some ax.
Proof. intros ax; destruct ax; reflexivity. Qed.
Lemma axis_word_name ax : axis_word ax = axis_name ax.
Proof. destruct ax; reflexivity. Qed.
Lemma axis_of_inv : forall s ax, axis_of s = Some ax -> s = axis_word ax.
Proof.
  intros s ax. rewrite axis_word_name. unfold axis_of, axes. generalize [AxSelf; AxAttribute; AxAncestor; AxAncestorOrSelf; AxChild; AxDescendant; AxDescendantOrSelf; AxFollowing; AxFollowingSibling;
     AxParent; AxPreceding; AxPrecedingSibling].
  induction l as [|a l IH]; cbn [map dict_get]; [discriminate|]. destruct (str_eqb (axis_name a) s) eqn:E; [|exact IH].
  intros [= <-]. now apply (proj1 (ParserInv.str_eqb_eq _ _)) in E.
Qed.

Lemma step_facts : forall f ts e, one_step f ts e -> ends_in_path e = true /\ is_predicated e = false /\ forall op, absorbs e op = false.
Proof. intros f ts e H. inversion H; subst; cbn; auto. Qed.
Lemma strength8 : forall op, (8 <? strength op) = false.
Proof.
  intros op. apply Nat.ltb_ge. destruct op as [| | | | | | | | | | |w]; cbn [strength]; try lia. destruct (str_eqb w (lit "+") || str_eqb w (lit "-")); lia.
Qed.
Lemma path_facts : forall f ts e, path f ts e -> ends_in_path e = true /\ is_predicated e = false /\ forall op, absorbs e op = false.
Proof.
  intros f ts e H. induction H as [f ts e H|f ts e d ts' e' H IH H'].
  - eapply step_facts; eauto.
  - destruct (step_facts _ _ _ H') as (A & B & C). split; [destruct d; reflexivity|]. split; [reflexivity|]. intros op.
    destruct d; cbn [sep_op absorbs]; rewrite (C op), orb_false_r; [apply (strength8 op) | apply (strength8 op)].
Qed.
Lemma reads_pred : forall m ts e, reads m ts e -> 0 < m -> is_predicated e = false.
Proof.
  intros m ts e H Hm. destruct H; try reflexivity; try lia. now apply path_facts in H.
Qed.

Lemma operator_step : forall t op, operator t = Some op -> op <> OpPath /\ op <> OpDeep.
Proof.
  intros t op E. destruct t as [w|w|z|f|p]; try discriminate; cbn [operator] in E.
  - destruct (str_eqb w (lit "or")); [inversion E; split; discriminate|]. destruct (str_eqb w (lit "and")); [inversion E; split; discriminate|].
    destruct (str_eqb w (lit "div") || str_eqb w (lit "mod")); inversion E; split; discriminate.
  - destruct p; inversion E; split; discriminate.
Qed.

Section Sound.
  Variable br : bool.
  Lemma done_inv : forall A (a b : A) l rest, done br a l = Ok b rest -> b = a /\ rest = l /\ follow br l = true.
  Proof. intros A a b l rest H. unfold done in H. destruct (follow br l); inversion H. auto. Qed.
  Lemma bind_inv : forall A B (r : rr A) (k : A -> list token -> rr B) b rest, rbind r k = Ok b rest -> exists a l, r = Ok a l /\ k a l = Ok b rest.
  Proof. intros A B [| |a l] k b rest H; try discriminate. eauto. Qed.
  Lemma call_of_cases : forall f es ts m, arguments ts es -> reads m (Word f :: ts) (call_of f es) /\ (forall t, call_of f es = ETest t -> node_type (Word f :: ts) t).
  Proof.
    intros f es ts m A. unfold call_of. destruct (str_eqb f (lit "node")) eqn:E1.
    { apply (proj1 (ParserInv.str_eqb_eq _ _)) in E1. subst f. split; [apply R_type; eapply N_node; eauto | intros t [= <-]; eapply N_node; eauto]. }
    destruct (str_eqb f (lit "text")) eqn:E2.
    { apply (proj1 (ParserInv.str_eqb_eq _ _)) in E2. subst f. split; [apply R_type; eapply N_text; eauto | intros t [= <-]; eapply N_text; eauto]. }
    split; [|intros t; discriminate].
    apply R_call; auto; intros ->; rewrite ParserInv.str_eqb_refl in *; discriminate.
  Qed.
  Lemma blocks_simple : forall e l, ends_in_path e = false -> is_predicated e = false -> (forall op, absorbs e op = false) -> blocks e l.
  Proof. intros e [|t l] A B C; cbn; auto. Qed.
  Lemma blocks_path : forall e l, nosep br l = true -> is_predicated e = false -> (forall op, absorbs e op = false) -> blocks e l.
  Proof.
    intros e [|t l] N B C; cbn [blocks]; auto. repeat split; auto. intros [-> | ->]; apply andb_prop in N as [_ N]; discriminate.
  Qed.
  Lemma stops_op : forall m t l op, stops br m (t :: l) = true -> operator t = Some op -> strength op <= m.
  Proof. intros m t l op H E. apply andb_prop in H as [_ H]. rewrite E in H. now apply Nat.leb_le. Qed.

  Lemma sound : forall n,
    (forall m l e rest, r_expr br n m l = Ok e rest -> exists ts, l = ts ++ rest /\ reads m ts e /\ blocks e rest /\ stops br m rest = true)
    /\ (forall l e rest, r_primary br n l = Ok e rest -> exists ts, l = ts ++ rest /\ (forall m, reads m ts e) /\ blocks e rest /\ follow br rest = true)
    /\ (forall m e l e' rest ts0, r_loop br n m e l = Ok e' rest -> reads m ts0 e -> blocks e l -> follow br l = true ->
          exists ts, l = ts ++ rest /\ reads m (ts0 ++ ts) e' /\ blocks e' rest /\ stops br m rest = true)
    /\ (forall l es rest, r_args br n l = Ok es rest -> exists ts, l = ts ++ rest /\ arguments ts es /\ follow br rest = true)
    /\ (forall acc l es rest, r_list br n acc l = Ok es rest -> exists ts es', l = ts ++ P RPar :: rest /\ es = acc ++ es' /\ listed ts es' /\ follow br rest = true)
    /\ (forall acc l es rest, r_preds br n acc l = Ok es rest -> exists ts es', P LBrk :: l = ts ++ rest /\ es = acc ++ es' /\ predicates ts es' /\ nobrk br rest = true)
    /\ (forall l t rest, r_test br n l = Ok t rest -> exists ts, l = ts ++ rest /\ node_test ts t /\ (call_start l = false -> (exists s, ts = [Word s] /\ t = TName s) \/ (ts = [P Star] /\ t = TStar))
          /\ follow br rest = true)
    /\ (forall l e rest, r_step br n l = Ok e rest -> exists ts, l = ts ++ rest /\ one_step true ts e /\ (call_start l = false -> one_step false ts e) /\ follow br rest = true)
    /\ (forall l e rest, r_path br n l = Ok e rest -> exists ts, l = ts ++ rest /\ path true ts e /\ (call_start l = false -> path false ts e) /\ nosep br rest = true)
    /\ (forall e l e' rest f ts0, r_more br n e l = Ok e' rest -> path f ts0 e -> follow br l = true -> exists ts, l = ts ++ rest /\ path f (ts0 ++ ts) e' /\ nosep br rest = true).
  Proof.
    induction n as [|n (I1 & I2 & I3 & I4 & I5 & I6 & I7 & I8 & I9 & I10)].
    { repeat apply conj; intros; discriminate. }
    repeat apply conj.
    - (* expr *)
      intros m l e rest H. rewrite r_expr_S in H. apply bind_inv in H as (a & l1 & H1 & H2).
      apply I2 in H1 as (ts & -> & R & B & F). destruct (I3 _ _ _ _ _ ts H2 (R m) B F) as (ts2 & -> & R2 & B2 & S2).
      exists (ts ++ ts2). rewrite app_assoc. auto.
    - (* primary *)
      intros l e rest H. rewrite r_primary_S in H.
      assert (D : r_path br n l = Ok e rest -> call_start l = false -> exists ts, l = ts ++ rest /\ (forall m, reads m ts e) /\ blocks e rest /\ follow br rest = true).
      { intros H1 C. apply I9 in H1 as (ts & -> & _ & P0 & N). exists ts. specialize (P0 C). destruct (path_facts _ _ _ P0) as (A1 & A2 & A3).
        repeat split; auto; [intros m; now apply R_path | now apply blocks_path | now apply andb_prop in N]. }
      destruct l as [|[w|w|z|f|p] l]; auto.
      + assert (D2 : r_path br n (Word w :: l) = Ok e rest -> call_start (Word w :: l) = false -> exists ts, Word w :: l = ts ++ rest /\ (forall m, reads m ts e) /\ blocks e rest /\ follow br rest = true) by auto.
        destruct l as [|[w2|w2|z2|f2|p2] l]; auto. destruct p2; auto.
        apply bind_inv in H as (es & l1 & H1 & H2). inversion H2; subst. apply I4 in H1 as (ts & E & A & F). exists (Word w :: ts).
        split; [now rewrite E|]. split; [intros m; now apply call_of_cases|]. split; [|exact F].
        unfold call_of. apply blocks_simple; destruct (str_eqb w (lit "node")); auto; destruct (str_eqb w (lit "text")); auto.
      + apply done_inv in H as (-> & -> & F). exists [Quoted w]. repeat split; auto; [intros; constructor | now apply blocks_simple].
      + apply done_inv in H as (-> & -> & F). exists [Int z]. repeat split; auto; [intros; constructor | now apply blocks_simple].
      + apply done_inv in H as (-> & -> & F). exists [Flt f]. repeat split; auto; [intros; constructor | now apply blocks_simple].
      + destruct p; auto.
        * destruct (step_start l) eqn:SS.
          -- apply bind_inv in H as (a & l1 & H1 & H2). inversion H2; subst. apply I9 in H1 as (ts & -> & P1 & _ & N). exists (P Slash :: ts).
             split; [reflexivity|]. split; [intros m; apply (R_abs m false); exact P1|]. split; [apply blocks_path; auto | now apply andb_prop in N].
          -- apply done_inv in H as (-> & -> & F). exists [P Slash]. split; [reflexivity|]. split; [intros m; apply R_root|]. split; [|exact F].
             destruct l as [|t l]; cbn [blocks]; auto. repeat split; auto. intros op E. destruct t as [w|w|z|f|p]; try discriminate.
             destruct p; try discriminate; inversion E; reflexivity.
        * apply bind_inv in H as (a & l1 & H1 & H2). inversion H2; subst. apply I9 in H1 as (ts & -> & P1 & _ & N). exists (P Slashes :: ts).
          split; [reflexivity|]. split; [intros m; apply (R_abs m true); exact P1|]. split; [apply blocks_path; auto | now apply andb_prop in N].
        * apply bind_inv in H as (es & l1 & H1 & H2). inversion H2; subst. apply I4 in H1 as (ts & E & A & F). exists ts.
          split; [exact E|]. split; [intros m; now apply R_seq|]. split; [now apply blocks_simple | exact F].
        * apply bind_inv in H as (a & l1 & H1 & H2). inversion H2; subst. apply I1 in H1 as (ts & -> & R & B & St). exists (P Minus :: ts).
          split; [reflexivity|]. split; [intros m; now apply R_neg|]. split; [|now apply andb_prop in St].
          destruct rest as [|t rest]; cbn [blocks] in *; auto. destruct B as (B1 & B2 & B3). repeat split; auto. intros op E. cbn [absorbs].
          rewrite (B1 op E). replace (minus_strength <? strength op) with false; auto. symmetry. apply Nat.ltb_ge. eapply stops_op; eauto.
        * destruct l as [|[w2|w2|z2|f2|p2] l]; auto. apply done_inv in H as (-> & -> & F). exists [P Dollar; Word w2].
          repeat split; auto; [intros; constructor | now apply blocks_simple].
    - (* loop *)
      intros m e l e' rest ts0 H R B F. rewrite r_loop_S in H.
      assert (D : Ok e l = Ok e' rest -> stops br m l = true -> exists ts, l = ts ++ rest /\ reads m (ts0 ++ ts) e' /\ blocks e' rest /\ stops br m rest = true).
      { intros E S. inversion E; subst. exists []. rewrite app_nil_r. auto. }
      destruct l as [|t l]; [apply D; auto; unfold stops; now rewrite F|].
      destruct (operator t) as [op|] eqn:E.
      + destruct (Nat.ltb m (strength op)) eqn:Lt.
        2:{ apply D; auto. unfold stops. rewrite F, E. apply Nat.ltb_ge in Lt. now apply Nat.leb_le in Lt. }
        apply Nat.ltb_lt in Lt. apply bind_inv in H as (b & l1 & H1 & H2). apply I1 in H1 as (ts1 & -> & R1 & B1 & S1).
        destruct B as (Ba & _ & _). specialize (Ba op E).
        assert (R2 : reads m (ts0 ++ t :: ts1) (EBin e op b)) by (eapply R_bin; eauto).
        destruct (I3 _ _ _ _ _ _ H2 R2) as (ts2 & -> & R3 & B3 & S3).
        { destruct l1 as [|t1 l1]; cbn [blocks] in *; auto. destruct B1 as (B1 & B2 & B4).
          assert (NP : ends_in_path (EBin e op b) = ends_in_path b) by (apply operator_step in E; destruct op; try reflexivity; destruct E; congruence).
          repeat split; auto.
          - intros op' E'. cbn [absorbs]. rewrite (B1 op' E'). replace (strength op <? strength op') with false; auto. symmetry. apply Nat.ltb_ge. eapply stops_op; eauto.
          - intros Hs. rewrite NP. auto. }
        { now apply andb_prop in S1. }
        exists (t :: ts1 ++ ts2). split; [now rewrite <- app_comm_cons, <- app_assoc|]. rewrite <- app_assoc, <- app_comm_cons in R3. auto.
      + destruct (Nat.eqb m 0) eqn:M0.
        2:{ apply D; auto. unfold stops. now rewrite F, E, M0. }
        apply Nat.eqb_eq in M0. subst m. destruct B as (_ & Bs & Bp).
        destruct t as [w|w|z|f|p]; try (apply D; auto; unfold stops; rewrite F, E; reflexivity).
        destruct p; try (apply D; auto; unfold stops; rewrite F, E; reflexivity); clear D.
        * apply bind_inv in H as (b & l1 & H1 & H2). apply I9 in H1 as (ts1 & -> & P1 & _ & N).
          assert (R2 : reads 0 (ts0 ++ P Slash :: ts1) (EBin e OpPath b)) by (apply (R_step ts0 false); auto).
          destruct (path_facts _ _ _ P1) as (A1 & A2 & A3).
          destruct (I3 _ _ _ _ _ _ H2 R2) as (ts2 & -> & R3 & B3 & S3).
          { apply blocks_path; auto. intros op. cbn [absorbs]. rewrite A3, orb_false_r. apply (strength8 op). }
          { now apply andb_prop in N. }
          exists (P Slash :: ts1 ++ ts2). split; [now rewrite <- app_comm_cons, <- app_assoc|]. rewrite <- app_assoc, <- app_comm_cons in R3. auto.
        * apply bind_inv in H as (b & l1 & H1 & H2). apply I9 in H1 as (ts1 & -> & P1 & _ & N).
          assert (R2 : reads 0 (ts0 ++ P Slashes :: ts1) (EBin e OpDeep b)) by (apply (R_step ts0 true); auto).
          destruct (path_facts _ _ _ P1) as (A1 & A2 & A3).
          destruct (I3 _ _ _ _ _ _ H2 R2) as (ts2 & -> & R3 & B3 & S3).
          { apply blocks_path; auto. intros op. cbn [absorbs]. rewrite A3, orb_false_r. apply (strength8 op). }
          { now apply andb_prop in N. }
          exists (P Slashes :: ts1 ++ ts2). split; [now rewrite <- app_comm_cons, <- app_assoc|]. rewrite <- app_assoc, <- app_comm_cons in R3. auto.
        * apply bind_inv in H as (ps & l1 & H1 & H2). apply I6 in H1 as (ts1 & es & E1 & -> & P1 & N). cbn [app] in H2.
          assert (R2 : reads 0 (ts0 ++ ts1) (EPred e es)) by (apply R_pred; auto).
          destruct (I3 _ _ _ _ _ _ H2 R2) as (ts2 & -> & R3 & B3 & S3).
          { destruct l1 as [|t1 l1]; cbn [blocks]; auto. repeat split; auto. intros ->. apply andb_prop in N as [_ N]. discriminate. }
          { now apply andb_prop in N. }
          exists (ts1 ++ ts2). split; [now rewrite E1, <- app_assoc|]. rewrite <- app_assoc in R3. auto.
    - (* args *)
      intros l es rest H. rewrite r_args_S in H. destruct l as [|[| | | |p] l]; try discriminate. destruct p; try discriminate.
      assert (D : r_list br n [] l = Ok es rest -> exists ts, P LPar :: l = ts ++ rest /\ arguments ts es /\ follow br rest = true).
      { intros H1. apply I5 in H1 as (ts & es' & -> & -> & L & F). exists (P LPar :: ts ++ [P RPar]). split; [cbn; now rewrite <- app_assoc|]. split; [now apply A_some | exact F]. }
      destruct l as [|[| | | |p] l]; auto. destruct p; auto. apply done_inv in H as (-> & -> & F). exists [P LPar; P RPar]. repeat split; auto. constructor.
    - (* list *)
      intros acc l es rest H. rewrite r_list_S in H. apply bind_inv in H as (a & l1 & H1 & H2). apply I1 in H1 as (ts & -> & R & _ & _).
      destruct l1 as [|[| | | |p] l1]; try discriminate. destruct p; try discriminate.
      + apply done_inv in H2 as (-> & -> & F). exists ts, [a]. repeat split; auto. now constructor.
      + apply I5 in H2 as (ts2 & es2 & -> & -> & L & F). exists (ts ++ P Comma :: ts2), (a :: es2). rewrite <- !app_assoc. repeat split; auto. now apply L_more.
    - (* preds *)
      intros acc l es rest H. rewrite r_preds_S in H. apply bind_inv in H as (a & l1 & H1 & H2). apply I1 in H1 as (ts & -> & R & _ & _).
      destruct l1 as [|[| | | |p] l1]; try discriminate. destruct p; try discriminate.
      assert (D : done br (acc ++ [a]) l1 = Ok es rest -> match l1 with P LBrk :: _ => false | _ => true end = true ->
        exists ts0 es', P LBrk :: ts ++ P RBrk :: l1 = ts0 ++ rest /\ es = acc ++ es' /\ predicates ts0 es' /\ nobrk br rest = true).
      { intros H N. apply done_inv in H as (-> & -> & F). exists (P LBrk :: ts ++ [P RBrk]), [a]. split; [cbn; now rewrite <- app_assoc|].
        repeat split; auto; [now apply Ps_one|]. unfold nobrk. now rewrite F, N. }
      destruct l1 as [|[| | | |p] l1]; auto. destruct p; auto.
      apply I6 in H2 as (ts2 & es2 & E2 & -> & L & F). exists (P LBrk :: ts ++ P RBrk :: ts2), (a :: es2).
      split; [cbn; rewrite <- app_assoc; cbn; now rewrite <- E2|]. rewrite <- app_assoc. repeat split; auto. now apply Ps_more.
    - (* test *)
      intros l t rest H. rewrite r_test_S in H. destruct l as [|[w|w|z|f|p] l]; try discriminate.
      + assert (D : done br (TName w) l = Ok t rest -> exists ts, Word w :: l = ts ++ rest /\ node_test ts t
            /\ (call_start (Word w :: l) = false -> (exists s, ts = [Word s] /\ t = TName s) \/ (ts = [P Star] /\ t = TStar)) /\ follow br rest = true).
        { intros H1. apply done_inv in H1 as (-> & -> & F). exists [Word w]. repeat split; auto; [constructor | eauto]. }
        destruct l as [|[| | | |p] l]; auto. destruct p; auto.
        apply bind_inv in H as (es & l1 & H1 & H2). apply I4 in H1 as (ts & E & A & F). destruct (call_of_cases w es ts 0 A) as [_ C].
        destruct (call_of w es) eqn:CE; try discriminate. inversion H2; subst. exists (Word w :: ts).
        split; [now rewrite E|]. split; [apply T_type; now apply C|]. split; [discriminate | exact F].
      + destruct p; try discriminate. apply done_inv in H as (-> & -> & F). exists [P Star]. repeat split; auto. constructor.
    - (* step *)
      intros l e rest H. rewrite r_step_S in H.
      assert (D : rbind (r_test br n l) (fun t l => Ok (EStep AxChild t) l) = Ok e rest ->
        exists ts, l = ts ++ rest /\ one_step true ts e /\ (call_start l = false -> one_step false ts e) /\ follow br rest = true).
      { intros H1. apply bind_inv in H1 as (t & l1 & H1 & H2). inversion H2; subst. apply I7 in H1 as (ts & -> & T & C & F). exists ts. split; [reflexivity|].
        assert (call_start (ts ++ rest) = false -> one_step false ts (EStep AxChild t) /\ one_step true ts (EStep AxChild t)).
        { intros X. destruct (C X) as [(s & -> & ->) | (-> & ->)]; split; constructor. }
        split; [|split; [tauto | exact F]]. destruct T; [constructor | constructor | now apply S_type]. }
      destruct l as [|[w|w|z|f|p] l]; auto.
      + destruct l as [|[| | | |p] l]; auto. destruct p; auto. clear D. destruct (axis_of w) as [ax|] eqn:AX; [|discriminate].
        apply axis_of_inv in AX. subst w. apply bind_inv in H as (t & l1 & H1 & H2). inversion H2; subst. apply I7 in H1 as (ts & -> & T & _ & F).
        exists (Word (axis_word ax) :: P Colons :: ts). split; [reflexivity|]. split; [now apply S_axis|]. split; [intros _; now apply S_axis | exact F].
      + destruct p; auto.
        * apply done_inv in H as (-> & -> & F). exists [P Dot]. repeat split; auto; intros; constructor.
        * apply done_inv in H as (-> & -> & F). exists [P Dots]. repeat split; auto; intros; constructor.
        * apply bind_inv in H as (t & l1 & H1 & H2). inversion H2; subst. apply I7 in H1 as (ts & -> & T & _ & F).
          exists (P At :: ts). split; [reflexivity|]. split; [now apply S_attr|]. split; [intros _; now apply S_attr | exact F].
    - (* path *)
      intros l e rest H. rewrite r_path_S in H. apply bind_inv in H as (a & l1 & H1 & H2). apply I8 in H1 as (ts & -> & S1 & S2 & F).
      destruct (I10 _ _ _ _ true ts H2 (XGramSpec.P_step _ _ _ S1) F) as (ts2 & -> & P1 & N). exists (ts ++ ts2). rewrite <- app_assoc in *. split; [reflexivity|]. split; [exact P1|].
      split; [|exact N]. intros C. destruct (I10 _ _ _ _ false ts H2 (XGramSpec.P_step _ _ _ (S2 C)) F) as (ts3 & E3 & P3 & _).
      apply app_inv_tail in E3. subst ts3. exact P3.
    - (* more *)
      intros e l e' rest f ts0 H P0 F. rewrite r_more_S in H.
      assert (D : Ok e l = Ok e' rest -> match l with P Slash :: _ | P Slashes :: _ => false | _ => true end = true ->
        exists ts, l = ts ++ rest /\ path f (ts0 ++ ts) e' /\ nosep br rest = true).
      { intros E N. inversion E; subst. exists []. rewrite app_nil_r. repeat split; auto. unfold nosep. now rewrite F, N. }
      destruct l as [|[w|w|z|g|p] l]; auto. destruct p; auto; clear D.
      + apply bind_inv in H as (a & l1 & H1 & H2). apply I8 in H1 as (ts & -> & S1 & _ & F1).
        destruct (I10 _ _ _ _ f (ts0 ++ P Slash :: ts) H2) as (ts2 & -> & P2 & N); [apply (XGramSpec.P_more f ts0 e false); auto | exact F1|].
        exists (P Slash :: ts ++ ts2). split; [cbn; now rewrite <- app_assoc|]. rewrite <- app_assoc in P2. auto.
      + apply bind_inv in H as (a & l1 & H1 & H2). apply I8 in H1 as (ts & -> & S1 & _ & F1).
        destruct (I10 _ _ _ _ f (ts0 ++ P Slashes :: ts) H2) as (ts2 & -> & P2 & N); [apply (XGramSpec.P_more f ts0 e true); auto | exact F1|].
        exists (P Slashes :: ts ++ ts2). split; [cbn; now rewrite <- app_assoc|]. rewrite <- app_assoc in P2. auto.
  Qed.
End Sound.

Scheme reads_min := Minimality for reads Sort Prop
  with arguments_min := Minimality for arguments Sort Prop
  with listed_min := Minimality for listed Sort Prop
  with predicates_min := Minimality for predicates Sort Prop
  with node_type_min := Minimality for node_type Sort Prop
  with node_test_min := Minimality for node_test Sort Prop
  with one_step_min := Minimality for one_step Sort Prop
  with path_min := Minimality for path Sort Prop.
Combined Scheme syntax_min from reads_min, arguments_min, listed_min, predicates_min, node_type_min, node_test_min, one_step_min, path_min.

Section Complete.
  Variable br : bool.
  Notation x_expr := (x_expr br). Notation x_primary := (x_primary br). Notation x_loop := (x_loop br). Notation x_args := (x_args br).
  Notation x_list := (x_list br). Notation x_preds := (x_preds br). Notation x_test := (x_test br). Notation x_step := (x_step br).
  Notation x_path := (x_path br). Notation x_more := (x_more br). Notation follow := (follow br).

  Definition pstart (l : list token) : bool :=
    match l with
    | Word _ :: P LPar :: _ => false
    | Word _ :: _ | P Dot :: _ | P Dots :: _ | P At :: _ | P Star :: _ => true
    | _ => false
    end.
  Lemma done_ok : forall A (a : A) l, follow l = true -> done br a l = Ok a l.
  Proof. intros A a l F. unfold done. now rewrite F. Qed.
  Lemma pstart_path : forall l, pstart l = true -> x_primary l = x_path l.
  Proof.
    intros l H. rewrite x_primary_eq. destruct l as [|[w|w|z|f|p] l]; try discriminate.
    - destruct l as [|[| | | |p] l]; auto. destruct p; auto. discriminate.
    - destruct p; try discriminate; reflexivity.
  Qed.
  Lemma loop_stop : forall m e l, stops br m l = true -> x_loop m e l = Ok e l.
  Proof.
    intros m e l H. apply andb_prop in H as [F H]. rewrite x_loop_eq. destruct l as [|t l]; auto. destruct (operator t) as [op|].
    - apply Nat.leb_le in H. destruct (Nat.ltb_spec m (strength op)); [lia|reflexivity].
    - destruct (Nat.eqb m 0); auto. cbn [negb orb] in H. destruct t as [| | | |p]; auto. destruct p; auto; discriminate.
  Qed.
  Lemma more_stop : forall e l, match l with P Slash :: _ | P Slashes :: _ => false | _ => true end = true -> x_more e l = Ok e l.
  Proof. intros e l H. rewrite x_more_eq. destruct l as [|[| | | |p] l]; auto. destruct p; auto; discriminate. Qed.
  Lemma close_expr : forall l, x_expr 0 (P RPar :: l) = Bad.
  Proof. intros l. rewrite x_expr_eq, x_primary_eq, x_path_eq, x_step_eq, x_test_eq. reflexivity. Qed.
  Lemma stops_bound : forall m op a b rest, strength op = m -> follow rest = true -> blocks (EBin a op b) rest -> stops br m rest = true.
  Proof.
    intros m op a b rest <- F B. unfold stops. rewrite F. destruct rest as [|t rest]; auto. destruct B as (B & _ & _).
    destruct (operator t) as [op'|] eqn:E.
    - specialize (B op' eq_refl). cbn [absorbs] in B. apply orb_false_elim in B as [B _]. apply Nat.ltb_ge in B. now apply Nat.leb_le in B.
    - replace (strength op =? 0) with false; [reflexivity|]. symmetry. apply Nat.eqb_neq. pose proof (strength_pos op). lia.
  Qed.
  Lemma follow_head : forall l, follow l = true -> match l with Word s :: _ => operator (Word s) <> None | P LPar :: _ | P Colons :: _ => False | _ => True end.
  Proof.
    intros [|[w|w|z|f|p] l] F; auto.
    - unfold XParse.follow in F. intros E. rewrite E in F. discriminate.
    - destruct p; auto; discriminate.
  Qed.
  Lemma call_of_node : forall es, call_of (lit "node") es = ETest TNode. Proof. reflexivity. Qed.
  Lemma call_of_text : forall es, call_of (lit "text") es = ETest TText. Proof. reflexivity. Qed.
  Lemma call_of_other : forall f es, f <> lit "node" -> f <> lit "text" -> call_of f es = ECall f es.
  Proof.
    intros f es H1 H2. unfold call_of. destruct (str_eqb f (lit "node")) eqn:E1; [apply (proj1 (ParserInv.str_eqb_eq _ _)) in E1; contradiction|].
    destruct (str_eqb f (lit "text")) eqn:E2; [apply (proj1 (ParserInv.str_eqb_eq _ _)) in E2; contradiction|]. reflexivity.
  Qed.

  Lemma complete :
    (forall m ts e, reads m ts e -> forall rest, follow rest = true -> blocks e rest -> x_expr m (ts ++ rest) = x_loop m e rest)
    /\ (forall ts es, arguments ts es -> forall rest, follow rest = true -> (exists l, ts = P LPar :: l) /\ x_args (ts ++ rest) = Ok es rest)
    /\ (forall ts es, listed ts es -> forall acc rest, follow rest = true -> x_list acc (ts ++ P RPar :: rest) = Ok (acc ++ es) rest)
    /\ (forall ts es, predicates ts es -> forall acc rest, follow rest = true -> match rest with P LBrk :: _ => False | _ => True end ->
          exists l, ts = P LBrk :: l /\ x_preds acc (l ++ rest) = Ok (acc ++ es) rest)
    /\ (forall ts t, node_type ts t -> forall rest, follow rest = true ->
          (exists f l, ts = Word f :: P LPar :: l) /\ x_primary (ts ++ rest) = Ok (ETest t) rest /\ x_test (ts ++ rest) = Ok t rest)
    /\ (forall ts t, node_test ts t -> forall rest, follow rest = true -> x_test (ts ++ rest) = Ok t rest)
    /\ (forall f ts e, one_step f ts e -> forall rest, follow rest = true -> x_step (ts ++ rest) = Ok e rest /\ (f = false -> pstart (ts ++ rest) = true))
    /\ (forall f ts e, path f ts e -> forall rest, follow rest = true -> x_path (ts ++ rest) = x_more e rest /\ (f = false -> pstart (ts ++ rest) = true)).
  Proof.
    apply syntax_min; intros.
    - (* string *) rewrite x_expr_eq, x_primary_eq. cbn [app]. now rewrite done_ok.
    - rewrite x_expr_eq, x_primary_eq. cbn [app]. now rewrite done_ok.
    - rewrite x_expr_eq, x_primary_eq. cbn [app]. now rewrite done_ok.
    - rewrite x_expr_eq, x_primary_eq. cbn [app]. now rewrite done_ok.
    - (* call *) destruct (H2 rest H3) as ((l & ->) & E). rewrite x_expr_eq, x_primary_eq. cbn [app] in *. rewrite E. cbn [rbind].
      now rewrite call_of_other.
    - (* node type *) destruct (H0 rest H1) as (_ & E & _). rewrite x_expr_eq, E. reflexivity.
    - (* sequence *) destruct (H0 rest H1) as ((l & ->) & E). rewrite x_expr_eq, x_primary_eq. cbn [app] in *. rewrite E. reflexivity.
    - (* path *) destruct (H0 rest H1) as (E & PS). destruct (path_facts _ _ _ H) as (A1 & A2 & A3).
      rewrite x_expr_eq, pstart_path by auto. rewrite E, more_stop; [reflexivity|].
      destruct rest as [|[| | | |q] rest]; auto. destruct q; auto; destruct H2 as (_ & B & _); rewrite B in A1; auto; discriminate.
    - (* root *) rewrite x_expr_eq, x_primary_eq. cbn [app].
      assert (step_start rest = false) as ->.
      { pose proof (follow_head rest H) as FH. destruct rest as [|[w|w|z|f|q] rest]; auto.
        - exfalso. destruct H0 as (B & _ & _). destruct (word_kind_cases w) as [(_ & [[E ->] | [E ->]]) | [(_ & E & _ & [-> | ->]) | (_ & E)]].
          + specialize (B _ E). discriminate.
          + specialize (B _ E). discriminate.
          + specialize (B _ E). discriminate.
          + specialize (B _ E). discriminate.
          + contradiction.
        - destruct q; auto; discriminate. }
      now rewrite done_ok.
    - (* absolute *) destruct (H0 rest H1) as (E & _). rewrite x_expr_eq, x_primary_eq.
      assert (N : match rest with P Slash :: _ | P Slashes :: _ => false | _ => true end = true).
      { destruct rest as [|[| | | |q] rest]; auto. destruct q; auto; destruct H2 as (_ & B & _); specialize (B ltac:(auto)); discriminate. }
      rewrite more_stop in E by exact N. destruct d; cbn [sep app].
      + rewrite E. reflexivity.
      + rewrite E. destruct (step_start (ts ++ rest)) eqn:SS; [reflexivity|]. exfalso.
        assert (X : x_path (ts ++ rest) = Bad \/ x_path (ts ++ rest) = Fuel) by (apply no_path; exact SS). rewrite E in X. destruct X; discriminate.
    - (* minus *) assert (St : stops br minus_strength rest = true).
      { unfold stops. rewrite H1. destruct rest as [|t rest]; auto. destruct H2 as (B & _ & _). destruct (operator t) as [op|] eqn:E; auto.
        specialize (B op eq_refl). cbn [absorbs] in B. apply orb_false_elim in B as [B _]. apply Nat.ltb_ge in B. now apply Nat.leb_le in B. }
      rewrite x_expr_eq, x_primary_eq. cbn [app]. rewrite H0; auto.
      + rewrite loop_stop by exact St. reflexivity.
      + destruct rest as [|t rest]; cbn [blocks] in *; auto. destruct H2 as (B & C & D). repeat split; auto.
        * intros op E. specialize (B op E). cbn [absorbs] in B. now apply orb_false_elim in B.
        * intros _. eapply reads_pred; [exact H|]. unfold minus_strength. lia.
    - (* binary *)
      assert (St : stops br (strength op) rest = true) by (eapply stops_bound; eauto).
      rewrite <- app_assoc, <- app_comm_cons. rewrite H2.
      + rewrite x_loop_eq, H. destruct (Nat.ltb_spec m (strength op)); [|lia]. rewrite H5; auto.
        * rewrite loop_stop by exact St. reflexivity.
        * destruct rest as [|t rest]; cbn [blocks] in *; auto. destruct H7 as (B & C & D). repeat split; auto.
          -- intros op' E. specialize (B op' E). cbn [absorbs] in B. now apply orb_false_elim in B.
          -- intros Hs. specialize (C Hs). destruct (operator_step _ _ H) as (N1 & N2). destruct op; try exact C; congruence.
          -- intros _. eapply reads_pred; [exact H4|]. apply strength_pos.
      + unfold XParse.follow. rewrite H. destruct o as [| | | |q]; try reflexivity. destruct q; reflexivity.
      + cbn [blocks]. repeat split.
        * intros op' E. congruence.
        * intros [-> | ->]; discriminate.
        * intros ->; discriminate.
    - (* predicates *)
      assert (NB : match rest with P LBrk :: _ => False | _ => True end).
      { destruct rest as [|[| | | |q] rest]; auto. destruct q; auto. destruct H5 as (_ & _ & B). specialize (B eq_refl). discriminate. }
      destruct (H3 [] rest H4 NB) as (l' & -> & E). rewrite <- app_assoc, <- app_comm_cons. rewrite H0.
      + rewrite x_loop_eq. cbn [operator Nat.eqb]. rewrite E. reflexivity.
      + reflexivity.
      + cbn [blocks]. repeat split; auto; [discriminate | intros [X | X]; discriminate X].
    - (* step *)
      destruct (H3 rest H4) as (E & _).
      assert (N : match rest with P Slash :: _ | P Slashes :: _ => false | _ => true end = true).
      { destruct rest as [|[| | | |q] rest]; auto. destruct q; auto; destruct H5 as (_ & B & _); specialize (B ltac:(auto)); destruct d; discriminate. }
      rewrite more_stop in E by exact N. rewrite <- app_assoc, <- app_comm_cons. rewrite H0.
      + rewrite x_loop_eq. destruct d; cbn [sep operator Nat.eqb]; rewrite E; reflexivity.
      + destruct d; reflexivity.
      + destruct d; cbn [blocks sep]; repeat split; auto; discriminate.
    - (* no arguments *) split; [eauto|]. rewrite x_args_eq. cbn [app]. now apply done_ok.
    - split; [eauto|]. specialize (H0 [] rest H1). cbn [app] in *. rewrite <- app_assoc. cbn [app]. rewrite x_args_eq.
      destruct (ts ++ P RPar :: rest) as [|[| | | |q] l] eqn:El; auto. destruct q; auto. exfalso.
      rewrite x_list_eq, close_expr in H0. discriminate.
    - (* one *) rewrite x_list_eq, H0; [|reflexivity|].
      + rewrite x_loop_eq. cbn [operator Nat.eqb rbind]. now apply done_ok.
      + cbn [blocks]. repeat split; [discriminate | intros [X | X]; discriminate X | discriminate].
    - (* more *) rewrite <- app_assoc, <- app_comm_cons. rewrite x_list_eq, H0; [|reflexivity|].
      + rewrite x_loop_eq. cbn [operator Nat.eqb rbind]. rewrite H2 by assumption. now rewrite <- app_assoc.
      + cbn [blocks]. repeat split; [discriminate | intros [X | X]; discriminate X | discriminate].
    - (* predicate *) eexists. split; [reflexivity|]. rewrite <- app_assoc. cbn [app]. rewrite x_preds_eq, H0; [|reflexivity|].
      + rewrite x_loop_eq. cbn [operator Nat.eqb rbind]. destruct rest as [|[| | | |q] rest]; try now apply done_ok. destruct q; try now apply done_ok. destruct H2.
      + cbn [blocks]. repeat split; [discriminate | intros [X | X]; discriminate X | discriminate].
    - eexists. split; [reflexivity|]. rewrite <- app_assoc. cbn [app]. rewrite x_preds_eq, H0; [|reflexivity|].
      + rewrite x_loop_eq. cbn [operator Nat.eqb rbind]. destruct (H2 (acc ++ [e]) rest H3 H4) as (l & -> & E). cbn [app]. rewrite E. now rewrite <- app_assoc.
      + cbn [blocks]. repeat split; [discriminate | intros [X | X]; discriminate X | discriminate].
    - (* node() *) destruct (H0 rest H1) as ((l & ->) & E). split; [eauto|]. cbn [app] in *. rewrite x_primary_eq, x_test_eq, E. auto.
    - destruct (H0 rest H1) as ((l & ->) & E). split; [eauto|]. cbn [app] in *. rewrite x_primary_eq, x_test_eq, E. auto.
    - (* name *) rewrite x_test_eq. cbn [app]. pose proof (follow_head rest H) as FH. destruct rest as [|[| | | |q] rest]; try now apply done_ok.
      destruct q; try now apply done_ok. destruct FH.
    - rewrite x_test_eq. cbn [app]. now apply done_ok.
    - destruct (H0 rest H1) as (_ & _ & E). exact E.
    - (* steps *) rewrite x_step_eq. cbn [app]. split; [now apply done_ok | reflexivity].
    - rewrite x_step_eq. cbn [app]. split; [now apply done_ok | reflexivity].
    - rewrite x_step_eq, x_test_eq. cbn [app]. pose proof (follow_head rest H) as FH.
      destruct rest as [|[| | | |q] rest]; cbn [pstart]; rewrite ?done_ok by assumption; auto. destruct q; rewrite ?done_ok by assumption; auto; destruct FH.
    - rewrite x_step_eq, x_test_eq. cbn [app]. split; [now rewrite done_ok | reflexivity].
    - destruct (H0 rest H1) as ((f & l & ->) & _ & E). split; [|discriminate]. rewrite x_step_eq. cbn [app] in *. rewrite E. reflexivity.
    - rewrite x_step_eq. cbn [app]. split; [now rewrite H0 | reflexivity].
    - rewrite x_step_eq. cbn [app]. rewrite axis_of_name. split; [now rewrite H0 | reflexivity].
    - (* paths *) destruct (H0 rest H1) as (E & PS). split; [|exact PS]. rewrite x_path_eq, E. reflexivity.
    - rewrite <- app_assoc, <- app_comm_cons. assert (F : follow (sep d :: ts' ++ rest) = true) by (destruct d; reflexivity).
      destruct (H0 _ F) as (E & PS). split; [|exact PS]. rewrite E. destruct (H2 rest H3) as (E2 & _). rewrite x_more_eq.
      destruct d; cbn [sep]; rewrite E2; reflexivity.
  Qed.
End Complete.

(** ** The parser *)
Lemma top_nofuel : forall br l, r_top br (8 * length l + 6) l <> Fuel.
Proof.
  intros br l. unfold r_top. destruct (r_expr br (8 * length l + 6) 0 l) as [| |e rest] eqn:E; cbn [rbind]; [|discriminate|destruct rest; discriminate].
  exfalso. revert E. apply enough. lia.
Qed.
Theorem parse_reads : forall l e, parse_tokens (mkI (map emb l) false) = POk e <-> reads 0 l e.
Proof.
  intros l e. pose proof (tables_agree false (8 * length l + 6) l (top_nofuel false l)) as T. unfold r_top in T. split; intros H.
  - destruct (r_expr false (8 * length l + 6) 0 l) as [| |e' rest] eqn:E; cbn [rbind] in T.
    + destruct T as (x & T). congruence.
    + destruct T as (x & T). congruence.
    + apply sound in E as (ts & -> & R & _ & _). destruct rest as [|t rest].
      * rewrite app_nil_r in *. congruence.
      * destruct T as (x & T). congruence.
  - destruct (complete false) as (C & _). specialize (C 0 l e H [] eq_refl I). rewrite app_nil_r in C. unfold x_expr in C. rewrite C in T.
    rewrite x_loop_eq in T. exact T.
Qed.
Lemma run_errors : forall br n s l x, run br n s l = PExn x -> x = RuntimeErr \/ x = TypeErr /\ br = true.
Proof.
  intros br. induction n as [|n IH]; intros s l x H; [discriminate|]. rewrite run_S in H. unfold pstep_of in H.
  destruct (lookahead (mkI (map emb l) br)) as [a|] eqn:L.
  - destruct (action (top s) a) as [[q|p|]|].
    + cbn [toks broken] in H. destruct l as [|t l]; cbn [map] in H; [inversion H; auto|]. eapply IH. exact H.
    + destruct (nth_error rules p) as [[pr f]|]; [|inversion H; auto]. destruct (f _) as [v|]; [|inversion H; auto]. eapply IH. exact H.
    + destruct s as [|[q v] s]; [inversion H; auto|]. destruct v; inversion H; auto.
    + inversion H; auto.
  - unfold lookahead in L. cbn [toks broken] in L. destruct l; [|discriminate]. cbn [map] in L. destruct br; [|discriminate]. inversion H. auto.
Qed.
Theorem parse_otherwise : forall l, (forall e, ~ reads 0 l e) -> parse_tokens (mkI (map emb l) false) = PExn RuntimeErr.
Proof.
  intros l H. pose proof (tables_agree false (8 * length l + 6) l (top_nofuel false l)) as T.
  pose proof (top_nofuel false l) as NF. destruct (r_top false (8 * length l + 6) l) as [| |e rest].
  - contradiction.
  - destruct T as (x & T). rewrite T. destruct (run_errors false _ _ _ _ T) as [-> | (-> & X)]; [reflexivity|discriminate].
  - apply parse_reads in T. exfalso. eapply H; eauto.
Qed.
Theorem parse_broken : forall l, exists x, parse_tokens (mkI (map emb l) true) = PExn x /\ (x = RuntimeErr \/ x = TypeErr).
Proof.
  intros l. pose proof (tables_agree true (8 * length l + 6) l (top_nofuel true l)) as T.
  assert (B : forall x, parse_tokens (mkI (map emb l) true) = PExn x -> x = RuntimeErr \/ x = TypeErr).
  { intros x E. destruct (run_errors true _ _ _ _ E) as [-> | (-> & _)]; auto. }
  unfold r_top in T. destruct (r_expr true (8 * length l + 6) 0 l) as [| |e rest] eqn:E; cbn [rbind] in T.
  - destruct T as (x & T). eauto.
  - destruct T as (x & T). eauto.
  - apply sound in E as (ts & -> & R & _ & St). destruct rest as [|t rest].
    + discriminate.
    + destruct T as (x & T). eauto.
Qed.
Theorem one_reading : forall l e e', reads 0 l e -> reads 0 l e' -> e = e'.
Proof. intros l e e' H H'. apply parse_reads in H, H'. congruence. Qed.
