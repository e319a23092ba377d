(** The tables and the recursive descent parser do the same. *)
From Verif Require Import PyStr XPath Lalr XGram XGramSpec XTok XParse.
From Verif Require ParserInv.
Notation str_eqb_eq := ParserInv.str_eqb_eq.
Notation str_eqb_refl := ParserInv.str_eqb_refl.

(** ** Kinds of tokens that may follow *)
Definition followers : list tk :=
  [END; CLOSE_PAREN; CLOSE_BRACKET; COMMA; OPEN_BRACKET; PATH_SEP; ABBREV_PATH_SEP; LOGICAL_OP; EQUAL_OP; REL_OP; PLUS_OP; MINUS_OP; DIVMOD_OP; UNION_OP].
Definition others : list tk :=
  [ABBREV_STEP_SELF; ABBREV_STEP_PARENT; AXIS_SEP; ABBREV_AXIS_AT; OPEN_PAREN; STAR_OP; LITERAL; FLOAT; INTEGER; NAME; DOLLAR].
Definition op_kinds : list tk := [LOGICAL_OP; EQUAL_OP; REL_OP; PLUS_OP; MINUS_OP; DIVMOD_OP; UNION_OP].

Section Sim.
  Variable br : bool.
  Notation inp l := (mkI (map emb l) br).
  Definition look (l : list token) : option tk := lookahead (inp l).

  Lemma word_kind_cases : forall s,
    (word_kind s = LOGICAL_OP /\ (operator (Word s) = Some OpOr /\ s = lit "or" \/ operator (Word s) = Some OpAnd /\ s = lit "and"))
    \/ (word_kind s = DIVMOD_OP /\ operator (Word s) = Some (OpOther s) /\ strength (OpOther s) = 5 /\ (s = lit "div" \/ s = lit "mod"))
    \/ (word_kind s = NAME /\ operator (Word s) = None).
  Proof.
    intros s. unfold word_kind. cbn [operator].
    destruct (str_eqb s (lit "or")) eqn:E1.
    { left. split; [reflexivity|]. left. split; [reflexivity|]. now apply (proj1 (str_eqb_eq _ _)). }
    destruct (str_eqb s (lit "and")) eqn:E2.
    { left. split; [reflexivity|]. right. split; [reflexivity|]. now apply (proj1 (str_eqb_eq _ _)). }
    cbn [orb]. destruct (str_eqb s (lit "div")) eqn:E3.
    { apply (proj1 (str_eqb_eq _ _)) in E3. subst. right; left. repeat split; auto. }
    destruct (str_eqb s (lit "mod")) eqn:E4.
    { apply (proj1 (str_eqb_eq _ _)) in E4. subst. right; left. repeat split; auto. }
    right; right. split; reflexivity.
  Qed.

  Lemma op_kind : forall t op, operator t = Some op -> In (kind (emb t)) op_kinds /\ level (kind (emb t)) = strength op.
  Proof.
    intros [s|s|z|f|p] op E; try discriminate.
    - cbn [emb kind]. destruct (word_kind_cases s) as [(K & [[E1 _] | [E1 _]]) | [(K & E1 & S1 & _) | (K & E1)]];
        rewrite E1 in E; try discriminate; inversion E; subst; rewrite K; split; try reflexivity; cbn; auto 10.
    - destruct p; cbn in E; try discriminate; inversion E; subst; split; try reflexivity; cbn; auto 10.
  Qed.

  Lemma follow_look : forall l, follow br l = true -> exists a, look l = Some a /\ In a followers.
  Proof.
    intros [|t l] F.
    - unfold look, lookahead. cbn [map toks broken]. cbn [follow] in F. apply negb_true_iff in F. rewrite F.
      eexists; split; [reflexivity|]. cbn; auto.
    - exists (kind (emb t)). split; [reflexivity|]. destruct (operator t) as [op|] eqn:E.
      + destruct (op_kind t op E) as [I _]. unfold op_kinds in I. unfold followers. cbn in I |- *. intuition.
      + unfold follow in F. rewrite E in F. destruct t as [| | | | p]; try discriminate. destruct p; try discriminate; cbn; auto 10.
  Qed.
  Lemma unfollow_look : forall l, follow br l = false -> look l = None \/ exists a, look l = Some a /\ In a others.
  Proof.
    intros [|t l] F.
    - left. unfold look, lookahead. cbn [map toks broken]. cbn [follow] in F. apply negb_false_iff in F. now rewrite F.
    - right. exists (kind (emb t)). split; [reflexivity|]. unfold follow in F. destruct t as [s|s|z|f|p].
      + destruct (word_kind_cases s) as [(K & [[E1 _] | [E1 _]]) | [(K & E1 & S1 & _) | (K & E1)]]; rewrite E1 in F; try discriminate.
        cbn [emb kind]. rewrite K. cbn. auto 12.
      + cbn. auto 12.
      + cbn. auto 12.
      + cbn. auto 12.
      + destruct p; try discriminate; cbn; auto 12.
  Qed.

  (** ** Runs *)
  Definition run (n : nat) (s : list (nat * sval)) (l : list token) : presult := prun n s (inp l).
  Definition reach (k : nat) (s : list (nat * sval)) (l : list token) (s' : list (nat * sval)) (l' : list token) : Prop :=
    forall n, run (k + n) s l = run n s' l'.
  Definition fails (k : nat) (s : list (nat * sval)) (l : list token) : Prop := exists e, forall n, run (k + n) s l = PExn e.

  Lemma reach_refl : forall s l, reach 0 s l s l. Proof. intros s l n. reflexivity. Qed.
  Lemma reach_trans : forall k1 k2 s l s1 l1 s2 l2, reach k1 s l s1 l1 -> reach k2 s1 l1 s2 l2 -> reach (k1 + k2) s l s2 l2.
  Proof. intros k1 k2 s l s1 l1 s2 l2 H1 H2 n. rewrite <- Nat.add_assoc, H1, H2. reflexivity. Qed.
  Lemma reach_fails : forall k1 k2 s l s1 l1, reach k1 s l s1 l1 -> fails k2 s1 l1 -> fails (k1 + k2) s l.
  Proof. intros k1 k2 s l s1 l1 H1 [e H2]. exists e. intros n. rewrite <- Nat.add_assoc, H1, H2. reflexivity. Qed.

  Lemma run_S : forall n s l, run (S n) s l = match pstep_of s (inp l) with Stop r => r | Go s' i' => prun n s' i' end.
  Proof. reflexivity. Qed.

  Lemma reach_shift : forall s t l q, action (top s) (kind (emb t)) = Some (Shift q) ->
    reach 1 s (t :: l) ((q, VTok (value (emb t))) :: s) l.
  Proof.
    intros s t l q A n. change (1 + n) with (S n). rewrite run_S. unfold pstep_of, lookahead. cbn [map toks broken].
    rewrite A. reflexivity.
  Qed.
  Lemma reach_reduce : forall s l a p pr f v, look l = Some a -> action (top s) a = Some (Reduce p) -> nth_error rules p = Some (pr, f) ->
    f (rev (map snd (firstn (length (p_rhs pr)) s))) = Some v ->
    reach 1 s l ((goto (top (skipn (length (p_rhs pr)) s)) (p_lhs pr), v) :: skipn (length (p_rhs pr)) s) l.
  Proof.
    intros s l a p pr f v L A R F n. change (1 + n) with (S n). rewrite run_S. unfold pstep_of. unfold look in L. rewrite L, A, R, F.
    reflexivity.
  Qed.
  Lemma fails_sem : forall s l a p pr f, look l = Some a -> action (top s) a = Some (Reduce p) -> nth_error rules p = Some (pr, f) ->
    f (rev (map snd (firstn (length (p_rhs pr)) s))) = None -> fails 1 s l.
  Proof.
    intros s l a p pr f L A R F. exists RuntimeErr. intros n. change (1 + n) with (S n). rewrite run_S. unfold pstep_of. unfold look in L.
    rewrite L, A, R, F. reflexivity.
  Qed.
  Lemma fails_none : forall s l, look l = None -> fails 1 s l.
  Proof. intros s l L. exists TypeErr. intros n. change (1 + n) with (S n). rewrite run_S. unfold pstep_of. unfold look in L. now rewrite L. Qed.
  Lemma fails_action : forall s l a, look l = Some a -> action (top s) a = None -> fails 1 s l.
  Proof. intros s l a L A. exists RuntimeErr. intros n. change (1 + n) with (S n). rewrite run_S. unfold pstep_of. unfold look in L. now rewrite L, A. Qed.

  (** ** Simulation *)
  Definition sim {A} (b : Z) (r : rr A) (s : list (nat * sval)) (l : list token) (s' : A -> list (nat * sval)) (post : list token -> bool) : Prop :=
    match r with
    | Fuel => True
    | Bad => exists k, (Z.of_nat k <= b + 10 * Z.of_nat (length l) + 10)%Z /\ fails k s l
    | Ok a rest => exists k, (Z.of_nat k + 10 * Z.of_nat (length rest) <= b + 10 * Z.of_nat (length l))%Z /\ reach k s l (s' a) rest /\ post rest = true
    end.
  Lemma sim_bind : forall A B b1 b2 b (r : rr A) (k : A -> list token -> rr B) s l s1 s' post1 post,
    sim b1 r s l s1 post1 -> (b1 + b2 <= b)%Z -> (b1 <= b)%Z ->
    (forall a rest, r = Ok a rest -> post1 rest = true -> sim b2 (k a rest) (s1 a) rest s' post) ->
    sim b (rbind r k) s l s' post.
  Proof.
    intros A B b1 b2 b r k s l s1 s' post1 post H Hb Hb1 Hk. destruct r as [| |a rest]; cbn [rbind].
    - exact I.
    - destruct H as (n & Hn & F). exists n. split; [lia|exact F].
    - destruct H as (n & Hn & R & P1). specialize (Hk a rest eq_refl P1). unfold sim in *. destruct (k a rest) as [| |c rest2].
      + exact I.
      + destruct Hk as (n2 & Hn2 & F2). exists (n + n2). split; [lia|]. eapply reach_fails; eauto.
      + destruct Hk as (n2 & Hn2 & R2 & P2). exists (n + n2). split; [lia|]. split; [|exact P2]. eapply reach_trans; eauto.
  Qed.
  Lemma sim_pre : forall A b b1 j (r : rr A) s l s1 l1 s' post, reach j s l s1 l1 -> sim b1 r s1 l1 s' post ->
    (b1 + Z.of_nat j + 10 * Z.of_nat (length l1) <= b + 10 * Z.of_nat (length l))%Z -> sim b r s l s' post.
  Proof.
    intros A b b1 j r s l s1 l1 s' post R H Hb. destruct r as [| |a rest]; cbn [sim] in *.
    - exact I.
    - destruct H as (n & Hn & F). exists (j + n). split; [lia|]. eapply reach_fails; eauto.
    - destruct H as (n & Hn & R2 & P2). exists (j + n). split; [lia|]. split; [|exact P2]. eapply reach_trans; eauto.
  Qed.
  Lemma sim_ok : forall A b j (a : A) s l s' post, reach j s l (s' a) l -> post l = true -> (Z.of_nat j <= b)%Z -> sim b (Ok a l) s l s' post.
  Proof. intros A b j a s l s' post R P Hb. exists j. split; [lia|]. auto. Qed.
  Lemma sim_bad : forall A b j s l (s' : A -> _) post, fails j s l -> (Z.of_nat j <= b + 10 * Z.of_nat (length l) + 10)%Z -> sim b (@Bad A) s l s' post.
  Proof. intros A b j s l s' post F Hb. exists j. auto. Qed.

  (** States that reduce *)
  Definition reduces_for (q p : nat) (as_ : list tk) : bool :=
    forallb (fun a => match action q a with Some (Reduce p') => Nat.eqb p p' | _ => false end) as_.
  Definition fails_for (q : nat) (as_ : list tk) : bool := forallb (fun a => match action q a with None => true | _ => false end) as_.
  Lemma redf : forall q p as_ l a pr f v v0 s s1 g, reduces_for q p as_ = true -> look l = Some a -> In a as_ -> nth_error rules p = Some (pr, f) ->
    f (rev (map snd (firstn (length (p_rhs pr)) ((q, v0) :: s)))) = Some v ->
    skipn (length (p_rhs pr)) ((q, v0) :: s) = s1 -> goto (top s1) (p_lhs pr) = g ->
    reach 1 ((q, v0) :: s) l ((g, v) :: s1) l.
  Proof.
    intros q p as_ l a pr f v v0 s s1 g C L I R Hv <- <-. unfold reduces_for in C. rewrite forallb_forall in C. specialize (C a I).
    destruct (action q a) as [[x|p'|]|] eqn:A; try discriminate.
    apply Nat.eqb_eq in C. subst p'. eapply reach_reduce; eauto.
  Qed.
  Lemma badf : forall q as_ l a v0 s, fails_for q as_ = true -> look l = Some a -> In a as_ -> fails 1 ((q, v0) :: s) l.
  Proof.
    intros q as_ l a v0 s C L I. unfold fails_for in C. rewrite forallb_forall in C. specialize (C a I). eapply fails_action; [exact L|].
    cbn [top]. destruct (action q a); [discriminate|reflexivity].
  Qed.
  Definition reduces_on (q p : nat) : bool := reduces_for q p followers && fails_for q others.
  Lemma red1 : forall q p l pr f v v0 s s1 g, reduces_on q p = true -> follow br l = true -> nth_error rules p = Some (pr, f) ->
    f (rev (map snd (firstn (length (p_rhs pr)) ((q, v0) :: s)))) = Some v ->
    skipn (length (p_rhs pr)) ((q, v0) :: s) = s1 -> goto (top s1) (p_lhs pr) = g ->
    reach 1 ((q, v0) :: s) l ((g, v) :: s1) l.
  Proof.
    intros q p l pr f v v0 s s1 g C F R Hv H1 Hg. destruct (follow_look l F) as (a & L & I). apply andb_prop in C as [C _]. eapply redf; eauto.
  Qed.
  Lemma bad1 : forall q p l v0 s, reduces_on q p = true -> follow br l = false -> fails 1 ((q, v0) :: s) l.
  Proof.
    intros q p l v0 s C F. apply andb_prop in C as [_ C]. destruct (unfollow_look l F) as [L | (a & L & I)].
    - now apply fails_none.
    - eapply badf; eauto.
  Qed.
  (** [done] after a state that only reduces *)
  Lemma sim_done : forall A b b1 (a : A) q p l v0 s pr f v s1 g s' post, reduces_on q p = true -> nth_error rules p = Some (pr, f) ->
    f (rev (map snd (firstn (length (p_rhs pr)) ((q, v0) :: s)))) = Some v ->
    skipn (length (p_rhs pr)) ((q, v0) :: s) = s1 -> goto (top s1) (p_lhs pr) = g ->
    (follow br l = true -> sim b1 (Ok a l) ((g, v) :: s1) l s' post) ->
    (0 <= b)%Z -> (b1 + 1 <= b)%Z ->
    sim b (done br a l) ((q, v0) :: s) l s' post.
  Proof.
    intros A b b1 a q p l v0 s pr f v s1 g s' post C R Hv H1 Hg H Hb Hb1. unfold done. destruct (follow br l) eqn:F.
    - eapply sim_pre; [eapply red1; eauto | apply H; reflexivity | lia].
    - eapply sim_bad; [eapply bad1; eauto | lia].
  Qed.

  (** ** The states *)
  Definition K (m : nat) : list nat :=
    match m with
    | 0 => [0; 3; 40; 52; 73; 82] | 1 => [28] | 2 => [29] | 3 => [30] | 4 => [31; 32] | 5 => [34] | 6 => [2] | 7 => [35] | _ => []
    end.
  Definition Kall : list nat := [0; 3; 40; 52; 73; 82; 28; 29; 30; 31; 32; 34; 2; 35].
  Definition Pall : list nat := Kall ++ [18; 20; 36; 37].
  Definition Sall : list nat := Pall ++ [45; 46].
  Definition Tall : list nat := Sall ++ [6].
  Lemma K_all : forall m q, In q (K m) -> In q Kall.
  Proof. intros m q H. do 8 (destruct m as [|m]; [cbn in H |- *; intuition | ]). destruct H. Qed.
  Lemma K_P : forall q, In q Kall -> In q Pall. Proof. intros q H. apply in_or_app. auto. Qed.
  Lemma P_S : forall q, In q Pall -> In q Sall. Proof. intros q H. apply in_or_app. auto. Qed.
  Lemma S_T : forall q, In q Sall -> In q Tall. Proof. intros q H. apply in_or_app. auto. Qed.

  Ltac noin I := solve [cbn in I; repeat (destruct I as [I | I]; [discriminate I|]); destruct I].
  Ltac each H := solve [repeat (destruct H as [<- | H]; [repeat split; reflexivity|]); destruct H].
  Lemma K_acts : forall q, In q Kall ->
    action q MINUS_OP = Some (Shift 2) /\ action q OPEN_PAREN = Some (Shift 3) /\ action q LITERAL = Some (Shift 24)
    /\ action q INTEGER = Some (Shift 27) /\ action q FLOAT = Some (Shift 26) /\ action q DOLLAR = Some (Shift 23)
    /\ action q PATH_SEP = Some (Shift 18) /\ action q ABBREV_PATH_SEP = Some (Shift 20).
  Proof. intros q H. each H. Qed.
  Lemma K_gotos : forall q, In q Kall ->
    goto q (nt_ix AbsoluteLocationPath) = 17 /\ goto q (nt_ix AbbreviatedAbsoluteLocationPath) = 19 /\ goto q (nt_ix PredicatedExpression) = 21
    /\ goto q (nt_ix VariableReference) = 22 /\ goto q (nt_ix Number) = 25 /\ goto q (nt_ix FunctionCall) = 14
    /\ goto q (nt_ix RelativeLocationPath) = 4.
  Proof. intros q H. each H. Qed.
  Lemma T_acts : forall q, In q Tall ->
    action q STAR_OP = Some (Shift 11) /\ action q LOGICAL_OP = Some (Shift 12) /\ action q DIVMOD_OP = Some (Shift 13)
    /\ action q NAME = Some (Shift (if Nat.eqb q 6 then 48 else 7)) /\ goto q (nt_ix NameTest) = 10.
  Proof. intros q H. each H. Qed.
  Lemma S_acts : forall q, In q Sall ->
    action q ABBREV_STEP_SELF = Some (Shift 15) /\ action q ABBREV_STEP_PARENT = Some (Shift 16) /\ action q ABBREV_AXIS_AT = Some (Shift 8)
    /\ goto q (nt_ix AxisSpecifier) = 6 /\ goto q (nt_ix NodeTest) = 9 /\ Nat.eqb q 6 = false.
  Proof. intros q H. each H. Qed.

  Definition stuck (q : nat) (l : list token) : Prop := look l = None \/ exists a, look l = Some a /\ action q a = None.
  Lemma stuck_fails : forall q l s, stuck q l -> top s = q -> fails 1 s l.
  Proof. intros q l s [L | (a & L & A)] T; [now apply fails_none | subst; eapply fails_action; eauto]. Qed.
  Definition tprec (q : nat) (l : list token) : Prop :=
    match l with
    | Word _ :: P LPar :: _ => ~ In q Kall
    | Word _ :: P Colons :: _ => q = 6
    | Word _ :: _ | P Star :: _ => True
    | _ => stuck q l
    end.
  Definition sprec (q : nat) (l : list token) : Prop :=
    match l with
    | Word _ :: P LPar :: _ => ~ In q Kall
    | Word _ :: _ | P Star :: _ | P Dot :: _ | P Dots :: _ | P At :: _ => True
    | _ => stuck q l
    end.
  Definition eprec (q : nat) (l : list token) : Prop := (q = 3 \/ q = 52) -> match l with P RPar :: _ => False | _ => True end.

  Definition nosep (l : list token) : bool := follow br l && match l with P Slash :: _ | P Slashes :: _ => false | _ => true end.
  Definition nobrk (l : list token) : bool := follow br l && match l with P LBrk :: _ => false | _ => true end.
  Definition stops (m : nat) (l : list token) : bool :=
    follow br l && match l with
                   | [] => true
                   | t :: _ => match operator t with
                               | Some op => Nat.leb (strength op) m
                               | None => negb (Nat.eqb m 0) || match t with P LBrk | P Slash | P Slashes => false | _ => true end
                               end
                   end.
  Definition nosep_kinds : list tk := [END; CLOSE_PAREN; CLOSE_BRACKET; COMMA; OPEN_BRACKET; LOGICAL_OP; EQUAL_OP; REL_OP; PLUS_OP; MINUS_OP; DIVMOD_OP; UNION_OP].
  Definition nobrk_kinds : list tk := [END; CLOSE_PAREN; CLOSE_BRACKET; COMMA; PATH_SEP; ABBREV_PATH_SEP; LOGICAL_OP; EQUAL_OP; REL_OP; PLUS_OP; MINUS_OP; DIVMOD_OP; UNION_OP].
  Definition stop_kinds (m : nat) : list tk :=
    [END; CLOSE_PAREN; CLOSE_BRACKET; COMMA] ++ (if Nat.eqb m 0 then [] else [OPEN_BRACKET; PATH_SEP; ABBREV_PATH_SEP])
    ++ filter (fun a => Nat.leb (level a) m) op_kinds.

  Lemma nosep_look : forall l, nosep l = true -> exists a, look l = Some a /\ In a nosep_kinds.
  Proof.
    intros l H. apply andb_prop in H as [F H]. destruct (follow_look l F) as (a & L & I). exists a. split; [exact L|].
    destruct l as [|t l].
    - unfold look, lookahead in L. cbn in L. destruct br; inversion L; cbn; auto.
    - cbn in L. inversion L. subst a. destruct t as [w|w|z|f|p]; cbn [emb kind] in *.
      + destruct (word_kind_cases w) as [(-> & _) | [(-> & _) | (E & E2)]]; [cbn; auto 20 | cbn; auto 20 |]. rewrite E in I. noin I.
      + noin I.
      + noin I.
      + noin I.
      + destruct p; try discriminate; cbn; auto 20.
  Qed.
  Lemma nobrk_look : forall l, nobrk l = true -> exists a, look l = Some a /\ In a nobrk_kinds.
  Proof.
    intros l H. apply andb_prop in H as [F H]. destruct (follow_look l F) as (a & L & I). exists a. split; [exact L|].
    destruct l as [|t l].
    - unfold look, lookahead in L. cbn in L. destruct br; inversion L; cbn; auto.
    - cbn in L. inversion L. subst a. destruct t as [w|w|z|f|p]; cbn [emb kind] in *.
      + destruct (word_kind_cases w) as [(-> & _) | [(-> & _) | (E & E2)]]; [cbn; auto 20 | cbn; auto 20 |]. rewrite E in I. noin I.
      + noin I.
      + noin I.
      + noin I.
      + destruct p; try discriminate; cbn; auto 20.
  Qed.
  Lemma stops_look : forall m l, stops m l = true -> exists a, look l = Some a /\ In a (stop_kinds m).
  Proof.
    intros m l H. apply andb_prop in H as [F H]. destruct (follow_look l F) as (a & L & I). exists a. split; [exact L|].
    unfold stop_kinds. destruct l as [|t l].
    - unfold look, lookahead in L. cbn in L. destruct br; inversion L; cbn; auto.
    - cbn in L. inversion L. subst a. destruct (operator t) as [op|] eqn:E.
      + destruct (op_kind t op E) as [I2 Lv]. apply in_or_app. right. apply in_or_app. right. apply filter_In. split; [exact I2|]. now rewrite Lv.
      + destruct t as [w|w|z|f|p]; cbn [emb kind] in *; try discriminate.
        * destruct (word_kind_cases w) as [(_ & [[E2 _] | [E2 _]]) | [(_ & E2 & _) | (E2 & _)]]. 4: { rewrite E2 in I. noin I. } all: rewrite E2 in E; discriminate.
        * destruct p; try discriminate; try (noin I); try (cbn; auto; fail);
            destruct (Nat.eqb m 0); try discriminate; cbn; auto 20.
  Qed.

  Definition P_test n : Prop := forall q s l, In q Tall -> top s = q -> tprec q l ->
    sim (-7) (r_test br n l) s l (fun t => (goto q (nt_ix NodeTest), VTest t) :: s) (follow br).
  Definition P_step n : Prop := forall q s l, In q Sall -> top s = q -> sprec q l ->
    sim (-6) (r_step br n l) s l (fun e => (goto q (nt_ix Step), VE e) :: s) (follow br).
  Definition P_path n : Prop := forall q s l, In q Pall -> top s = q -> sprec q l ->
    sim (-5) (r_path br n l) s l (fun e => (goto q (nt_ix RelativeLocationPath), VE e) :: s) nosep.
  Definition P_more n : Prop := forall q s e l, In q Pall -> top s = q -> follow br l = true ->
    sim 0 (r_more br n e l) ((goto q (nt_ix RelativeLocationPath), VE e) :: s) l (fun e => (goto q (nt_ix RelativeLocationPath), VE e) :: s) nosep.
  Definition P_primary n : Prop := forall q s l, In q Kall -> top s = q -> eprec q l ->
    sim (-4) (r_primary br n l) s l (fun e => (goto q (nt_ix Expr), VE e) :: s) (follow br).
  Definition P_loop n : Prop := forall m q s e l, In q (K m) -> top s = q -> follow br l = true ->
    sim 0 (r_loop br n m e l) ((goto q (nt_ix Expr), VE e) :: s) l (fun e => (goto q (nt_ix Expr), VE e) :: s) (stops m).
  Definition P_expr n : Prop := forall m q s l, In q (K m) -> top s = q -> eprec q l ->
    sim (-4) (r_expr br n m l) s l (fun e => (goto q (nt_ix Expr), VE e) :: s) (stops m).
  (** the two uses of lists in parentheses *)
  Definition opens (call : bool) : nat := if call then 52 else 3.
  Definition list_of (call : bool) (q : nat) (es : list expr) : nat * sval :=
    if call then (goto q (nt_ix FormalArguments), VEs es) else (goto q (nt_ix Expr), VE (ESeq es)).
  Definition in_ctx (call : bool) (q : nat) : Prop := if call then In q [7; 12; 13; 48] else In q Kall.
  Definition P_args n : Prop := forall call q s l, in_ctx call q -> top s = q ->
    sim (-9) (r_args br n (P LPar :: l)) s (P LPar :: l) (fun es => list_of call q es :: s) (follow br).
  Definition list_stack (call : bool) (acc : list expr) (s : list (nat * sval)) : list (nat * sval) -> Prop := fun s' =>
    exists v, match acc with
    | [] => s' = (opens call, v) :: s
    | _ => exists w, s' = (if call then 82 else 73, VTok (TStr (lit ","))) :: (if call then 77 else 43, VEs acc) :: (opens call, w) :: s
    end.
  Definition P_list n : Prop := forall call q s acc l s', in_ctx call q -> top s = q -> list_stack call acc s s' -> eprec (top s') l ->
    sim 0 (r_list br n acc l) s' l (fun es => list_of call q es :: s) (follow br).
  Definition preds_stack (acc : list expr) (s : list (nat * sval)) : list (nat * sval) -> Prop := fun s' =>
    exists v, match acc with [] => s' = (40, v) :: s | _ => s' = (40, v) :: (38, VEs acc) :: s end.
  Definition P_preds n : Prop := forall m q e s acc l s', In q (K m) -> top s = q -> m = 0 ->
    preds_stack acc ((goto q (nt_ix Expr), VE e) :: s) s' ->
    sim 0 (r_preds br n acc l) s' l (fun es => (38, VEs es) :: (goto q (nt_ix Expr), VE e) :: s) nobrk.

  (** ** Node tests *)
  Lemma word_after : forall q w s l, In q Tall -> top s = q ->
    exists q1 p, reach 1 s (Word w :: l) ((q1, VTok (TStr w)) :: s) l
      /\ (q1 = (if Nat.eqb q 6 then 48 else 7) /\ p = 39 \/ q1 = 12 /\ p = 40 \/ q1 = 13 /\ p = 41)
      /\ In q1 [7; 12; 13; 48]
      /\ (q1 = 7 -> word_kind w = NAME).
  Proof.
    intros q w s l Hq T. destruct (T_acts q Hq) as (_ & A1 & A2 & A3 & _).
    destruct (word_kind_cases w) as [(E & _) | [(E & _) | (E & _)]].
    - exists 12, 40. split; [|split; [auto | split; [cbn; auto | intros; discriminate]]]. apply (reach_shift s (Word w)). cbn [emb kind]. now rewrite T, E.
    - exists 13, 41. split; [|split; [auto | split; [cbn; auto | intros; discriminate]]]. apply (reach_shift s (Word w)). cbn [emb kind]. now rewrite T, E.
    - exists (if Nat.eqb q 6 then 48 else 7), 39. split; [|split; [auto | split; [destruct (Nat.eqb q 6); cbn; auto | auto]]].
      apply (reach_shift s (Word w)). cbn [emb kind]. now rewrite T, E.
  Qed.

  Ltac norm := cbn [skipn firstn top length p_rhs p_lhs fst snd map rev app rule].
  Lemma look_is : forall l p, look l = Some (fst (punct_tok p)) -> (p = LPar \/ p = Colons) -> exists l', l = P p :: l'.
  Proof.
    intros [|t l] p L Hp.
    - unfold look, lookahead in L. cbn in L. destruct br; try discriminate. destruct Hp; subst; discriminate.
    - cbn in L. assert (t = P p) by (destruct t as [w|w|z|f|p2];
        [ cbn [emb kind] in L; destruct (word_kind_cases w) as [(E & _) | [(E & _) | (E & _)]]; rewrite E in L; destruct Hp; subst; discriminate
        | destruct Hp; subst; discriminate | destruct Hp; subst; discriminate | destruct Hp; subst; discriminate
        | destruct Hp; subst; destruct p2; try discriminate; reflexivity ]). subst. eauto.
  Qed.

  Lemma word_done : forall q w s l, In q Tall -> top s = q -> (forall l', l <> P LPar :: l') -> (forall l', l = P Colons :: l' -> q = 6) ->
    sim (-7) (done br (TName w) l) s (Word w :: l) (fun t => (goto q (nt_ix NodeTest), VTest t) :: s) (follow br).
  Proof.
    intros q w s l Hq T NL NC. destruct (word_after q w s l Hq T) as (q1 & p & R & C & _ & _).
    destruct (T_acts q Hq) as (_ & _ & _ & _ & G).
    eapply sim_pre; [exact R | | instantiate (1 := 2%Z); cbn [length]; lia]. unfold done. destruct (follow br l) eqn:F.
    - eapply sim_ok with (j := 2); [|exact F|lia]. destruct (follow_look l F) as (a & L & I).
      apply (reach_trans 1 1 _ _ ((10, VTest (TName w)) :: s) l).
      + assert (G1 : forall pr f, nth_error rules p = Some (pr, f) -> reduces_for q1 p followers = true -> p_lhs pr = nt_ix NameTest -> length (p_rhs pr) = 1 -> f [VTok (TStr w)] = Some (VTest (TName w)) ->
          reach 1 ((q1, VTok (TStr w)) :: s) l ((10, VTest (TName w)) :: s) l).
        { intros pr f R1 R2 R3 R4 R5. eapply redf; try eassumption; rewrite ?R4, ?R3; try reflexivity; [exact R5|]. now rewrite T. }
        destruct C as [(E1 & E2) | [(E1 & E2) | (E1 & E2)]]; subst q1 p.
        * eapply G1; try reflexivity. destruct (Nat.eqb q 6); reflexivity.
        * eapply G1; reflexivity.
        * eapply G1; reflexivity.
      + eapply (red1 10 36); [reflexivity | exact F | reflexivity | reflexivity | reflexivity | now rewrite T].
    - eapply sim_bad with (j := 1); [|lia]. destruct (unfollow_look l F) as [L | (a & L & I)]; [now apply fails_none|].
      eapply fails_action; [exact L|]. cbn [top].
      assert (a <> OPEN_PAREN) by (intros ->; destruct (look_is l LPar L) as (l' & E); [auto | now apply (NL l')]).
      assert (a = AXIS_SEP -> q = 6) by (intros ->; destruct (look_is l Colons L) as (l' & E); [auto | now apply (NC l')]).
      destruct C as [(E1 & E2) | [(E1 & E2) | (E1 & E2)]]; subst q1 p.
      + destruct (Nat.eqb q 6) eqn:E6.
        * destruct a; try reflexivity; try contradiction; noin I.
        * destruct a; try reflexivity; try contradiction; try (rewrite (H0 eq_refl) in E6; discriminate E6); noin I.
      + destruct a; try reflexivity; try contradiction; noin I.
      + destruct a; try reflexivity; try contradiction; noin I.
  Qed.

  Lemma call_reduce : forall q1 w es s l, In q1 [7; 12; 13; 48] -> follow br l = true ->
    reach 1 ((goto q1 (nt_ix FormalArguments), VEs es) :: (q1, VTok (TStr w)) :: s) l ((goto (top s) (nt_ix FunctionCall), VE (call_of w es)) :: s) l.
  Proof.
    intros q1 w es s l H F.
    repeat (destruct H as [<- | H];
      [ first [ eapply (red1 _ 51); [reflexivity | exact F | reflexivity | reflexivity | reflexivity | reflexivity]
              | eapply (red1 _ 52); [reflexivity | exact F | reflexivity | reflexivity | reflexivity | reflexivity]
              | eapply (red1 _ 53); [reflexivity | exact F | reflexivity | reflexivity | reflexivity | reflexivity] ] |]).
    destruct H.
  Qed.
  Lemma call_sim : forall n q w s l, P_args n -> In q Tall -> top s = q ->
    sim (-17) (rbind (r_args br n (P LPar :: l)) (fun es l => Ok (call_of w es) l)) s (Word w :: P LPar :: l)
      (fun e => (goto q (nt_ix FunctionCall), VE e) :: s) (follow br).
  Proof.
    intros n q w s l IA Hq T. destruct (word_after q w s (P LPar :: l) Hq T) as (q1 & p & R & _ & I1 & _).
    eapply sim_pre; [exact R | | instantiate (1 := (-8)%Z); cbn [length]; lia].
    eapply sim_bind with (b2 := 1%Z); [apply (IA true q1); [exact I1 | reflexivity] | lia | lia|].
    intros es rest _ F. eapply sim_ok; [|exact F|instantiate (1 := 1); lia]. cbn [list_of]. rewrite <- T. apply call_reduce; assumption.
  Qed.

  Lemma test_S : forall n, P_args n -> P_test (S n).
  Proof.
    intros n IA q s l Hq T TP.
    assert (B : stuck q l -> sim (-7) (@Bad ntest) s l (fun t => (goto q (nt_ix NodeTest), VTest t) :: s) (follow br)).
    { intros St. eapply sim_bad; [eapply stuck_fails; eauto | lia]. }
    destruct l as [|[w|w|z|f|p] l]; rewrite r_test_S; try (apply B; exact TP).
    - assert (D : (forall l', l <> P LPar :: l') -> sim (-7) (done br (TName w) l) s (Word w :: l) (fun t => (goto q (nt_ix NodeTest), VTest t) :: s) (follow br)).
      { intros NL. apply word_done; auto. intros l' ->. exact TP. }
      destruct l as [|[w2|w2|z2|f2|p2] l]; try (apply D; intros l'; discriminate).
      destruct p2; try (apply D; intros l'; discriminate). clear D B. cbn [tprec] in TP.
      pose proof (call_sim n q w s l IA Hq T) as CS.
      destruct (r_args br n (P LPar :: l)) as [| |es rest]; cbn [rbind] in *; [exact I | |].
      + destruct CS as (k & Hk & F). exists k. split; [lia|exact F].
      + destruct CS as (k & Hk & R & F). assert (G : goto q (nt_ix FunctionCall) = 49).
        { clear -Hq TP. unfold Tall, Sall, Pall in Hq. rewrite <- !app_assoc in Hq. apply in_app_or in Hq as [Hq|Hq]; [contradiction|]. cbn in Hq. each Hq. }
        rewrite G in R.
        assert (EX : (exists t, call_of w es = ETest t) \/ forall t, call_of w es <> ETest t).
        { unfold call_of. destruct (str_eqb w (lit "node")); [eauto|]. destruct (str_eqb w (lit "text")); [eauto|]. right. intros t. discriminate. }
        destruct EX as [(t & E) | NE].
        * rewrite E in *. exists (k + 1). split; [cbn [length] in *; lia|]. split; [|exact F]. eapply reach_trans; [exact R|].
          eapply (red1 49 37); [reflexivity | exact F | reflexivity | reflexivity | reflexivity | now rewrite T].
        * replace (match call_of w es with ETest t => Ok t rest | _ => Bad end) with (@Bad ntest) by (destruct (call_of w es); try reflexivity; exfalso; eapply NE; reflexivity).
          exists (k + 1). split; [cbn [length] in *; lia|]. eapply reach_fails; [exact R|].
          destruct (follow_look rest F) as (a & L & I1). eapply (fails_sem _ rest a 37); [exact L | | reflexivity |].
          -- cbn [top]. unfold followers in I1. repeat (destruct I1 as [<- | I1]; [reflexivity|]). destruct I1.
          -- cbn. destruct (call_of w es); try reflexivity; exfalso; eapply NE; reflexivity.
    - destruct p; try (apply B; exact TP). destruct (T_acts q Hq) as (A & _ & _ & _ & G).
      eapply sim_pre; [apply reach_shift; cbn [emb kind punct_tok fst]; rewrite T; exact A | | instantiate (1 := 2%Z); cbn [length]; lia].
      eapply sim_done with (b1 := 1%Z) (p := 38); [reflexivity | reflexivity | reflexivity | reflexivity | reflexivity | | lia | lia].
      intros F. eapply sim_ok; [|exact F | instantiate (1 := 1); lia]. cbn [p_lhs rule]. 
      change (p_lhs (fst (rule NameTest [t_ STAR_OP] [STAR_OP] a_star))) with (nt_ix NameTest). norm. rewrite T, G.
      eapply (red1 10 36); [reflexivity | exact F | reflexivity | reflexivity | reflexivity | now rewrite T].
  Qed.

  (** ** Steps *)
  Definition test_start (l : list token) : bool := match l with Word _ :: _ | P Star :: _ => true | _ => false end.
  Lemma no_test : forall n l, test_start l = false -> r_test br n l = Bad \/ r_test br n l = Fuel.
  Proof.
    intros [|n] l H; [right; reflexivity|]. left. rewrite r_test_S. destruct l as [|[w|w|z|f|p] l]; try discriminate; try reflexivity.
    destruct p; try discriminate; reflexivity.
  Qed.
  Lemma test_look : forall l, test_start l = false -> stuck 8 l /\ stuck 50 l.
  Proof.
    intros [|t l] H.
    - unfold stuck, look, lookahead. cbn [map toks broken]. destruct br; split; auto; right; exists END; split; reflexivity.
    - unfold stuck, look, lookahead. cbn [map toks broken].
      assert (action 8 (kind (emb t)) = None /\ action 50 (kind (emb t)) = None) as [A B].
      { destruct t as [w|w|z|f|p]; try discriminate; try (split; reflexivity). destruct p; try discriminate; split; reflexivity. }
      split; right; exists (kind (emb t)); auto.
  Qed.
  Lemma test_look2 : forall l, test_start l = true -> exists a, look l = Some a /\ In a [NAME; LOGICAL_OP; DIVMOD_OP; STAR_OP].
  Proof.
    intros [|[w|w|z|f|p] l] H; try discriminate; exists (kind (emb (match l with _ => Word w end))) || exists STAR_OP.
    - split; [reflexivity|]. cbn [emb kind]. destruct (word_kind_cases w) as [(E & _) | [(E & _) | (E & _)]]; rewrite E; cbn; auto.
    - destruct p; try discriminate. split; [reflexivity|]. cbn; auto.
  Qed.
  Lemma tprec6 : forall l, test_start l = true -> tprec 6 l.
  Proof.
    intros [|[w|w|z|f|p] l] H; try discriminate.
    - cbn. destruct l as [|[| | | |p] l]; auto. destruct p; auto. intros N. cbn in N. intuition discriminate.
    - destruct p; try discriminate. exact I.
  Qed.
  Lemma axis_test : forall n q s l ax, P_test n -> In q Sall -> top s = q -> test_start l = true ->
    sim (-6) (rbind (r_test br n l) (fun t l => Ok (EStep ax t) l)) ((6, VAxis ax) :: s) l (fun e => (goto q (nt_ix Step), VE e) :: s) (follow br).
  Proof.
    intros n q s l ax IT Hq T TS. eapply sim_bind with (b2 := 1%Z);
      [apply (IT 6); [cbn; auto 30 | reflexivity | apply tprec6; exact TS] | lia | lia|].
    intros t rest _ F. eapply sim_ok; [|exact F|instantiate (1 := 1); lia].
    eapply (red1 47 30); [reflexivity | exact F | reflexivity | reflexivity | reflexivity | now rewrite T].
  Qed.
  Lemma step_S : forall n, P_test n -> P_step (S n).
  Proof.
    intros n IT q s l Hq T SP. destruct (S_acts q Hq) as (A1 & A2 & A3 & G1 & G2 & N6).
    assert (D : tprec q l -> sim (-6) (rbind (r_test br n l) (fun t l => Ok (EStep AxChild t) l)) s l (fun e => (goto q (nt_ix Step), VE e) :: s) (follow br)).
    { intros TP. eapply sim_bind with (b2 := 1%Z); [apply (IT q); [apply S_T; exact Hq | exact T | exact TP] | lia | lia|].
      intros t rest _ F. eapply sim_ok; [|exact F|instantiate (1 := 1); lia]. rewrite G2.
      eapply (red1 9 31); [reflexivity | exact F | reflexivity | reflexivity | reflexivity | now rewrite T]. }
    rewrite r_step_S. destruct l as [|[w|w|z|f|p] l]; try (apply D; exact SP).
    - destruct l as [|[w2|w2|z2|f2|p2] l]; try (apply D; exact SP). destruct p2; try (apply D; exact SP). clear D.
      destruct (word_after q w s (P Colons :: l) (S_T q Hq) T) as (q1 & p & R & C & I1 & NK). rewrite N6 in C.
      eapply sim_pre; [exact R | | instantiate (1 := 3%Z); cbn [length]; lia].
      destruct C as [(E1 & E2) | C].
      2:{ assert (AX : axis_of w = None).
          { destruct (word_kind_cases w) as [(E & [[_ ->] | [_ ->]]) | [(E & _ & _ & [-> | ->]) | (E & _)]]; try reflexivity.
            exfalso. destruct (T_acts q (S_T q Hq)) as (_ & _ & _ & AN & _). rewrite N6 in AN.
            assert (R2 : reach 1 s (Word w :: P Colons :: l) ((7, VTok (TStr w)) :: s) (P Colons :: l)).
            { apply (reach_shift s (Word w)). cbn [emb kind]. rewrite T, E. exact AN. }
            specialize (R 1). rewrite (R2 1) in R.
            destruct C as [[-> _] | [-> _]]; cbv [run prun pstep_of lookahead map toks broken emb kind top] in R; vm_compute in R; discriminate R. }
          rewrite AX. eapply sim_bad; [|instantiate (1 := 1); lia]. eapply fails_action; [reflexivity|].
          destruct C as [[-> _] | [-> _]]; reflexivity. }
      subst q1 p.
      eapply sim_pre; [apply (reach_shift _ (P Colons)); reflexivity | | instantiate (1 := 12%Z); cbn [length]; lia].
      destruct (test_start l) eqn:TS.
      + destruct (test_look2 l TS) as (a & L & I2). destruct (axis_of w) as [ax|] eqn:AX.
        * eapply sim_pre; [ | apply (axis_test n q s l ax IT Hq T TS) | instantiate (1 := 1); lia ].
          eapply (redf 50 34 _ l a); [ | exact L | exact I2 | reflexivity | | reflexivity | ].
          -- reflexivity.
          -- transitivity (option_map VAxis (dict_get axes w)); [reflexivity | unfold axis_of in AX; now rewrite AX].
          -- cbn [top]. rewrite T. exact G1.
        * eapply sim_bad; [|instantiate (1 := 1); lia]. eapply (fails_sem _ l a 34); [exact L | | reflexivity |].
          -- cbn [top]. each I2.
          -- transitivity (option_map VAxis (dict_get axes w)); [reflexivity | unfold axis_of in AX; now rewrite AX].
      + assert (B : fails 1 ((50, VTok (value (emb (P Colons)))) :: (7, VTok (TStr w)) :: s) l) by (eapply stuck_fails; [apply test_look; exact TS | reflexivity]).
        assert (BB : sim 12 (@Bad expr) ((50, VTok (value (emb (P Colons)))) :: (7, VTok (TStr w)) :: s) l (fun e => (goto q (nt_ix Step), VE e) :: s) (follow br))
          by (eapply sim_bad; [exact B | lia]).
        destruct (axis_of w) as [ax|]; [|exact BB]. destruct (no_test n l TS) as [-> | ->]; [exact BB | exact I].
    - destruct p; try (apply D; exact SP).
      + eapply sim_pre; [apply reach_shift; cbn [emb kind punct_tok fst]; rewrite T; exact A1 | | instantiate (1 := 1%Z); cbn [length]; lia].
        eapply sim_done with (b1 := 0%Z) (p := 32); [reflexivity | reflexivity | reflexivity | reflexivity | reflexivity | | lia | lia].
        intros F. eapply sim_ok with (j := 0); [norm; rewrite T; apply reach_refl | exact F | lia].
      + eapply sim_pre; [apply reach_shift; cbn [emb kind punct_tok fst]; rewrite T; exact A2 | | instantiate (1 := 1%Z); cbn [length]; lia].
        eapply sim_done with (b1 := 0%Z) (p := 33); [reflexivity | reflexivity | reflexivity | reflexivity | reflexivity | | lia | lia].
        intros F. eapply sim_ok with (j := 0); [norm; rewrite T; apply reach_refl | exact F | lia].
      + clear D.
        eapply sim_pre; [apply reach_shift; cbn [emb kind punct_tok fst]; rewrite T; exact A3 | | instantiate (1 := 3%Z); cbn [length]; lia].
        destruct (test_start l) eqn:TS.
        * destruct (test_look2 l TS) as (a & L & I2).
          eapply sim_pre; [ | apply (axis_test n q s l AxAttribute IT Hq T TS) | instantiate (1 := 1); lia ].
          eapply (redf 8 35 [NAME; LOGICAL_OP; DIVMOD_OP; STAR_OP] l a); [reflexivity | exact L | exact I2 | reflexivity | reflexivity | reflexivity | cbn [top]; rewrite T; exact G1].
        * destruct (no_test n l TS) as [-> | ->]; [|exact I].
          eapply sim_bad; [eapply (stuck_fails 8); [apply test_look; exact TS | reflexivity] | lia].
  Qed.

  (** ** Paths *)
  Lemma sprec_free : forall q l, In q [20; 36; 37; 45; 46] -> sprec q l.
  Proof.
    intros q l Hq.
    assert (St : step_start l = false -> stuck q l).
    { intros H. destruct l as [|t l].
      - unfold stuck, look, lookahead. cbn [map toks broken]. destruct br; auto. right. exists END. split; [reflexivity|]. each Hq.
      - right. exists (kind (emb t)). split; [reflexivity|]. destruct t as [w|w|z|f|p]; try discriminate; try (cbn [emb kind]; each Hq).
        destruct p; try discriminate; cbn [emb kind punct_tok fst]; each Hq. }
    assert (NK : ~ In q Kall). { intros N. cbn in N. repeat (destruct Hq as [<- | Hq]; [intuition discriminate|]). destruct Hq. }
    destruct l as [|[w|w|z|f|p] l]; cbn [sprec]; try (apply St; reflexivity).
    - destruct l as [|[| | | |p] l]; auto. destruct p; auto.
    - destruct p; try exact I; apply St; reflexivity.
  Qed.
  Lemma P_more_acts : forall q, In q Pall ->
    action (goto q (nt_ix RelativeLocationPath)) PATH_SEP = Some (Shift 45) /\ action (goto q (nt_ix RelativeLocationPath)) ABBREV_PATH_SEP = Some (Shift 46)
    /\ goto q (nt_ix Step) = 5.
  Proof. intros q H. each H. Qed.
  Lemma more_S : forall n, P_step n -> P_more n -> P_more (S n).
  Proof.
    intros n IS IM q s e l Hq T F. destruct (P_more_acts q Hq) as (A1 & A2 & _). rewrite r_more_S.
    assert (D : match l with P Slash :: _ | P Slashes :: _ => false | _ => true end = true ->
      sim 0 (Ok e l) ((goto q (nt_ix RelativeLocationPath), VE e) :: s) l (fun e => (goto q (nt_ix RelativeLocationPath), VE e) :: s) nosep).
    { intros N. eapply sim_ok with (j := 0); [apply reach_refl | unfold nosep; now rewrite F, N | lia]. }
    destruct l as [|[w|w|z|f|p] l]; try (apply D; reflexivity). destruct p; try (apply D; reflexivity); clear D.
    - eapply sim_pre; [apply (reach_shift _ (P Slash)); exact A1 | | instantiate (1 := 9%Z); cbn [length]; lia].
      eapply sim_bind with (b2 := 1%Z); [apply (IS 45); [cbn; auto 30 | reflexivity | apply sprec_free; cbn; auto 10] | lia | lia |].
      intros x rest _ F2.
      eapply sim_pre; [ | apply (IM q s (EBin e OpPath x) rest Hq T F2) | instantiate (1 := 1); lia].
      eapply (red1 74 28); [reflexivity | exact F2 | reflexivity | reflexivity | reflexivity | now rewrite <- T].
    - eapply sim_pre; [apply (reach_shift _ (P Slashes)); exact A2 | | instantiate (1 := 9%Z); cbn [length]; lia].
      eapply sim_bind with (b2 := 1%Z); [apply (IS 46); [cbn; auto 30 | reflexivity | apply sprec_free; cbn; auto 10] | lia | lia |].
      intros x rest _ F2.
      eapply sim_pre; [ | apply (IM q s (EBin e OpDeep x) rest Hq T F2) | instantiate (1 := 1); lia].
      eapply (red1 75 29); [reflexivity | exact F2 | reflexivity | reflexivity | reflexivity | now rewrite <- T].
  Qed.
  Lemma path_S : forall n, P_step n -> P_more n -> P_path (S n).
  Proof.
    intros n IS IM q s l Hq T SP. destruct (P_more_acts q Hq) as (_ & _ & G). rewrite r_path_S.
    eapply sim_bind with (b2 := 1%Z); [apply (IS q); [apply P_S; exact Hq | exact T | exact SP] | lia | lia |].
    intros x rest _ F2. rewrite G.
    eapply sim_pre; [ | apply (IM q s x rest Hq T F2) | instantiate (1 := 1); lia].
    eapply (red1 5 27); [reflexivity | exact F2 | reflexivity | reflexivity | reflexivity | now rewrite <- T].
  Qed.

  (** ** Lists *)
  Lemma strength_pos : forall op, 0 < strength op.
  Proof. intros op. destruct op as [| | | | | | | | | | |w]; cbn [strength]; try lia. destruct (str_eqb w (lit "+") || str_eqb w (lit "-")); lia. Qed.
  Lemma list_S : forall n, P_expr n -> P_list n -> P_list (S n).
  Proof.
    intros n IE IL call q s acc l s' Hc T Hs EP. rewrite r_list_S.
    (* after the expression *)
    assert (ctx : In (top s') (K 0) /\ top s' = top s').
    { split; [|reflexivity]. destruct Hs as (v & Hs). destruct acc as [|a acc].
      - subst s'. destruct call; cbn; auto 10.
      - destruct Hs as (w & ->). destruct call; cbn; auto 10. }
    destruct ctx as [C0 _].
    eapply sim_bind with (b2 := 4%Z); [apply (IE 0 (top s')); [exact C0 | reflexivity | exact EP] | lia | lia |].
    intros x rest _ St. destruct (stops_look 0 rest St) as (a & L & Ia).
    (* the reduction to a list *)
    assert (RL : In a [CLOSE_PAREN; COMMA] -> exists w, reach 1 ((goto (top s') (nt_ix Expr), VE x) :: s') rest
        ((if call then 77 else 43, VEs (acc ++ [x])) :: (opens call, w) :: s) rest).
    { intros Ia2. destruct Hs as (v & Hs). destruct acc as [|y acc].
      - subst s'. exists v. destruct call.
        + eapply (redf 78 56 [CLOSE_PAREN; COMMA] rest a); [reflexivity | exact L | exact Ia2 | reflexivity | reflexivity | reflexivity | reflexivity].
        + eapply (redf 44 11 [CLOSE_PAREN; COMMA] rest a); [reflexivity | exact L | exact Ia2 | reflexivity | reflexivity | reflexivity | reflexivity].
      - destruct Hs as (w & ->). exists w. destruct call.
        + eapply (redf 83 57 [CLOSE_PAREN; COMMA] rest a); [reflexivity | exact L | exact Ia2 | reflexivity | reflexivity | reflexivity | reflexivity].
        + eapply (redf 80 12 [CLOSE_PAREN; COMMA] rest a); [reflexivity | exact L | exact Ia2 | reflexivity | reflexivity | reflexivity | reflexivity]. }
    assert (BL : In a [END; CLOSE_BRACKET] -> fails 1 ((goto (top s') (nt_ix Expr), VE x) :: s') rest).
    { intros Ia2. eapply (badf _ [END; CLOSE_BRACKET] rest a); [ | exact L | exact Ia2]. destruct Hs as (v & Hs). destruct acc as [|y acc].
      - subst s'. destruct call; reflexivity.
      - destruct Hs as (w & ->). destruct call; reflexivity. }
    assert (BB : In a [END; CLOSE_BRACKET] -> sim 4 (@Bad (list expr)) ((goto (top s') (nt_ix Expr), VE x) :: s') rest (fun es => list_of call q es :: s) (follow br)).
    { intros Ia2. eapply sim_bad; [apply BL; exact Ia2 | lia]. }
    destruct rest as [|t rest].
    { apply BB. unfold look, lookahead in L. cbn [map toks broken] in L. destruct br; inversion L. cbn; auto. }
    assert (Ea : a = kind (emb t)) by (unfold look, lookahead in L; cbn [map toks] in L; congruence).
    assert (NO : operator t = None).
    { destruct (operator t) as [op|] eqn:E; [|reflexivity]. exfalso. destruct (op_kind t op E) as [_ Lv]. unfold stops in St. rewrite E in St.
      apply andb_prop in St as [_ St]. apply Nat.leb_le in St. pose proof (strength_pos op). lia. }
    destruct t as [w|w|z|f|p]; try (exfalso; rewrite Ea in Ia; noin Ia).
    { exfalso. destruct (word_kind_cases w) as [(E & [[X _] | [X _]]) | [(E & X & _) | (E & X)]]; try congruence. rewrite Ea in Ia. cbn [emb kind] in Ia. rewrite E in Ia. noin Ia. }
    subst a. destruct p; try discriminate NO; try (exfalso; noin Ia); try (apply BB; cbn; auto; fail).
    - destruct RL as (w & RL); [cbn; auto|].
      eapply sim_pre; [exact RL | | instantiate (1 := 3%Z); lia].
      assert (A : action (if call then 77 else 43) CLOSE_PAREN = Some (Shift (if call then 81 else 72))) by (destruct call; reflexivity).
      eapply sim_pre; [apply (reach_shift _ (P RPar)); exact A | | instantiate (1 := 12%Z); cbn [length]; lia].
      destruct call.
      + eapply sim_done with (b1 := 0%Z) (p := 55); [reflexivity | reflexivity | reflexivity | reflexivity | reflexivity | | lia | lia].
        intros F. eapply sim_ok with (j := 0); [norm; rewrite T; apply reach_refl | exact F | lia].
      + eapply sim_done with (b1 := 0%Z) (p := 10); [reflexivity | reflexivity | reflexivity | reflexivity | reflexivity | | lia | lia].
        intros F. eapply sim_ok with (j := 0); [norm; rewrite T; apply reach_refl | exact F | lia].
    - destruct RL as (w & RL); [cbn; auto|].
      eapply sim_pre; [exact RL | | instantiate (1 := 3%Z); lia].
      assert (A : action (if call then 77 else 43) COMMA = Some (Shift (if call then 82 else 73))) by (destruct call; reflexivity).
      eapply sim_pre; [apply (reach_shift _ (P Comma)); exact A | | instantiate (1 := 12%Z); cbn [length]; lia].
      eapply sim_pre; [apply reach_refl | eapply (IL call q s); [exact Hc | exact T | | ] | lia].
      + eexists. destruct (acc ++ [x]) eqn:E; [destruct acc; discriminate|]. rewrite <- E. eexists. reflexivity. Unshelve. exact (VEs []).
      + destruct call; intros [X | X]; discriminate X.
  Qed.
  Lemma args_S : forall n, P_list n -> P_args (S n).
  Proof.
    intros n IL call q s l Hc T. rewrite r_args_S.
    assert (A : action q OPEN_PAREN = Some (Shift (opens call))).
    { destruct call; cbn [in_ctx] in Hc; [each Hc | apply K_acts in Hc; tauto]. }
    assert (R : reach 1 s (P LPar :: l) ((opens call, VTok (TStr (lit "("))) :: s) l) by (apply (reach_shift s (P LPar)); rewrite T; exact A).
    assert (D : match l with P RPar :: _ => False | _ => True end -> sim (-9) (r_list br n [] l) s (P LPar :: l) (fun es => list_of call q es :: s) (follow br)).
    { intros N. eapply sim_pre; [exact R | eapply (IL call q s []); [exact Hc | exact T | eexists; reflexivity | intros _; exact N] | cbn [length]; lia]. }
    destruct l as [|[w|w|z|f|p] l]; try (apply D; exact I). destruct p; try (apply D; exact I). clear D.
    eapply sim_pre; [exact R | | instantiate (1 := 0%Z); cbn [length]; lia].
    assert (A2 : action (opens call) CLOSE_PAREN = Some (Shift (if call then 76 else 42))) by (destruct call; reflexivity).
    eapply sim_pre; [apply (reach_shift _ (P RPar)); exact A2 | | instantiate (1 := 9%Z); cbn [length]; lia].
    destruct call.
    + eapply sim_done with (b1 := 0%Z) (p := 54); [reflexivity | reflexivity | reflexivity | reflexivity | reflexivity | | lia | lia].
      intros F. eapply sim_ok with (j := 0); [norm; rewrite T; apply reach_refl | exact F | lia].
    + eapply sim_done with (b1 := 0%Z) (p := 9); [reflexivity | reflexivity | reflexivity | reflexivity | reflexivity | | lia | lia].
      intros F. eapply sim_ok with (j := 0); [norm; rewrite T; apply reach_refl | exact F | lia].
  Qed.

  (** ** Predicates *)
  Lemma E_acts : forall q, In q (K 0) ->
    action (goto q (nt_ix Expr)) OPEN_BRACKET = Some (Shift 40) /\ action (goto q (nt_ix Expr)) PATH_SEP = Some (Shift 36)
    /\ action (goto q (nt_ix Expr)) ABBREV_PATH_SEP = Some (Shift 37)
    /\ goto (goto q (nt_ix Expr)) (nt_ix Predicate) = 39 /\ goto (goto q (nt_ix Expr)) (nt_ix PredicateList) = 38.
  Proof. intros q H. each H. Qed.
  Lemma pred_reduce : forall q e s acc x v s' l, In q (K 0) -> preds_stack acc ((goto q (nt_ix Expr), VE e) :: s) s' -> follow br l = true ->
    reach 2 ((79, v) :: (71, VE x) :: s') l ((38, VEs (acc ++ [x])) :: (goto q (nt_ix Expr), VE e) :: s) l.
  Proof.
    intros q e s acc x v s' l Hq (v' & Hs) F. destruct (E_acts q Hq) as (_ & _ & _ & G1 & G2).
    apply (reach_trans 1 1 _ _ ((match acc with [] => 39 | _ => 70 end, VE x) :: tl s') l).
    - destruct acc as [|y acc]; subst s'; cbn [tl].
      + eapply (red1 79 45); [reflexivity | exact F | reflexivity | reflexivity | reflexivity | exact G1].
      + eapply (red1 79 45); [reflexivity | exact F | reflexivity | reflexivity | reflexivity | reflexivity].
    - destruct acc as [|y acc]; subst s'; cbn [tl].
      + eapply (red1 39 43); [reflexivity | exact F | reflexivity | reflexivity | reflexivity | exact G2].
      + eapply (red1 70 44); [reflexivity | exact F | reflexivity | reflexivity | reflexivity | exact G2].
  Qed.
  Lemma preds_S : forall n, P_expr n -> P_preds n -> P_preds (S n).
  Proof.
    intros n IE IP m q e s acc l s' Hq T -> Hs. rewrite r_preds_S.
    assert (Ts : top s' = 40). { destruct Hs as (v & Hs). destruct acc; subst s'; reflexivity. }
    eapply sim_bind with (b2 := 4%Z); [apply (IE 0 40); [cbn; auto 10 | exact Ts | intros [X | X]; discriminate X] | lia | lia |].
    intros x rest _ St. change (goto 40 (nt_ix Expr)) with 71. destruct (stops_look 0 rest St) as (a & L & Ia).
    assert (BB : In a [END; CLOSE_PAREN; COMMA] -> sim 4 (@Bad (list expr)) ((71, VE x) :: s') rest (fun es => (38, VEs es) :: (goto q (nt_ix Expr), VE e) :: s) nobrk).
    { intros Ia2. eapply sim_bad; [eapply (badf 71 [END; CLOSE_PAREN; COMMA] rest a); [reflexivity | exact L | exact Ia2] | lia]. }
    destruct rest as [|t rest].
    { apply BB. unfold look, lookahead in L. cbn [map toks broken] in L. destruct br; inversion L. cbn; auto. }
    assert (Ea : a = kind (emb t)) by (unfold look, lookahead in L; cbn [map toks] in L; congruence).
    assert (NO : operator t = None).
    { destruct (operator t) as [op|] eqn:E; [|reflexivity]. exfalso. unfold stops in St. rewrite E in St.
      apply andb_prop in St as [_ St]. apply Nat.leb_le in St. pose proof (strength_pos op). lia. }
    destruct t as [w|w|z|f|p]; try (exfalso; rewrite Ea in Ia; noin Ia).
    { exfalso. destruct (word_kind_cases w) as [(E & [[X _] | [X _]]) | [(E & X & _) | (E & X)]]; try congruence. rewrite Ea in Ia. cbn [emb kind] in Ia. rewrite E in Ia. noin Ia. }
    subst a. destruct p; try discriminate NO; try (exfalso; noin Ia); try (apply BB; cbn; auto; fail).
    eapply sim_pre; [apply (reach_shift _ (P RBrk)); reflexivity | | instantiate (1 := 13%Z); cbn [length]; lia].
    assert (D : match rest with P LBrk :: _ => false | _ => true end = true ->
      sim 13 (done br (acc ++ [x]) rest) ((79, VTok (value (emb (P RBrk)))) :: (71, VE x) :: s') rest
        (fun es => (38, VEs es) :: (goto q (nt_ix Expr), VE e) :: s) nobrk).
    { intros N. unfold done. destruct (follow br rest) eqn:F.
      - eapply sim_ok; [eapply pred_reduce; eauto | unfold nobrk; now rewrite F, N | lia].
      - eapply sim_bad; [eapply (bad1 79 45); [reflexivity | exact F] | lia]. }
    destruct rest as [|[w|w|z|f|p] rest]; try (apply D; reflexivity). destruct p; try (apply D; reflexivity). clear D.
    eapply sim_pre; [eapply pred_reduce; eauto | | instantiate (1 := 11%Z); cbn [length]; lia].
    eapply sim_pre; [apply (reach_shift _ (P LBrk)); reflexivity | | instantiate (1 := 20%Z); cbn [length]; lia].
    eapply sim_pre; [apply reach_refl | eapply (IP 0 q e s); [exact Hq | exact T | reflexivity |] | lia].
    eexists. destruct (acc ++ [x]) eqn:E; [destruct acc; discriminate|]. rewrite <- E. reflexivity.
  Qed.

  (** ** Operators *)
  Definition op_entry (a : tk) : nat * nat :=
    match a with
    | LOGICAL_OP => (28, 1) | EQUAL_OP => (29, 2) | REL_OP => (30, 3) | PLUS_OP => (31, 4) | MINUS_OP => (32, 5) | DIVMOD_OP => (34, 7)
    | _ => (35, 13)
    end.
  Lemma op_acts : forall m q a, In q (K m) -> In a op_kinds -> m < level a ->
    action (goto q (nt_ix Expr)) a = Some (Shift (fst (op_entry a))).
  Proof.
    intros m q a Hq Ha Lt.
    do 8 (destruct m as [|m]; [ cbn in Ha; repeat (destruct Ha as [<- | Ha]; [cbn in Lt; try (exfalso; lia); each Hq |]); destruct Ha | ]). destruct Hq.
  Qed.
  Lemma op_after : forall a l s e w x, In a op_kinds -> stops (level a) l = true ->
    reach 1 ((goto (fst (op_entry a)) (nt_ix Expr), VE x) :: (fst (op_entry a), VTok (TStr w)) :: e :: s) l
      ((goto (top s) (nt_ix Expr), match snd e with VE y => VE (EBin y (binop_of w) x) | v => v end) :: s) l
    \/ match snd e with VE _ => False | _ => True end.
  Proof.
    intros a l s [q0 e] w x Ha St. destruct (stops_look _ l St) as (b & L & Ib). cbn [snd].
    destruct e as [v|y|es|ax|t]; auto. left.
    Ltac opr p L Ib := eapply (redf _ p _ _ _); [ | exact L | exact Ib | reflexivity | reflexivity | reflexivity | reflexivity]; reflexivity.
    destruct Ha as [<- | [<- | [<- | [<- | [<- | [<- | [<- | []]]]]]]].
    - opr 1 L Ib.
    - opr 2 L Ib.
    - opr 3 L Ib.
    - opr 4 L Ib.
    - opr 5 L Ib.
    - opr 7 L Ib.
    - opr 13 L Ib.
  Qed.
  Lemma op_value : forall t op, operator t = Some op -> exists w, value (emb t) = TStr w /\ binop_of w = op.
  Proof.
    intros [w|w|z|f|p] op E; try discriminate.
    - exists w. split; [reflexivity|]. destruct (word_kind_cases w) as [(_ & [[E1 ->] | [E1 ->]]) | [(_ & E1 & _ & [-> | ->]) | (_ & E1)]];
        rewrite E1 in E; inversion E; reflexivity.
    - destruct p; cbn in E; try discriminate; inversion E; subst; eexists; split; reflexivity.
  Qed.
  Lemma op_level : forall a, In a op_kinds -> In (fst (op_entry a)) (K (level a)).
  Proof. intros a Ha. cbn in Ha. repeat (destruct Ha as [<- | Ha]; [cbn; auto|]). destruct Ha. Qed.
  Lemma loop_S : forall n, P_expr n -> P_preds n -> P_path n -> P_loop n -> P_loop (S n).
  Proof.
    intros n IE IP IPa IL m q s e l Hq T F. rewrite r_loop_S.
    assert (D : stops m l = true -> sim 0 (Ok e l) ((goto q (nt_ix Expr), VE e) :: s) l (fun e => (goto q (nt_ix Expr), VE e) :: s) (stops m)).
    { intros St. eapply sim_ok with (j := 0); [apply reach_refl | exact St | lia]. }
    destruct l as [|t l]; [apply D; unfold stops; now rewrite F|].
    destruct (operator t) as [op|] eqn:E.
    - destruct (Nat.ltb m (strength op)) eqn:Lt.
      2:{ apply D. unfold stops. rewrite F, E. apply Nat.ltb_ge in Lt. now apply Nat.leb_le in Lt. }
      apply Nat.ltb_lt in Lt. clear D. destruct (op_kind t op E) as [Ik Lv]. destruct (op_value t op E) as (w & Vw & Bw).
      eapply sim_pre; [apply (reach_shift _ t); cbn [top]; apply (op_acts m q); [exact Hq | exact Ik | now rewrite Lv] | | instantiate (1 := 9%Z); cbn [length]; lia].
      eapply sim_bind with (b2 := 1%Z); [apply (IE (strength op) (fst (op_entry (kind (emb t))))); [rewrite <- Lv; apply op_level; exact Ik | reflexivity | ] | lia | lia | ].
      { intros X. exfalso. revert Ik X. clear. generalize (kind (emb t)). intros a Ha X.
        repeat (destruct Ha as [<- | Ha]; [destruct X as [X | X]; discriminate X|]). destruct Ha. }
      intros x rest _ St. rewrite Vw. rewrite <- Lv in St.
      destruct (op_after (kind (emb t)) rest s (goto q (nt_ix Expr), VE e) w x Ik St) as [R | []].
      eapply sim_pre; [exact R | | instantiate (1 := 0%Z); lia]. cbn [snd]. rewrite Bw, T. apply (IL m q s); auto.
      apply andb_prop in St as [St _]. exact St.
    - destruct (Nat.eqb m 0) eqn:M0.
      2:{ apply D. unfold stops. now rewrite F, E, M0. }
      apply Nat.eqb_eq in M0. subst m. destruct (E_acts q Hq) as (A1 & A2 & A3 & _ & _). destruct (K_gotos q (K_all 0 q Hq)) as (_ & _ & GP & _).
      destruct t as [w|w|z|f|p]; try (apply D; unfold stops; rewrite F, E; reflexivity).
      destruct p; try (apply D; unfold stops; rewrite F, E; reflexivity); clear D.
      + eapply sim_pre; [apply (reach_shift _ (P Slash)); exact A2 | | instantiate (1 := 9%Z); cbn [length]; lia].
        eapply sim_bind with (b2 := 1%Z); [apply (IPa 36); [cbn; auto 30 | reflexivity | apply sprec_free; cbn; auto] | lia | lia |].
        intros x rest _ N. destruct (nosep_look rest N) as (a & L & Ia).
        eapply sim_pre; [ | apply (IL 0 q s (EBin e OpPath x) rest Hq T) | instantiate (1 := 1); lia]; [|now apply andb_prop in N].
        eapply (redf 68 14 nosep_kinds rest a); [reflexivity | exact L | exact Ia | reflexivity | reflexivity | reflexivity | now rewrite <- T].
      + eapply sim_pre; [apply (reach_shift _ (P Slashes)); exact A3 | | instantiate (1 := 9%Z); cbn [length]; lia].
        eapply sim_bind with (b2 := 1%Z); [apply (IPa 37); [cbn; auto 30 | reflexivity | apply sprec_free; cbn; auto] | lia | lia |].
        intros x rest _ N. destruct (nosep_look rest N) as (a & L & Ia).
        eapply sim_pre; [ | apply (IL 0 q s (EBin e OpDeep x) rest Hq T) | instantiate (1 := 1); lia]; [|now apply andb_prop in N].
        eapply (redf 69 15 nosep_kinds rest a); [reflexivity | exact L | exact Ia | reflexivity | reflexivity | reflexivity | now rewrite <- T].
      + eapply sim_pre; [apply (reach_shift _ (P LBrk)); exact A1 | | instantiate (1 := 9%Z); cbn [length]; lia].
        eapply sim_bind with (b2 := 2%Z); [apply (IP 0 q e s []); [exact Hq | exact T | reflexivity | eexists; reflexivity] | lia | lia |].
        intros es rest _ N. destruct (nobrk_look rest N) as (a & L & Ia). assert (F2 : follow br rest = true) by now apply andb_prop in N.
        eapply sim_pre; [eapply (redf 38 42 nobrk_kinds rest a); [reflexivity | exact L | exact Ia | reflexivity | reflexivity | reflexivity | reflexivity] | | instantiate (1 := 1%Z); lia].
        norm. rewrite T.
        eapply sim_pre; [ | apply (IL 0 q s (EPred e es) rest Hq T F2) | instantiate (1 := 1); lia].
        rewrite GP. eapply (red1 21 19); [reflexivity | exact F2 | reflexivity | reflexivity | reflexivity | now rewrite <- T].
  Qed.
  Lemma expr_S : forall n, P_primary n -> P_loop n -> P_expr (S n).
  Proof.
    intros n IP IL m q s l Hq T EP. rewrite r_expr_S.
    eapply sim_bind with (b2 := 0%Z); [apply (IP q); [eapply K_all; eauto | exact T | exact EP] | lia | lia |].
    intros x rest _ F. apply IL; auto.
  Qed.

  (** ** Primaries *)
  Lemma no_step : forall n l, step_start l = false -> r_step br n l = Bad \/ r_step br n l = Fuel.
  Proof.
    intros [|n] l H; [right; reflexivity|]. rewrite r_step_S.
    assert (D : r_test br n l = Bad \/ r_test br n l = Fuel ->
      rbind (r_test br n l) (fun t l => Ok (EStep AxChild t) l) = Bad \/ rbind (r_test br n l) (fun t l => Ok (EStep AxChild t) l) = Fuel).
    { intros [-> | ->]; auto. }
    destruct l as [|[w|w|z|f|p] l]; try discriminate; try (apply D; apply no_test; reflexivity).
    destruct p; try discriminate; apply D; apply no_test; reflexivity.
  Qed.
  Lemma no_path : forall n l, step_start l = false -> r_path br n l = Bad \/ r_path br n l = Fuel.
  Proof. intros [|n] l H; [right; reflexivity|]. rewrite r_path_S. destruct (no_step n l H) as [-> | ->]; auto. Qed.

  Lemma K_stuck : forall q t l, In q Kall -> (q = 3 \/ q = 52 -> t <> P RPar) ->
    match t with P Colons | P RPar | P LBrk | P RBrk | P Bar | P Eq_ | P Ne_ | P Lt_ | P Gt_ | P Le_ | P Ge_ | P Plus | P Comma => True | _ => False end ->
    stuck q (t :: l).
  Proof.
    intros q t l Hq H3 Ht. right. exists (kind (emb t)). split; [reflexivity|]. destruct t as [w|w|z|f|p]; try destruct Ht.
    destruct p; try destruct Ht; cbn [emb kind punct_tok fst]; try (each Hq).
    repeat (destruct Hq as [<- | Hq]; [first [reflexivity | exfalso; apply H3; auto] |]). destruct Hq.
  Qed.
  Lemma K_end : forall q, In q Kall -> stuck q [].
  Proof.
    intros q Hq. unfold stuck, look, lookahead. cbn [map toks broken]. destruct br; auto. right. exists END. split; [reflexivity|]. each Hq.
  Qed.

  Lemma primary_S : forall n, P_expr n -> P_args n -> P_path n -> P_primary (S n).
  Proof.
    intros n IE IA IP q s l Hq T EP. rewrite r_primary_S.
    destruct (K_acts q Hq) as (A1 & A2 & A3 & A4 & A5 & A6 & A7 & A8).
    destruct (K_gotos q Hq) as (G1 & G2 & G3 & G4 & G5 & G6 & G7).
    assert (D : sprec q l -> sim (-4) (r_path br n l) s l (fun e => (goto q (nt_ix Expr), VE e) :: s) (follow br)).
    { intros SP. specialize (IP q s l (K_P q Hq) T SP). destruct (r_path br n l) as [| |e rest].
      - exact I.
      - destruct IP as (k & Hk & Fk). exists k. split; [lia|exact Fk].
      - destruct IP as (k & Hk & R & N). destruct (nosep_look rest N) as (a & L & Ia). apply andb_prop in N as [F _].
        exists (k + 1). split; [lia|]. split; [|exact F]. eapply reach_trans; [exact R|]. rewrite G7.
        eapply (redf 4 16 nosep_kinds rest a); [reflexivity | exact L | exact Ia | reflexivity | reflexivity | reflexivity | now rewrite <- T]. }
    destruct l as [|[w|w|z|f|p] l].
    - apply D. apply K_end; exact Hq.
    - destruct l as [|[w2|w2|z2|f2|p2] l]; try (apply D; exact I). destruct p2; try (apply D; exact I). clear D.
      pose proof (call_sim n q w s l IA (S_T q (P_S q (K_P q Hq))) T) as CS.
      destruct (r_args br n (P LPar :: l)) as [| |es rest]; cbn [rbind] in *; [exact I | |].
      + destruct CS as (k & Hk & F). exists k. split; [lia|exact F].
      + destruct CS as (k & Hk & R & F). exists (k + 1). split; [lia|]. split; [|exact F]. eapply reach_trans; [exact R|]. rewrite G6.
        eapply (red1 14 20); [reflexivity | exact F | reflexivity | reflexivity | reflexivity | now rewrite <- T].
    - eapply sim_pre; [apply (reach_shift s (Quoted w)); rewrite T; exact A3 | | instantiate (1 := 1%Z); cbn [length]; lia].
      eapply sim_done with (b1 := 0%Z) (p := 22); [reflexivity | reflexivity | reflexivity | reflexivity | reflexivity | | lia | lia].
      intros F. eapply sim_ok with (j := 0); [norm; rewrite T; apply reach_refl | exact F | lia].
    - eapply sim_pre; [apply (reach_shift s (Int z)); rewrite T; exact A4 | | instantiate (1 := 2%Z); cbn [length]; lia].
      eapply sim_done with (b1 := 1%Z) (p := 50); [reflexivity | reflexivity | reflexivity | reflexivity | reflexivity | | lia | lia].
      intros F. eapply sim_ok with (j := 1); [norm; rewrite T, G5 | exact F | lia].
      eapply (red1 25 23); [reflexivity | exact F | reflexivity | reflexivity | reflexivity | now rewrite <- T].
    - eapply sim_pre; [apply (reach_shift s (Flt f)); rewrite T; exact A5 | | instantiate (1 := 2%Z); cbn [length]; lia].
      eapply sim_done with (b1 := 1%Z) (p := 49); [reflexivity | reflexivity | reflexivity | reflexivity | reflexivity | | lia | lia].
      intros F. eapply sim_ok with (j := 1); [norm; rewrite T, G5 | exact F | lia].
      eapply (red1 25 23); [reflexivity | exact F | reflexivity | reflexivity | reflexivity | now rewrite <- T].
    - assert (ST : match p with Colons | RPar | LBrk | RBrk | Bar | Eq_ | Ne_ | Lt_ | Gt_ | Le_ | Ge_ | Plus | Comma => True | _ => False end -> stuck q (P p :: l)).
      { intros Hp. apply K_stuck; [exact Hq | | exact Hp]. intros Hq3 E. specialize (EP Hq3). injection E as ->. exact EP. }
      destruct p; try (apply D; exact I); try (apply D; apply ST; exact I); clear ST.
      + (* / *)
        clear D. eapply sim_pre; [apply (reach_shift s (P Slash)); rewrite T; exact A7 | | instantiate (1 := 5%Z); cbn [length]; lia].
        destruct (step_start l) eqn:SS.
        * eapply sim_bind with (b2 := 2%Z); [apply (IP 18); [cbn; auto 30 | reflexivity | ] | lia | lia |].
          { destruct l as [|[w|w|z|f|p] l]; try discriminate SS; cbn [sprec].
            - destruct l as [|[| | | |p] l]; auto. destruct p; auto. intros N. cbn in N. intuition discriminate.
            - destruct p; try discriminate SS; exact I. }
          intros x rest _ N. destruct (nosep_look rest N) as (a & L & Ia). apply andb_prop in N as [F _].
          eapply sim_pre; [eapply (redf 55 25 nosep_kinds rest a); [reflexivity | exact L | exact Ia | reflexivity | reflexivity | reflexivity | reflexivity] | | instantiate (1 := 1%Z); lia].
          norm. rewrite T, G1. eapply sim_ok with (j := 1); [|exact F|lia].
          eapply (red1 17 17); [reflexivity | exact F | reflexivity | reflexivity | reflexivity | now rewrite <- T].
        * unfold done. destruct (follow br l) eqn:F.
          -- destruct (follow_look l F) as (a & L & Ia).
             assert (Ia2 : In a [END; CLOSE_PAREN; CLOSE_BRACKET; COMMA; OPEN_BRACKET; PATH_SEP; ABBREV_PATH_SEP; EQUAL_OP; REL_OP; PLUS_OP; MINUS_OP; UNION_OP]).
             { destruct l as [|t l].
               - unfold look, lookahead in L. cbn [map toks broken] in L. destruct br; inversion L. cbn; auto.
               - assert (Ea : a = kind (emb t)) by (unfold look, lookahead in L; cbn [map toks] in L; congruence). subst a.
                 destruct t as [w|w|z|f|p]; try discriminate SS; try (exfalso; noin Ia). destruct p; try discriminate SS; try discriminate F; cbn; auto 20. }
             eapply sim_pre; [eapply (redf 18 24 _ l a); [ | exact L | exact Ia2 | reflexivity | reflexivity | reflexivity | reflexivity]; reflexivity | | instantiate (1 := 1%Z); lia].
             norm. rewrite T, G1. eapply sim_ok with (j := 1); [|exact F|lia].
             eapply (red1 17 17); [reflexivity | exact F | reflexivity | reflexivity | reflexivity | now rewrite <- T].
          -- eapply sim_bad; [|instantiate (1 := 1); lia]. destruct (unfollow_look l F) as [L | (a & L & Ia)]; [now apply fails_none|].
             assert (Ia2 : In a [AXIS_SEP; OPEN_PAREN; LITERAL; FLOAT; INTEGER; DOLLAR]).
             { destruct l as [|t l].
               - unfold look, lookahead in L. cbn [map toks broken] in L. destruct br; inversion L. subst a. noin Ia.
               - assert (Ea : a = kind (emb t)) by (unfold look, lookahead in L; cbn [map toks] in L; congruence). subst a.
                 destruct t as [w|w|z|f|p]; try discriminate SS; try (cbn; auto 20; fail). destruct p; try discriminate SS; try discriminate F; cbn; auto 20. }
             eapply (badf 18 [AXIS_SEP; OPEN_PAREN; LITERAL; FLOAT; INTEGER; DOLLAR]); [reflexivity | exact L | exact Ia2].
      + (* // *)
        clear D. eapply sim_pre; [apply (reach_shift s (P Slashes)); rewrite T; exact A8 | | instantiate (1 := 5%Z); cbn [length]; lia].
        eapply sim_bind with (b2 := 2%Z); [apply (IP 20); [cbn; auto 30 | reflexivity | apply sprec_free; cbn; auto] | lia | lia |].
        intros x rest _ N. destruct (nosep_look rest N) as (a & L & Ia). apply andb_prop in N as [F _].
        eapply sim_pre; [eapply (redf 56 26 nosep_kinds rest a); [reflexivity | exact L | exact Ia | reflexivity | reflexivity | reflexivity | reflexivity] | | instantiate (1 := 1%Z); lia].
        norm. rewrite T, G2. eapply sim_ok with (j := 1); [|exact F|lia].
        eapply (red1 19 18); [reflexivity | exact F | reflexivity | reflexivity | reflexivity | now rewrite <- T].
      + (* ( *)
        clear D. eapply sim_bind with (b2 := 0%Z); [apply (IA false q); [exact Hq | exact T] | lia | lia |].
        intros es rest _ F. eapply sim_ok with (j := 0); [apply reach_refl | exact F | lia].
      + (* - *)
        clear D. eapply sim_pre; [apply (reach_shift s (P Minus)); rewrite T; exact A1 | | instantiate (1 := 5%Z); cbn [length]; lia].
        eapply sim_bind with (b2 := 1%Z); [apply (IE minus_strength 2); [cbn; auto | reflexivity | intros [X | X]; discriminate X] | lia | lia |].
        intros x rest _ St. destruct (stops_look _ rest St) as (a & L & Ia). apply andb_prop in St as [F _].
        eapply sim_ok with (j := 1); [|exact F|lia].
        eapply (redf 41 8 _ rest a); [ | exact L | exact Ia | reflexivity | reflexivity | reflexivity | now rewrite <- T]; reflexivity.
      + (* $ *)
        assert (R : reach 1 s (P Dollar :: l) ((23, VTok (TStr (lit "$"))) :: s) l) by (apply (reach_shift s (P Dollar)); rewrite T; exact A6).
        assert (B : match l with Word _ :: _ => false | _ => true end = true -> sim (-4) (r_path br n (P Dollar :: l)) s (P Dollar :: l) (fun e => (goto q (nt_ix Expr), VE e) :: s) (follow br)).
        { intros N. destruct (no_path n (P Dollar :: l) eq_refl) as [-> | ->]; [|exact I].
          eapply sim_pre; [exact R | | instantiate (1 := 5%Z); cbn [length]; lia]. eapply sim_bad; [|instantiate (1 := 1); lia].
          eapply (stuck_fails 23); [|reflexivity]. destruct l as [|t l].
          - unfold stuck, look, lookahead. cbn [map toks broken]. destruct br; auto. right. exists END. split; reflexivity.
          - right. exists (kind (emb t)). split; [reflexivity|]. destruct t as [w|w|z|f|p]; try discriminate N; try reflexivity. destruct p; reflexivity. }
        destruct l as [|[w|w|z|f|p] l]; try (apply B; reflexivity). clear B D.
        eapply sim_pre; [exact R | | instantiate (1 := 5%Z); cbn [length]; lia].
        destruct (word_kind_cases w) as [(E & _) | [(E & _) | (E & _)]].
        * eapply sim_pre; [apply (reach_shift _ (Word w)); cbn [emb kind]; rewrite E; reflexivity | | instantiate (1 := 2%Z); cbn [length]; lia].
          eapply sim_done with (b1 := 1%Z) (p := 47); [reflexivity | reflexivity | reflexivity | reflexivity | reflexivity | | lia | lia].
          intros F. eapply sim_ok with (j := 1); [norm; rewrite T, G4 | exact F | lia].
          eapply (red1 22 21); [reflexivity | exact F | reflexivity | reflexivity | reflexivity | now rewrite <- T].
        * eapply sim_pre; [apply (reach_shift _ (Word w)); cbn [emb kind]; rewrite E; reflexivity | | instantiate (1 := 2%Z); cbn [length]; lia].
          eapply sim_done with (b1 := 1%Z) (p := 48); [reflexivity | reflexivity | reflexivity | reflexivity | reflexivity | | lia | lia].
          intros F. eapply sim_ok with (j := 1); [norm; rewrite T, G4 | exact F | lia].
          eapply (red1 22 21); [reflexivity | exact F | reflexivity | reflexivity | reflexivity | now rewrite <- T].
        * eapply sim_pre; [apply (reach_shift _ (Word w)); cbn [emb kind]; rewrite E; reflexivity | | instantiate (1 := 2%Z); cbn [length]; lia].
          eapply sim_done with (b1 := 1%Z) (p := 46); [reflexivity | reflexivity | reflexivity | reflexivity | reflexivity | | lia | lia].
          intros F. eapply sim_ok with (j := 1); [norm; rewrite T, G4 | exact F | lia].
          eapply (red1 22 21); [reflexivity | exact F | reflexivity | reflexivity | reflexivity | now rewrite <- T].
  Qed.

  Theorem simulation : forall n, P_expr n /\ P_primary n /\ P_loop n /\ P_args n /\ P_list n /\ P_preds n /\ P_test n /\ P_step n /\ P_path n /\ P_more n.
  Proof.
    induction n as [|n (I1 & I2 & I3 & I4 & I5 & I6 & I7 & I8 & I9 & I10)].
    - repeat split; red; intros; exact I.
    - pose proof (expr_S n I2 I3). pose proof (primary_S n I1 I4 I9). pose proof (loop_S n I1 I6 I9 I3). pose proof (args_S n I5).
      pose proof (list_S n I1 I5). pose proof (preds_S n I1 I6). pose proof (test_S n I4). pose proof (step_S n I7).
      pose proof (path_S n I8 I10). pose proof (more_S n I8 I10). tauto.
  Qed.

  (** ** The whole input *)
  Definition r_top (n : nat) (l : list token) : rr expr :=
    rbind (r_expr br n 0 l) (fun e l => match l with [] => Ok e [] | _ => Bad end).
  Theorem tables_agree : forall n l, r_top n l <> Fuel ->
    match r_top n l with Ok e _ => parse_tokens (inp l) = POk e | _ => exists e, parse_tokens (inp l) = PExn e end.
  Proof.
    intros n l NF. destruct (simulation n) as (IE & _). specialize (IE 0 0 [] l (or_introl eq_refl) eq_refl).
    assert (EP : eprec 0 l) by (intros [X | X]; discriminate X). specialize (IE EP).
    assert (FU : forall k, k <= 10 * length l + 11 -> exists j, 20 * length (toks (inp l)) + 20 = k + S j).
    { intros k Hk. cbn [toks]. rewrite map_length. exists (20 * length l + 20 - k - 1). lia. }
    unfold r_top in *. destruct (r_expr br n 0 l) as [| |e rest]; cbn [rbind] in *; [contradiction | |].
    - destruct IE as (k & Hk & (x & F)). exists x. destruct (FU k) as (j & E); [lia|]. unfold parse_tokens. rewrite E. apply (F (S j)).
    - destruct IE as (k & Hk & R & St). destruct (FU k) as (j & E); [lia|]. unfold parse_tokens. rewrite E.
      specialize (R (S j)). unfold run in R. rewrite R. change (prun (S j) ((goto 0 (nt_ix Expr), VE e) :: []) (inp rest)) with (run (S j) [(1, VE e)] rest).
      rewrite run_S. destruct (stops_look 0 rest St) as (a & L & Ia). unfold pstep_of. unfold look in L. rewrite L. cbn [top].
      destruct rest as [|t rest].
      + unfold lookahead in L. cbn [map toks broken] in L. destruct br; inversion L. reflexivity.
      + assert (Ea : a = kind (emb t)) by (unfold lookahead in L; cbn [map toks] in L; congruence).
        exists RuntimeErr. assert (A : action 1 a = None).
        { assert (a <> END) by (subst a; destruct t as [w|w|z|f|p]; try discriminate; [cbn [emb kind]; destruct (word_kind_cases w) as [(-> & _) | [(-> & _) | (-> & _)]]; discriminate | destruct p; discriminate]).
          cbn in Ia. repeat (destruct Ia as [Ea2 | Ia]; [rewrite <- Ea2; first [reflexivity | exfalso; congruence]|]). destruct Ia. }
        now rewrite A.
  Qed.
  Theorem type_error_broken : forall n s l, run n s l = PExn TypeErr -> br = true.
  Proof.
    induction n as [|n IH]; intros s l H; [discriminate|]. rewrite run_S in H. unfold pstep_of in H.
    destruct (lookahead (inp l)) as [a|] eqn:L.
    - destruct (action (top s) a) as [[q|p|]|].
      + cbn [toks broken] in H. destruct l as [|t l]; cbn [map] in H; [discriminate|]. eapply IH. exact H.
      + destruct (nth_error rules p) as [[pr f]|]; [|discriminate]. destruct (f _) as [v|]; [|discriminate]. eapply IH. exact H.
      + destruct s as [|[q v] s]; [discriminate|]. destruct v; discriminate.
      + discriminate.
    - unfold lookahead in L. cbn [toks broken] in L. destruct l; [|discriminate]. cbn [map] in L. destruct br; [reflexivity|discriminate].
  Qed.
End Sim.
