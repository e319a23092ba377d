(** Induction on expressions; more fuel continues an evaluation. *)
From Verif Require Import PyStr XTree Path XPath XPathSpec.

Section Ind.
  Variable P : expr -> Prop.
  Hypothesis HLit : forall l, P (ELit l).
  Hypothesis HNeg : forall e, P e -> P (ENeg e).
  Hypothesis HBin : forall l op r, P l -> P r -> P (EBin l op r).
  Hypothesis HRoot : forall d, P (EAbs d None).
  Hypothesis HAbs : forall d e, P e -> P (EAbs d (Some e)).
  Hypothesis HStep : forall ax t, P (EStep ax t).
  Hypothesis HPred : forall e ps, P e -> Forall P ps -> P (EPred e ps).
  Hypothesis HTest : forall t, P (ETest t).
  Hypothesis HAbbrev : forall u, P (EAbbrev u).
  Hypothesis HVar : forall n, P (EVar n).
  Hypothesis HCall : forall f l, Forall P l -> P (ECall f l).
  Hypothesis HSeq : forall l, Forall P l -> P (ESeq l).
  Fixpoint expr_ind' (e : expr) : P e :=
    let go := fix go (l : list expr) : Forall P l :=
      match l with [] => Forall_nil P | x :: l' => Forall_cons x (expr_ind' x) (go l') end in
    match e with
    | ELit l => HLit l
    | ENeg e => HNeg e (expr_ind' e)
    | EBin l op r => HBin l op r (expr_ind' l) (expr_ind' r)
    | EAbs d None => HRoot d
    | EAbs d (Some e) => HAbs d e (expr_ind' e)
    | EStep ax t => HStep ax t
    | EPred e ps => HPred e ps (expr_ind' e) (go ps)
    | ETest t => HTest t
    | EAbbrev u => HAbbrev u
    | EVar n => HVar n
    | ECall f l => HCall f l (go l)
    | ESeq l => HSeq l (go l)
    end.
End Ind.

(** [r'] continues [r]: it is the same, unless [r] was cut short. *)
Definition continues (r r' : list item * fin) : Prop :=
  (snd r <> Cut /\ r' = r) \/ (snd r = Cut /\ exists more, fst r' = fst r ++ more).

Lemma ext_refl r : continues r r.
Proof. destruct r as [l f]. destruct f; [left; split; [discriminate|reflexivity]..|right]. split; [reflexivity|]. exists []. cbn. rewrite app_nil_r. reflexivity. Qed.
Lemma ext_cut l r : fst r = l \/ l = [] -> continues (l, Cut) r.
Proof. intros H. right. split; [reflexivity|]. destruct H as [<- | ->]; [exists []; rewrite app_nil_r; reflexivity|]. exists (fst r). reflexivity. Qed.
Lemma ext_seq2 r1 r1' r2 r2' : continues r1 r1' -> continues r2 r2' -> continues (seq2 r1 r2) (seq2 r1' r2').
Proof.
  intros [[H ->]|[H (m & E)]] H2.
  - destruct r1 as [l1 f1]. destruct f1 as [|e|]; cbn [seq2]; [|apply ext_refl|exfalso; apply H; reflexivity].
    destruct r2 as [l2 f2], r2' as [l2' f2']. destruct H2 as [[K1 K2]|[K1 (m & K2)]]; cbn in *.
    + inversion K2; subst. left. split; auto.
    + right. split; [auto|]. exists m. cbn. rewrite K2, app_assoc. reflexivity.
  - destruct r1 as [l1 f1]. cbn in H. subst f1. cbn [seq2]. right. split; [reflexivity|]. cbn in E |- *. destruct r1' as [l1' f1']. cbn in E. subst l1'.
    destruct f1' as [|e|]; cbn [seq2].
    + destruct r2' as [l2' f2']. exists (m ++ l2'). cbn. rewrite app_assoc. reflexivity.
    + exists m. reflexivity.
    + exists m. reflexivity.
Qed.
Lemma bindl_seq2 i l f k : bindl (i :: l) f k = seq2 (k i) (bindl l f k).
Proof. cbn [bindl seq2]. destruct (k i) as [l1 [| |]]; reflexivity. Qed.
Lemma bindl_app l m f k : bindl (l ++ m) f k = seq2 (bindl l Done k) (bindl m f k).
Proof.
  induction l as [|i l IH]; cbn [app].
  - cbn. destruct (bindl m f k). reflexivity.
  - rewrite !bindl_seq2, IH. destruct (k i) as [l1 [| |]]; cbn [seq2]; [|reflexivity|reflexivity].
    destruct (bindl l Done k) as [l2 [| |]]; cbn [seq2]; [|reflexivity|reflexivity]. destruct (bindl m f k). rewrite app_assoc. reflexivity.
Qed.
Lemma bindl_cut l k : exists r, bindl l Cut k = r /\ snd r <> Done.
Proof.
  induction l as [|i l IH]; [exists ([], Cut); split; [reflexivity|discriminate]|]. rewrite bindl_seq2. eexists. split; [reflexivity|].
  destruct IH as (r & E & H). rewrite E. destruct (k i) as [l1 [| |]]; cbn; try discriminate. destruct r; cbn in *. auto.
Qed.
Lemma bindl_end l f k : bindl l f k = seq2 (bindl l Done k) ([], f).
Proof. rewrite <- (app_nil_r l) at 1. apply bindl_app. Qed.
Lemma ext_bindl l f k k' : (forall i, continues (k i) (k' i)) -> continues (bindl l f k) (bindl l f k').
Proof.
  intros H. induction l as [|i l IH]; [apply ext_refl|]. rewrite !bindl_seq2. apply ext_seq2; auto.
Qed.
Lemma ext_bind r r' k k' : continues r r' -> (forall i, continues (k i) (k' i)) -> continues (bind r k) (bind r' k').
Proof.
  intros [[H ->]|[H (m & E)]] Hk; unfold bind.
  - apply ext_bindl, Hk.
  - destruct r as [l f], r' as [l' f']. cbn in *. subst f l'. rewrite bindl_app, bindl_end. apply ext_seq2; [apply ext_bindl, Hk|].
    apply ext_cut. right; reflexivity.
Qed.
Lemma ext_first r r' n n' k k' : continues r r' -> continues n n' -> (forall i, continues (k i) (k' i)) -> continues (first r n k) (first r' n' k').
Proof.
  intros [[H ->]|[H (m & E)]] Hn Hk.
  - destruct r as [[|i l] f]; cbn; [destruct f; [auto|apply ext_refl|apply ext_refl]|auto].
  - destruct r as [l f], r' as [l' f']. cbn in *. subst f l'. destruct l as [|i l]; cbn; [apply ext_cut; right; reflexivity|auto].
Qed.
Lemma ext_collected r r' k k' : continues r r' -> (forall l, continues (k l) (k' l)) -> continues (collected r k) (collected r' k').
Proof.
  intros [[H ->]|[H (m & E)]] Hk.
  - destruct r as [l f]; cbn. destruct f; [auto|apply ext_refl|apply ext_refl].
  - destruct r as [l f]. cbn in *. subst f. apply ext_cut. right; reflexivity.
Qed.
Lemma ext_seq_all l l' : Forall2 continues l l' -> continues (seq_all l) (seq_all l').
Proof. induction 1; cbn [seq_all]; [apply ext_refl|]. apply ext_seq2; auto. Qed.

Section Fuel.
  Variable w : env.

  Lemma ext_scan x l f l' f' : continues (l, f) (l', f') ->
    eq_scan w x l f = inr Cut \/ eq_scan w x l' f' = eq_scan w x l f.
  Proof.
    intros [[H E]|[H (m & E)]]; cbn in *.
    - inversion E; subst. right; reflexivity.
    - subst f l'. induction l as [|j l IH]; cbn; [left; reflexivity|]. destruct (is_node j); [right; reflexivity|].
      destruct (py_eq w x j); [right; reflexivity|auto].
  Qed.
  Lemma ext_equality l l' r r' : continues l l' -> continues r r' -> continues (equality w l r) (equality w l' r').
  Proof.
    intros Hl Hr. destruct l as [[|i l] f].
    - destruct Hl as [[H ->]|[H _]]; cbn in *; [destruct f; [apply ext_refl..|congruence]|]. subst. apply ext_cut. right; reflexivity.
    - destruct l' as [l' f']. assert (exists m, l' = i :: m) as (m & ->).
      { destruct Hl as [[_ E]|[_ (m & E)]]; cbn in E; [inversion E; eauto|subst; cbn; eauto]. }
      cbn [equality]. destruct r as [rl rf], r' as [rl' rf']. cbn [fst snd].
      destruct (ext_scan (plain w i) rl rf rl' rf' Hr) as [-> | ->]; [apply ext_cut; right; reflexivity|].
      destruct (eq_scan w (plain w i) rl rf) as [[]|]; try apply ext_refl.
      destruct Hl as [[H E]|[H _]]; cbn in *; [inversion E; subst; apply ext_refl|]. subst. apply ext_cut. right; reflexivity.
  Qed.
  Lemma ext_union c l l' r r' : continues l l' -> continues r r' -> continues (union w c l r) (union w c l' r').
  Proof. intros Hl Hr. unfold union. destruct (parent c); [|apply ext_refl]. apply ext_collected; [auto|]. intros. apply ext_collected; [auto|]. intros. apply ext_refl. Qed.
  Lemma ext_binary op c l l' r r' : (forall i, continues (l i) (l' i)) -> (forall i, continues (r i) (r' i)) ->
    continues (binary w op c l r) (binary w op c l' r').
  Proof.
    intros Hl Hr. assert (Hf : forall f, continues (first (l c) (raise RuntimeErr) (fun i => first (r c) (raise RuntimeErr) (f i)))
      (first (l' c) (raise RuntimeErr) (fun i => first (r' c) (raise RuntimeErr) (f i)))).
    { intros f. apply ext_first; [auto|apply ext_refl|]. intros i. apply ext_first; [auto|apply ext_refl|]. intros; apply ext_refl. }
    destruct op; cbn [binary]; try apply Hf; try apply ext_refl.
    - apply ext_bind; auto.
    - apply ext_bind; auto.
    - apply ext_union; auto.
    - apply ext_equality; auto.
    - apply ext_first; [auto|apply ext_refl|]. intros i. apply ext_first; [auto|apply ext_refl|]. intros; apply ext_refl.
    - apply ext_first; [auto|apply ext_refl|]. intros i. destruct (truthy w i); [apply ext_refl|]. apply ext_first; [auto|apply ext_refl|]. intros; apply ext_refl.
    - apply ext_first; [auto|apply ext_refl|]. intros i. destruct (truthy w i); [|apply ext_refl]. apply ext_first; [auto|apply ext_refl|]. intros; apply ext_refl.
  Qed.
  Lemma ext_verdict pos c ps ps' : Forall2 (fun p p' : item -> list item * fin => forall i, continues (p i) (p' i)) ps ps' ->
    verdict_of w pos c ps = VStop Cut \/ verdict_of w pos c ps' = verdict_of w pos c ps.
  Proof.
    induction 1 as [|p p' ps ps' Hp _ IH]; cbn [verdict_of]; [right; reflexivity|]. specialize (Hp c). destruct (p c) as [l f] eqn:Ep, (p' c) as [l' f'] eqn:Ep'.
    destruct Hp as [[H E]|[H (m & E)]]; cbn in H, E.
    - inversion E; subst. destruct (match l with [] => match f with Done => inl (IBool false) | _ => inr f end | i :: _ => inl i end) as [i|f0]; [|right; reflexivity].
      destruct (number_of i) as [[z|e]|]; [destruct (z =? Z.of_nat pos)%Z; [auto|right; reflexivity]|right; reflexivity|].
      destruct (to_boolean w i); [auto|right; reflexivity].
    - subst f l'. destruct l as [|i l]; [left; reflexivity|]. cbn [app].
      destruct (number_of i) as [[z|e]|]; [destruct (z =? Z.of_nat pos)%Z; [auto|right; reflexivity]|right; reflexivity|].
      destruct (to_boolean w i); [auto|right; reflexivity].
  Qed.
  Lemma predicated_seq2 pos c i l f ps : predicated w pos c (i :: l) f ps =
    match verdict_of w pos (copy w c i) ps with
    | VKeep => seq2 (yield1 i) (predicated w (S pos) c l f ps)
    | VDrop => predicated w (S pos) c l f ps
    | VStop f' => ([], f')
    end.
  Proof. cbn [predicated]. destruct (verdict_of w pos (copy w c i) ps); try reflexivity. Qed.
  Lemma ext_predicated c ps ps' : Forall2 (fun p p' : item -> list item * fin => forall i, continues (p i) (p' i)) ps ps' ->
    forall l f l' f' pos, continues (l, f) (l', f') -> continues (predicated w pos c l f ps) (predicated w pos c l' f' ps').
  Proof.
    intros Hp l. induction l as [|i l IH]; intros f l' f' pos H.
    - destruct H as [[H E]|[H (m & E)]]; cbn in *; [inversion E; subst; apply ext_refl|]. subst. apply ext_cut. right; reflexivity.
    - assert (exists m, l' = i :: m /\ continues (l, f) (m, f')) as (m & -> & Hm).
      { destruct H as [[H E]|[H (m & E)]]; cbn in H, E.
        - inversion E; subst. exists l. split; [auto|apply ext_refl].
        - subst f l'. exists (l ++ m). split; [reflexivity|]. right. split; [reflexivity|]. exists m. reflexivity. }
      rewrite !predicated_seq2. destruct (ext_verdict pos (copy w c i) ps ps' Hp) as [-> | ->]; [apply ext_cut; right; reflexivity|].
      destruct (verdict_of w pos (copy w c i) ps); [|auto|apply ext_refl]. apply ext_seq2; [apply ext_refl|auto].
  Qed.
  Lemma ext_absolute d c jn r r' : (forall i, continues (r i) (r' i)) -> continues (absolute w d c (Some (jn, r))) (absolute w d c (Some (jn, r'))).
  Proof.
    intros H. unfold absolute, with_root. destruct (root_of w c); [|apply ext_refl]. apply ext_seq2; [apply ext_refl|]. apply ext_seq2; [auto|].
    destruct d; [|apply ext_refl]. apply ext_bindl. auto.
  Qed.
  Lemma ext_string_arg r r' k k' : continues r r' -> (forall i, continues (k i) (k' i)) -> continues (string_arg w r k) (string_arg w r' k').
  Proof. intros H Hk. unfold string_arg. apply ext_first; auto. Qed.
  Lemma ext_step n m ax t c : n <= m -> continues (step w n ax t c) (step w m ax t c).
  Proof.
    intros Hn. destruct ax; try apply ext_refl. cbn [step]. apply ext_seq2; [apply ext_refl|]. destruct (parent c) as [[p|]|]; try apply ext_refl.
    replace m with (n + (m - n)) by lia. rewrite repeat_app. unfold test_all. rewrite map_app, bindl_app.
    assert (T : forall t i, exists l, test w t i = (l, Done)).
    { clear. intros t i. destruct t as [|nm| |]; cbn [test].
      - eexists; reflexivity.
      - destruct i; try (eexists; reflexivity). destruct (node_at w a) as [[x ats ks|s]|]; try (eexists; reflexivity). destruct (str_eqb x nm); eexists; reflexivity.
      - destruct (is_node i || _); eexists; reflexivity.
      - destruct (as_str w i); eexists; reflexivity. }
    assert (B : forall l, exists l', bindl l Done (fun i => test w t (copy w c i)) = (l', Done)).
    { intros l. induction l as [|i l [l' IH]]; [eexists; reflexivity|]. rewrite bindl_seq2, IH. destruct (T t (copy w c i)) as (l1 & ->). eexists; reflexivity. }
    destruct (B (map INode (repeat p n))) as (l1 & ->), (B (map INode (repeat p (m - n)))) as (l2 & ->). cbn [seq2]. right. split; [reflexivity|]. exists l2. reflexivity.
  Qed.
  Definition continues_dyn (d d' : option (expr -> item -> list item * fin)) : Prop :=
    match d, d' with
    | None, _ => True
    | Some f, Some f' => forall e c, continues (f e c) (f' e c)
    | _, _ => False
    end.
  Ltac ext_tac := repeat first
    [ apply ext_refl | assumption
    | apply ext_first; [auto| |intros ?] | apply ext_collected; [auto|intros ?] | apply ext_string_arg; [auto|intros ?]
    | progress intros ].
  Lemma ext_call d d' f raw args args' c : continues_dyn d d' ->
    Forall2 (fun p p' : item -> list item * fin => forall i, continues (p i) (p' i)) args args' ->
    continues (call w d f raw args c) (call w d' f raw args' c).
  Proof.
    intros Hd H. unfold call. destruct (dict_get builtins f) as [fn|]; [|apply ext_refl].
    assert (Hall : continues (seq_all (map (fun x => x c) args)) (seq_all (map (fun x => x c) args'))).
    { apply ext_seq_all. clear - H. induction H; cbn; constructor; auto. }
    assert (Hlen : length args' = length args) by (clear - H; induction H; cbn; auto).
    destruct H as [|x x' l l' Hx H].
    { destruct fn; try apply ext_refl. }
    destruct H as [|y y' l l' Hy H].
    { destruct fn; try apply ext_refl; try solve [ext_tac]. }
    destruct H as [|z z' l l' Hz H].
    { destruct fn; try apply ext_refl; try solve [ext_tac]. apply ext_string_arg; [auto|]. intros i. destruct (xparse w (str_of w i)) as [e|e]; [|apply ext_refl].
      apply ext_bind; [auto|]. intros j. destruct d as [f1|], d' as [f2|]; cbn in Hd; [auto|destruct Hd|apply ext_cut; right; reflexivity|apply ext_refl]. }
    destruct H as [|z0 z0' l l' Hz0 H].
    { destruct fn; try apply ext_refl; try solve [ext_tac]. }
    destruct fn; try apply ext_refl; try solve [ext_tac]. rewrite Hlen. apply ext_refl.
  Qed.

  (** The equations of [eval]. *)
  Definition dyn_of (n : nat) : option (expr -> item -> list item * fin) := match n with O => None | S k => Some (eval w k) end.
  Definition right_of (n : nat) (op : binop) (r : expr) : item -> list item * fin :=
    match op, r with OpDeep, EStep _ t => step w n AxDescendantOrSelf t | _, _ => eval w n r end.
  Lemma eval_lit n l c : eval w n (ELit l) c = yield1 (lit_item l). Proof. destruct n; reflexivity. Qed.
  Lemma eval_neg n e c : eval w n (ENeg e) c = first (eval w n e c) (raise TypeErr) (fun _ => raise TypeErr). Proof. destruct n; reflexivity. Qed.
  Lemma eval_bin n l op r c : eval w n (EBin l op r) c = binary w op c (eval w n l) (right_of n op r). Proof. destruct n; reflexivity. Qed.
  Lemma eval_root n d c : eval w n (EAbs d None) c = absolute w d c None. Proof. destruct n; reflexivity. Qed.
  Lemma eval_abs n d e c : eval w n (EAbs d (Some e)) c = absolute w d c (Some (just_node e, eval w n e)). Proof. destruct n; reflexivity. Qed.
  Lemma eval_step n ax t c : eval w n (EStep ax t) c = step w n ax t c. Proof. destruct n; reflexivity. Qed.
  Lemma eval_pred n e ps c : eval w n (EPred e ps) c = predicated w 1 c (fst (eval w n e c)) (snd (eval w n e c)) (map (eval w n) ps). Proof. destruct n; reflexivity. Qed.
  Lemma eval_test n t c : eval w n (ETest t) c = test w t c. Proof. destruct n; reflexivity. Qed.
  Lemma eval_abbrev n u c : eval w n (EAbbrev u) c = abbrev w u c. Proof. destruct n; reflexivity. Qed.
  Lemma eval_var n v c : eval w n (EVar v) c = match dict_get (vars w) v with Some i => yield1 i | None => raise KeyErr end. Proof. destruct n; reflexivity. Qed.
  Lemma eval_call n f l c : eval w n (ECall f l) c = call w (dyn_of n) f l (map (eval w n) l) c. Proof. destruct n; reflexivity. Qed.
  Lemma eval_seq n l c : eval w n (ESeq l) c = seq_all (map (fun x => eval w n x c) l). Proof. destruct n; reflexivity. Qed.

  Lemma eval_continues n : forall m, n <= m -> forall e c, continues (eval w n e c) (eval w m e c).
  Proof.
    induction n as [|n IHn]; intros m Hm.
    1: assert (Hd : continues_dyn (dyn_of 0) (dyn_of m)) by exact I.
    2: assert (Hd : continues_dyn (dyn_of (S n)) (dyn_of m)) by (destruct m as [|m]; [lia|]; intros e c; apply IHn; lia).
    all: intros e; induction e as [l|e IHe|l op r IHl IHr|d|d e IHe|ax t|e ps IHe IHps|t|u|v|f l IHl|l IHl] using expr_ind'; intros c.
    all: rewrite ?eval_lit, ?eval_neg, ?eval_bin, ?eval_root, ?eval_abs, ?eval_step, ?eval_pred, ?eval_test, ?eval_abbrev, ?eval_var, ?eval_call, ?eval_seq.
    all: try apply ext_refl.
    all: try (apply ext_first; [apply IHe|apply ext_refl|intros; apply ext_refl]).
    all: try (apply ext_binary; [apply IHl|]; intros i; unfold right_of; (destruct op; try apply IHr); (destruct r; try apply IHr); apply ext_step; lia).
    all: try (apply ext_absolute, IHe).
    all: try (apply ext_step; lia).
    all: try (apply ext_predicated; [clear - IHps; induction IHps; cbn [map]; constructor; auto|rewrite <- !surjective_pairing; apply IHe]).
    all: try (apply ext_call; [exact Hd|clear - IHl; induction IHl; cbn [map]; constructor; auto]).
    all: apply ext_seq_all; clear - IHl; induction IHl; cbn [map]; constructor; auto.
  Qed.
End Fuel.
