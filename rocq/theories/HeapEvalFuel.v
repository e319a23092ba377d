(** More fuel continues an evaluation on node objects. *)
From Verif Require Import PyStr XTree Heap RootCache DocOrder XPath XPathFuel HeapNav HeapEval.

(** [r'] continues [r]: it is the same, unless [r] was cut short. *)
Definition vcont (r r' : list hval * fin) : Prop :=
  (snd r <> Cut /\ r' = r) \/ (snd r = Cut /\ exists more, fst r' = fst r ++ more).

Lemma vx_refl r : vcont r r.
Proof. destruct r as [l f]. destruct f; [left; split; [discriminate|reflexivity]..|right]. split; [reflexivity|]. exists []. cbn. rewrite app_nil_r. reflexivity. Qed.
Lemma vx_cut l r : fst r = l \/ l = [] -> vcont (l, Cut) r.
Proof. intros H. right. split; [reflexivity|]. destruct H as [<- | ->]; [exists []; rewrite app_nil_r; reflexivity|]. exists (fst r). reflexivity. Qed.
Lemma vx_seq2 r1 r1' r2 r2' : vcont r1 r1' -> vcont r2 r2' -> vcont (vthen r1 r2) (vthen r1' r2').
Proof.
  intros [[H ->]|[H (m & E)]] H2.
  - destruct r1 as [l1 f1]. destruct f1 as [|e|]; cbn [vthen]; [|apply vx_refl|exfalso; apply H; reflexivity].
    destruct r2 as [l2 f2], r2' as [l2' f2']. destruct H2 as [[K1 K2]|[K1 (m & K2)]]; cbn in *.
    + inversion K2; subst. left. split; auto.
    + right. split; [auto|]. exists m. cbn. rewrite K2, app_assoc. reflexivity.
  - destruct r1 as [l1 f1]. cbn in H. subst f1. cbn [vthen]. right. split; [reflexivity|]. cbn in E |- *. destruct r1' as [l1' f1']. cbn in E. subst l1'.
    destruct f1' as [|e|]; cbn [vthen].
    + destruct r2' as [l2' f2']. exists (m ++ l2'). cbn. rewrite app_assoc. reflexivity.
    + exists m. reflexivity.
    + exists m. reflexivity.
Qed.
Lemma vfor_seq2 i l f k : vfor (i :: l) f k = vthen (k i) (vfor l f k).
Proof. cbn [vfor vthen]. destruct (k i) as [l1 [| |]]; try reflexivity. destruct (vfor l f k). reflexivity. Qed.
Lemma vfor_app l m f k : vfor (l ++ m) f k = vthen (vfor l Done k) (vfor m f k).
Proof.
  induction l as [|i l IH]; cbn [app].
  - cbn. destruct (vfor m f k). reflexivity.
  - rewrite !vfor_seq2, IH. destruct (k i) as [l1 [| |]]; cbn [vthen]; [|reflexivity|reflexivity].
    destruct (vfor l Done k) as [l2 [| |]]; cbn [vthen]; [|reflexivity|reflexivity]. destruct (vfor m f k). cbn [fst snd]. rewrite app_assoc. reflexivity.
Qed.
Lemma vfor_cut l k : exists r, vfor l Cut k = r /\ snd r <> Done.
Proof.
  induction l as [|i l IH]; [exists ([], Cut); split; [reflexivity|discriminate]|]. rewrite vfor_seq2. eexists. split; [reflexivity|].
  destruct IH as (r & E & H). rewrite E. destruct (k i) as [l1 [| |]]; cbn; try discriminate. destruct r; cbn in *. auto.
Qed.
Lemma vfor_end l f k : vfor l f k = vthen (vfor l Done k) ([], f).
Proof. rewrite <- (app_nil_r l) at 1. apply vfor_app. Qed.
Lemma vx_bindl l f k k' : (forall i, vcont (k i) (k' i)) -> vcont (vfor l f k) (vfor l f k').
Proof.
  intros H. induction l as [|i l IH]; [apply vx_refl|]. rewrite !vfor_seq2. apply vx_seq2; auto.
Qed.
Lemma vx_bind r r' k k' : vcont r r' -> (forall i, vcont (k i) (k' i)) -> vcont (vfor (fst r) (snd r) k) (vfor (fst r') (snd r') k').
Proof.
  intros [[H ->]|[H (m & E)]] Hk; cbn [fst snd].
  - apply vx_bindl, Hk.
  - destruct r as [l f], r' as [l' f']. cbn in *. subst f l'. rewrite vfor_app, vfor_end. apply vx_seq2; [apply vx_bindl, Hk|].
    apply vx_cut. right; reflexivity.
Qed.
Lemma vx_first r r' n n' k k' : vcont r r' -> vcont n n' -> (forall i, vcont (k i) (k' i)) -> vcont (vnext r n k) (vnext r' n' k').
Proof.
  intros [[H ->]|[H (m & E)]] Hn Hk.
  - destruct r as [[|i l] f]; cbn; [destruct f; [auto|apply vx_refl|apply vx_refl]|auto].
  - destruct r as [l f], r' as [l' f']. cbn in *. subst f l'. destruct l as [|i l]; cbn; [apply vx_cut; right; reflexivity|auto].
Qed.
Lemma vx_collected r r' k k' : vcont r r' -> (forall l, vcont (k l) (k' l)) -> vcont (vlist r k) (vlist r' k').
Proof.
  intros [[H ->]|[H (m & E)]] Hk.
  - destruct r as [l f]; cbn. destruct f; [auto|apply vx_refl|apply vx_refl].
  - destruct r as [l f]. cbn in *. subst f. apply vx_cut. right; reflexivity.
Qed.
Lemma vx_chain l l' : Forall2 vcont l l' -> vcont (vchain l) (vchain l').
Proof. induction 1; cbn [vchain]; [apply vx_refl|]. apply vx_seq2; auto. Qed.

Section Fuel.
  Variable h : heap.
  Variable w : env.
  Variable hv : dict hval.
  Variable c : hval -> rcache.
  Variable v : hval -> numbers.
  Notation ext_all := (Forall2 (fun p p' : hval -> list hval * fin => forall i, vcont (p i) (p' i))).

  Lemma vx_scan x l f l' f' : vcont (l, f) (l', f') -> vscan h x l f = inr Cut \/ vscan h x l' f' = vscan h x l f.
  Proof.
    intros [[H E]|[H (m & E)]]; cbn in *.
    - inversion E; subst. right; reflexivity.
    - subst f l'. induction l as [|j l IH]; cbn; [left; reflexivity|]. destruct (vnode j); [right; reflexivity|].
      destruct (veq h x j); [right; reflexivity|auto].
  Qed.
  Lemma vx_equal l l' r r' : vcont l l' -> vcont r r' -> vcont (vequal h l r) (vequal h l' r').
  Proof.
    intros Hl Hr. destruct l as [[|i l] f].
    - destruct Hl as [[H ->]|[H _]]; cbn in *; [destruct f; [apply vx_refl..|congruence]|]. subst. apply vx_cut. right; reflexivity.
    - destruct l' as [l' f']. assert (exists m, l' = i :: m) as (m & ->).
      { destruct Hl as [[_ E]|[_ (m & E)]]; cbn in E; [inversion E; eauto|subst; cbn; eauto]. }
      cbn [vequal]. destruct r as [rl rf], r' as [rl' rf']. cbn [fst snd].
      destruct (vx_scan (vplain h i) rl rf rl' rf' Hr) as [-> | ->]; [apply vx_cut; right; reflexivity|].
      destruct (vscan h (vplain h i) rl rf) as [[]|]; try apply vx_refl.
      destruct Hl as [[H E]|[H _]]; cbn in *; [inversion E; subst; apply vx_refl|]. subst. apply vx_cut. right; reflexivity.
  Qed.
  Lemma vx_union x l l' r r' : vcont l l' -> vcont r r' -> vcont (vunion v x l r) (vunion v x l' r').
  Proof. intros Hl Hr. unfold vunion. destruct (vnode x); [|apply vx_refl]. apply vx_collected; [auto|]. intros. apply vx_collected; [auto|]. intros. apply vx_refl. Qed.
  Lemma vx_binary op x l l' r r' : (forall i, vcont (l i) (l' i)) -> (forall i, vcont (r i) (r' i)) ->
    vcont (vbinary h v op x l r) (vbinary h v op x l' r').
  Proof.
    intros Hl Hr. assert (Hf : forall f x, vcont (vnext (l x) (vraise RuntimeErr) (fun i => vnext (r x) (vraise RuntimeErr) (f i)))
      (vnext (l' x) (vraise RuntimeErr) (fun i => vnext (r' x) (vraise RuntimeErr) (f i)))).
    { intros f y. apply vx_first; [auto|apply vx_refl|]. intros i. apply vx_first; [auto|apply vx_refl|]. intros; apply vx_refl. }
    destruct op; cbn [vbinary]; try apply Hf; try apply vx_refl.
    - apply vx_bind; auto.
    - apply vx_bind; auto.
    - apply vx_union; auto.
    - apply vx_equal; auto.
    - apply vx_first; [auto|apply vx_refl|]. intros i. destruct (vtrue h i); [apply vx_refl|]. apply vx_first; [auto|apply vx_refl|]. intros; apply vx_refl.
    - apply vx_first; [auto|apply vx_refl|]. intros i. destruct (vtrue h i); [|apply vx_refl]. apply vx_first; [auto|apply vx_refl|]. intros; apply vx_refl.
  Qed.
  Lemma vx_verdict pos x ps ps' : ext_all ps ps' ->
    vverdict h pos x ps = VStop Cut \/ vverdict h pos x ps' = vverdict h pos x ps.
  Proof.
    induction 1 as [|p p' ps ps' Hp _ IH]; cbn [vverdict]; [right; reflexivity|]. specialize (Hp x). destruct (p x) as [l f] eqn:Ep, (p' x) as [l' f'] eqn:Ep'.
    destruct Hp as [[H E]|[H (m & E)]]; cbn in H, E.
    - inversion E; subst. destruct (match l with [] => match f with Done => inl (VBool false) | _ => inr f end | i :: _ => inl i end) as [i|f0]; [|right; reflexivity].
      destruct (vindex i) as [[z|e]|]; [destruct (z =? Z.of_nat pos)%Z; [auto|right; reflexivity]|right; reflexivity|].
      destruct (vto_boolean h i); [auto|right; reflexivity].
    - subst f l'. destruct l as [|i l]; [left; reflexivity|]. cbn [app].
      destruct (vindex i) as [[z|e]|]; [destruct (z =? Z.of_nat pos)%Z; [auto|right; reflexivity]|right; reflexivity|].
      destruct (vto_boolean h i); [auto|right; reflexivity].
  Qed.
  Lemma vpredicated_cons pos x i l f ps : vpredicated h pos x (i :: l) f ps =
    match vverdict h pos (vcopy h x i) ps with
    | VKeep => vthen (vyield i) (vpredicated h (S pos) x l f ps)
    | VDrop => vpredicated h (S pos) x l f ps
    | VStop f' => ([], f')
    end.
  Proof. cbn [vpredicated]. destruct (vverdict h pos (vcopy h x i) ps); try reflexivity. cbn [vthen vyield app]. destruct (vpredicated h (S pos) x l f ps). reflexivity. Qed.
  Lemma vx_predicated x ps ps' : ext_all ps ps' ->
    forall l f l' f' pos, vcont (l, f) (l', f') -> vcont (vpredicated h pos x l f ps) (vpredicated h pos x l' f' ps').
  Proof.
    intros Hp l. induction l as [|i l IH]; intros f l' f' pos H.
    - destruct H as [[H E]|[H (m & E)]]; cbn in *; [inversion E; subst; apply vx_refl|]. subst. apply vx_cut. right; reflexivity.
    - assert (exists m, l' = i :: m /\ vcont (l, f) (m, f')) as (m & -> & Hm).
      { destruct H as [[H E]|[H (m & E)]]; cbn in H, E.
        - inversion E; subst. exists l. split; [auto|apply vx_refl].
        - subst f l'. exists (l ++ m). split; [reflexivity|]. right. split; [reflexivity|]. exists m. reflexivity. }
      rewrite !vpredicated_cons. destruct (vx_verdict pos (vcopy h x i) ps ps' Hp) as [-> | ->]; [apply vx_cut; right; reflexivity|].
      destruct (vverdict h pos (vcopy h x i) ps); [|auto|apply vx_refl]. apply vx_seq2; [apply vx_refl|auto].
  Qed.
  Lemma vx_absolute d x jn r r' : (forall i, vcont (r i) (r' i)) -> vcont (vabsolute h c d x (Some (jn, r))) (vabsolute h c d x (Some (jn, r'))).
  Proof.
    intros H. unfold vabsolute, vroot. destruct x as [y o| | | |]; try apply vx_refl. destruct (hroot h (c (Obj y o)) y) as [[|[q|i|i k s] l] f]; try apply vx_refl.
    apply vx_seq2; [apply vx_refl|]. apply vx_seq2; [auto|]. destruct d; [|apply vx_refl]. destruct (hwork h (nxt h) [docelem q]) as [m b]. apply vx_bindl. auto.
  Qed.
  Lemma vx_string_arg r r' k k' : vcont r r' -> (forall i, vcont (k i) (k' i)) -> vcont (vstring_arg h w r k) (vstring_arg h w r' k').
  Proof. intros H Hk. unfold vstring_arg. apply vx_first; auto. Qed.
  Lemma vx_step n m ax t x : n <= m -> vcont (vstep h c n ax t x) (vstep h c m ax t x).
  Proof.
    intros Hn. destruct x as [y o| | | |]; try apply vx_refl. destruct ax; try apply vx_refl. unfold vstep. cbn [hstep].
    destruct (hparent h y) as [p|]; [|apply vx_refl]. replace m with (n + (m - n)) by lia. rewrite repeat_app. unfold htest_all. rewrite flat_map_app.
    right. split; [reflexivity|]. exists (map (fun z => Obj z o) (flat_map (fun i => htest h t (hcopy h y i)) (repeat p (m - n)))). cbn [fst]. rewrite !map_app, !app_assoc. reflexivity.
  Qed.
  Definition vcont_dyn (d d' : option (expr -> hval -> list hval * fin)) : Prop :=
    match d, d' with
    | None, _ => True
    | Some f, Some f' => forall e x, vcont (f e x) (f' e x)
    | _, _ => False
    end.
  Ltac vx_tac := repeat first
    [ apply vx_refl | assumption
    | apply vx_first; [auto| |intros ?] | apply vx_collected; [auto|intros ?] | apply vx_string_arg; [auto|intros ?]
    | progress intros ].
  Lemma vx_call d d' f raw args args' x : vcont_dyn d d' -> ext_all args args' ->
    vcont (vcall h w d f raw args x) (vcall h w d' f raw args' x).
  Proof.
    intros Hd H. unfold vcall. destruct (dict_get builtins f) as [fn|]; [|apply vx_refl].
    assert (Hall : vcont (vchain (map (fun a => a x) args)) (vchain (map (fun a => a x) args'))).
    { apply vx_chain. clear - H. induction H; cbn; constructor; auto. }
    assert (Hlen : length args' = length args) by (clear - H; induction H; cbn; auto).
    destruct H as [|a a' l l' Hx H].
    { destruct fn; try apply vx_refl. }
    destruct H as [|y y' l l' Hy H].
    { destruct fn; try apply vx_refl; try solve [vx_tac]. }
    destruct H as [|z z' l l' Hz H].
    { destruct fn; try apply vx_refl; try solve [vx_tac]. apply vx_string_arg; [auto|]. intros i. destruct (xparse w (vthe h i)) as [e|e]; [|apply vx_refl].
      apply vx_bind; [auto|]. intros j. destruct d as [f1|], d' as [f2|]; cbn in Hd; [auto|destruct Hd|apply vx_cut; right; reflexivity|apply vx_refl]. }
    destruct H as [|z0 z0' l l' Hz0 H].
    { destruct fn; try apply vx_refl; try solve [vx_tac]. }
    destruct fn; try apply vx_refl; try solve [vx_tac]. rewrite Hlen. apply vx_refl.
  Qed.

  (** The equations of [heval]. *)
  Notation hev := (heval h w hv c v).
  Definition vdyn_of (n : nat) : option (expr -> hval -> list hval * fin) := match n with O => None | S k => Some (hev k) end.
  Definition vright_of (n : nat) (op : binop) (r : expr) : hval -> list hval * fin :=
    match op, r with OpDeep, EStep _ t => vstep h c n AxDescendantOrSelf t | _, _ => hev n r end.
  Lemma hev_lit n l x : hev n (ELit l) x = vyield (match l with LStr s => VStr s | LInt z => VInt z | LFlt f => VFlt f end). Proof. destruct n; reflexivity. Qed.
  Lemma hev_neg n e x : hev n (ENeg e) x = vnext (hev n e x) (vraise TypeErr) (fun _ => vraise TypeErr). Proof. destruct n; reflexivity. Qed.
  Lemma hev_bin n l op r x : hev n (EBin l op r) x = vbinary h v op x (hev n l) (vright_of n op r). Proof. destruct n; reflexivity. Qed.
  Lemma hev_root n d x : hev n (EAbs d None) x = vabsolute h c d x None. Proof. destruct n; reflexivity. Qed.
  Lemma hev_abs n d e x : hev n (EAbs d (Some e)) x = vabsolute h c d x (Some (just_node e, hev n e)). Proof. destruct n; reflexivity. Qed.
  Lemma hev_step n ax t x : hev n (EStep ax t) x = vstep h c n ax t x. Proof. destruct n; reflexivity. Qed.
  Lemma hev_pred n e ps x : hev n (EPred e ps) x = vpredicated h 1 x (fst (hev n e x)) (snd (hev n e x)) (map (hev n) ps). Proof. destruct n; reflexivity. Qed.
  Lemma hev_test n t x : hev n (ETest t) x = vtest h t x. Proof. destruct n; reflexivity. Qed.
  Lemma hev_abbrev n u x : hev n (EAbbrev u) x = vabbrev h c u x. Proof. destruct n; reflexivity. Qed.
  Lemma hev_var n k x : hev n (EVar k) x = match dict_get hv k with Some y => vyield y | None => vraise KeyErr end. Proof. destruct n; reflexivity. Qed.
  Lemma hev_call n f l x : hev n (ECall f l) x = vcall h w (vdyn_of n) f l (map (hev n) l) x. Proof. destruct n; reflexivity. Qed.
  Lemma hev_seq n l x : hev n (ESeq l) x = vchain (map (fun e => hev n e x) l). Proof. destruct n; reflexivity. Qed.

  Lemma heval_continues n : forall m, n <= m -> forall e x, vcont (hev n e x) (hev m e x).
  Proof.
    induction n as [|n IHn]; intros m Hm.
    1: assert (Hd : vcont_dyn (vdyn_of 0) (vdyn_of m)) by exact I.
    2: assert (Hd : vcont_dyn (vdyn_of (S n)) (vdyn_of m)) by (destruct m as [|m]; [lia|]; intros e x; apply IHn; lia).
    all: intros e; induction e as [l|e IHe|l op r IHl IHr|d|d e IHe|ax t|e ps IHe IHps|t|u|k|f l IHl|l IHl] using expr_ind'; intros x.
    all: rewrite ?hev_lit, ?hev_neg, ?hev_bin, ?hev_root, ?hev_abs, ?hev_step, ?hev_pred, ?hev_test, ?hev_abbrev, ?hev_var, ?hev_call, ?hev_seq.
    all: try apply vx_refl.
    all: try (apply vx_first; [apply IHe|apply vx_refl|intros; apply vx_refl]).
    all: try (apply vx_binary; [apply IHl|]; intros i; unfold vright_of; (destruct op; try apply IHr); (destruct r; try apply IHr); apply vx_step; lia).
    all: try (apply vx_absolute, IHe).
    all: try (apply vx_step; lia).
    all: try (apply vx_predicated; [clear - IHps; induction IHps; cbn [map]; constructor; auto|rewrite <- !surjective_pairing; apply IHe]).
    all: try (apply vx_call; [exact Hd|clear - IHl; induction IHl; cbn [map]; constructor; auto]).
    all: apply vx_chain; clear - IHl; induction IHl; cbn [map]; constructor; auto.
  Qed.
End Fuel.
