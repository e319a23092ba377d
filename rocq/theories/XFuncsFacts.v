From Verif Require Import PyStr XTree Path XPath XPathSpec XPathFuel XFuncs XFuncsSpec.
From Verif Require ParserInv.

(** ** Two results that continue each other are the same *)
Lemma both_same r r' : continues r r' -> continues r' r -> r = r'.
Proof.
  intros [[_ E]|[H (m & E)]]; [intros _; symmetry; exact E|]. intros [[_ E']|[H' (m' & E')]]; [exact E'|].
  destruct r as [l f], r' as [l' f']. cbn in *. subst f f' l'. f_equal.
  assert (m = []). { apply (f_equal (@length item)) in E'. rewrite !app_length in E'. destruct m; [reflexivity|cbn in E'; lia]. }
  subst. symmetry. apply app_nil_r.
Qed.
Lemma same_continues r r' : r = r' -> continues r r'.
Proof. intros ->. apply ext_refl. Qed.

Lemma for_each_name f : dict_get builtins f = Some FnForEach -> f = lit "for-each".
Proof.
  unfold builtins. cbn [dict_get].
  repeat match goal with |- context [if str_eqb ?a f then _ else _] => destruct (str_eqb a f) eqn:?; [intros E; try discriminate|] end; try discriminate.
  symmetry. apply ParserInv.str_eqb_eq. assumption.
Qed.
Lemma not_builtin f : existsb (str_eqb f) (map fst builtins) = false -> dict_get builtins f = None.
Proof.
  induction builtins as [|[k v] l IH]; [reflexivity|]. cbn [map fst existsb dict_get]. intros H. apply orb_false_iff in H as [H1 H2].
  destruct (str_eqb k f) eqn:E; [|apply IH; exact H2]. apply ParserInv.str_eqb_eq in E. subst. rewrite ParserInv.str_eqb_refl in H1. discriminate.
Qed.

Section With.
  Variable w : env.
  Definition ext_all := Forall2 (fun p p' : item -> list item * fin => forall i, p i = p' i).
  Lemma ext_all_forth l l' : ext_all l l' -> Forall2 (fun p p' : item -> list item * fin => forall i, continues (p i) (p' i)) l l'.
  Proof. intros H. induction H; constructor; auto. intros. apply same_continues; auto. Qed.
  Lemma ext_all_back l l' : ext_all l l' -> Forall2 (fun p p' : item -> list item * fin => forall i, continues (p i) (p' i)) l' l.
  Proof. intros H. induction H; constructor; auto. intros. apply same_continues; symmetry; auto. Qed.

  Lemma ext_map (ok : str -> Prop) (g g' : expr -> item -> list item * fin) l :
    Forall (fun e => forall c, Forall ok (called e) -> g e c = g' e c) l -> Forall ok (flat_map called l) -> ext_all (map g l) (map g' l).
  Proof.
    intros H. induction H as [|x l Hx HF IH]; intros Hc; cbn [map]; [constructor|]. cbn [flat_map] in Hc. apply Forall_app in Hc as [H1 H2].
    constructor; [intros; apply Hx; exact H1|apply IH; exact H2].
  Qed.
  Lemma ext_combine (raw : list expr) l l' : ext_all l l' ->
    Forall2 (fun a a' => fst a = fst a' /\ forall i, snd a i = snd a' i) (combine raw l) (combine raw l').
  Proof.
    intros H. revert raw. induction H as [|x y l l' Hx HF IH]; intros [|r raw]; cbn [combine]; constructor; cbn [fst snd]; auto.
  Qed.

  (** Congruences *)
  Lemma same_binary op c l l' r r' : (forall i, l i = l' i) -> (forall i, r i = r' i) -> binary w op c l r = binary w op c l' r'.
  Proof. intros H K. apply both_same; apply ext_binary; intros; apply same_continues; auto. Qed.
  Lemma same_absolute d c jn r r' : (forall i, r i = r' i) -> absolute w d c (Some (jn, r)) = absolute w d c (Some (jn, r')).
  Proof. intros H. apply both_same; apply ext_absolute; intros; apply same_continues; auto. Qed.
  Lemma same_predicated c ps ps' r : ext_all ps ps' -> predicated w 1 c (fst r) (snd r) ps = predicated w 1 c (fst r) (snd r) ps'.
  Proof.
    intros H. apply both_same; apply ext_predicated; try (rewrite <- surjective_pairing; apply ext_refl).
    - apply ext_all_forth; exact H.
    - apply ext_all_back; exact H.
  Qed.
  Lemma same_call d d' f raw args args' c : (forall e i, f = lit "for-each" -> (exists s, xparse w s = inl e) ->
      match d, d' with Some g, Some g' => g e i = g' e i | None, None => True | _, _ => False end) ->
    ext_all args args' -> call w d f raw args c = call w d' f raw args' c.
  Proof.
    intros Hd H. transitivity (call w d f raw args' c).
    - apply both_same; apply ext_call; try (destruct d; cbn; auto; intros; apply ext_refl); auto using ext_all_forth, ext_all_back.
    - clear H args. unfold call. destruct (dict_get builtins f) as [fn|] eqn:Eb; [|reflexivity].
      destruct fn; try reflexivity. apply for_each_name in Eb. subst f. destruct args' as [|x [|y [|z l]]]; try reflexivity.
      apply both_same; apply ext_string_arg; try apply ext_refl; intros i; (destruct (xparse w (str_of w i)) as [e|e] eqn:E; [|apply ext_refl]);
        apply ext_bind; try apply ext_refl; intros j; apply same_continues.
      all: specialize (Hd e (copy w c j) eq_refl (ex_intro _ _ E)); destruct d, d'; auto; try contradiction.
  Qed.

  (** ** The equations of [eval_with] *)
  Section Fs.
  Variable fs : dict func.
  Definition dyn_with (n : nat) : option (expr -> item -> list item * fin) := match n with O => None | S k => Some (eval_with w fs k) end.
  Definition right_with (n : nat) (op : binop) (r : expr) : item -> list item * fin :=
    match op, r with OpDeep, EStep _ t => step w n AxDescendantOrSelf t | _, _ => eval_with w fs n r end.
  Lemma with_lit n l c : eval_with w fs n (ELit l) c = yield1 (lit_item l). Proof. destruct n; reflexivity. Qed.
  Lemma with_neg n e c : eval_with w fs n (ENeg e) c = first (eval_with w fs n e c) (raise TypeErr) (fun _ => raise TypeErr). Proof. destruct n; reflexivity. Qed.
  Lemma with_bin n l op r c : eval_with w fs n (EBin l op r) c = binary w op c (eval_with w fs n l) (right_with n op r). Proof. destruct n; reflexivity. Qed.
  Lemma with_root_ n d c : eval_with w fs n (EAbs d None) c = absolute w d c None. Proof. destruct n; reflexivity. Qed.
  Lemma with_abs n d e c : eval_with w fs n (EAbs d (Some e)) c = absolute w d c (Some (just_node e, eval_with w fs n e)). Proof. destruct n; reflexivity. Qed.
  Lemma with_step n ax t c : eval_with w fs n (EStep ax t) c = step w n ax t c. Proof. destruct n; reflexivity. Qed.
  Lemma with_pred n e ps c : eval_with w fs n (EPred e ps) c = predicated w 1 c (fst (eval_with w fs n e c)) (snd (eval_with w fs n e c)) (map (eval_with w fs n) ps). Proof. destruct n; reflexivity. Qed.
  Lemma with_test n t c : eval_with w fs n (ETest t) c = test w t c. Proof. destruct n; reflexivity. Qed.
  Lemma with_abbrev n u c : eval_with w fs n (EAbbrev u) c = abbrev w u c. Proof. destruct n; reflexivity. Qed.
  Lemma with_var n v c : eval_with w fs n (EVar v) c = match dict_get (vars w) v with Some i => yield1 i | None => raise KeyErr end. Proof. destruct n; reflexivity. Qed.
  Lemma with_call n f l c : eval_with w fs n (ECall f l) c = call_with w fs (dyn_with n) f l (map (eval_with w fs n) l) c. Proof. destruct n; reflexivity. Qed.
  Lemma with_seq n l c : eval_with w fs n (ESeq l) c = seq_all (map (fun x => eval_with w fs n x c) l). Proof. destruct n; reflexivity. Qed.

  Lemma call_means d f raw args c : call_with w fs d f raw args c =
    match meaning fs f with
    | None => raise RuntimeErr
    | Some (Builtin b) => call w d b raw args c
    | Some (Own g) => g (combine raw args) c
    end.
  Proof.
    unfold call_with, meaning. destruct fs as [|p l]; [|reflexivity].
    destruct (existsb (str_eqb f) (map fst builtins)) eqn:E; [reflexivity|].
    unfold call. rewrite not_builtin by exact E. reflexivity.
  Qed.
  End Fs.

  Lemma default_eval n : eval_with w [] n = eval w n.
  Proof. reflexivity. Qed.

  (** ** Evaluation depends on the meaning of the names *)
  Theorem eval_agree fs fs' (ok : str -> Prop) :
    (forall f, ok f -> meaning fs f = meaning fs' f /\ fair (meaning fs f)) ->
    (evaluates_texts fs ok -> forall s e, xparse w s = inl e -> Forall ok (called e)) ->
    forall n e c, Forall ok (called e) -> eval_with w fs n e c = eval_with w fs' n e c.
  Proof.
    intros Hm Ht. induction n as [|n IHn].
    1: assert (Hd : forall e i, Forall ok (called e) -> match dyn_with fs 0, dyn_with fs' 0 with Some g, Some g' => g e i = g' e i | None, None => True | _, _ => False end) by (intros; exact I).
    2: assert (Hd : forall e i, Forall ok (called e) -> match dyn_with fs (S n), dyn_with fs' (S n) with Some g, Some g' => g e i = g' e i | None, None => True | _, _ => False end)
         by (intros; cbn [dyn_with]; apply IHn; assumption).
    all: intros e; induction e as [l|e IHe|l op r IHl IHr|d|d e IHe|ax t|e ps IHe IHps|t|u|v|f l IHl|l IHl] using expr_ind'; intros c Hc.
    all: rewrite ?with_lit, ?with_neg, ?with_bin, ?with_root_, ?with_abs, ?with_step, ?with_pred, ?with_test, ?with_abbrev, ?with_var, ?with_call, ?with_seq.
    all: try reflexivity.
    all: cbn [called] in Hc.
    all: try (rewrite IHe by exact Hc; reflexivity).
    all: try (apply Forall_app in Hc as [Hc1 Hc2]).
    all: try (apply same_binary; [intros; apply IHl; exact Hc1|]; intros i; unfold right_with; (destruct op; try (apply IHr; exact Hc2)); (destruct r; try (apply IHr; exact Hc2)); reflexivity).
    all: try (apply same_absolute; intros; apply IHe; exact Hc).
    all: try (rewrite (IHe c Hc1); apply same_predicated; eapply ext_map; [exact IHps|exact Hc2]).
    all: try (inversion Hc as [|x y Hf Hl]; subst; pose proof (ext_map _ _ _ _ IHl Hl) as He; rewrite !call_means;
              destruct (Hm f Hf) as [Em Hfair]; rewrite <- Em; destruct (meaning fs f) as [[b|g]|] eqn:Emf; [|apply (Hfair g eq_refl), ext_combine; exact He|reflexivity];
              apply same_call; [|exact He]; intros e0 i Eb (s & Es); refine (Hd e0 i _); apply (Ht ltac:(exists f; subst b; auto) s e0 Es)).
    all: f_equal; clear Hd; induction IHl as [|x l Hx HF IH]; cbn [map]; [reflexivity|];
         cbn [flat_map] in Hc; apply Forall_app in Hc as [Hc1 Hc2]; f_equal; [apply Hx; exact Hc1|apply IH; exact Hc2].
  Qed.
End With.

(** ** Consequences *)
Theorem eval_no_calls w fs n e c : called e = [] -> eval_with w fs n e c = eval w n e c.
Proof.
  intros H. rewrite <- default_eval. apply eval_agree with (ok := fun _ => False); [contradiction|intros (f & [] & _)|rewrite H; constructor].
Qed.

Lemma in_builtins f : In f (map fst builtins) -> existsb (str_eqb f) (map fst builtins) = true.
Proof. intros H. apply existsb_exists. exists f. split; [exact H|apply ParserInv.str_eqb_refl]. Qed.

Theorem eval_extended w fs n e c : (forall f, In f (map fst builtins) -> dict_get fs f = Some (Builtin f)) ->
  Forall (fun f => In f (map fst builtins)) (called e) ->
  (In (lit "for-each") (called e) -> forall s e', xparse w s = inl e' -> Forall (fun f => In f (map fst builtins)) (called e')) ->
  eval_with w fs n e c = eval w n e c.
Proof.
  intros Hb Hc Ht. rewrite <- default_eval.
  assert (Hm : forall f, In f (map fst builtins) -> meaning fs f = Some (Builtin f) /\ meaning [] f = Some (Builtin f)).
  { intros f Hf. unfold meaning. rewrite (in_builtins f Hf). split; [|reflexivity]. destruct fs; [reflexivity|]. apply Hb; exact Hf. }
  destruct (in_dec (list_eq_dec N.eq_dec) (lit "for-each") (called e)) as [Hin|Hout].
  - apply eval_agree with (ok := fun f => In f (map fst builtins)); [|intros _; exact (Ht Hin)|exact Hc].
    intros f Hf. destruct (Hm f Hf) as [-> ->]. split; [reflexivity|]. intros g E. discriminate.
  - apply eval_agree with (ok := fun f => In f (map fst builtins) /\ In f (called e)).
    + intros f [Hf _]. destruct (Hm f Hf) as [-> ->]. split; [reflexivity|]. intros g E. discriminate.
    + intros (f & [Hf Hf'] & Ef). rewrite (proj1 (Hm f Hf)) in Ef. injection Ef as ->. contradiction.
    + rewrite Forall_forall in *. auto.
Qed.

Theorem eval_unknown w fs n f l c : fs <> [] -> dict_get fs f = None -> eval_with w fs n (ECall f l) c = ([], Exn RuntimeErr).
Proof. intros H E. rewrite with_call. unfold call_with. destruct fs; [contradiction|]. rewrite E. reflexivity. Qed.

Theorem eval_own w fs n f g l c : dict_get fs f = Some (Own g) -> eval_with w fs n (ECall f l) c = g (map (fun x => (x, eval_with w fs n x)) l) c.
Proof.
  intros E. rewrite with_call. unfold call_with. destruct fs; [discriminate|]. rewrite E. f_equal.
  induction l as [|x l IH]; [reflexivity|]. cbn [map combine]. rewrite IH. reflexivity.
Qed.
