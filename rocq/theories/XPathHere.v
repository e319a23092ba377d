(** The identity of attribute nodes is looked at by [!=] only: contexts that differ in it
    have the same results, up to the identity of attribute nodes. *)
From Verif Require Import PyStr XTree ParserInv Tree TreeFacts Heap Path Nodes Pattern PatternSpec PatternFacts TreeUtil TreeUtilSpec TreeUtilFacts XPath XPathSpec XPathFacts XPathFuel XPathMore.

Local Notation res := (list item * fin)%type (only parsing).
Definition alike (i j : item) : Prop := here i = here j.
Definition alike_res (r r' : res) : Prop := Forall2 alike (fst r) (fst r') /\ snd r = snd r'.

Lemma alike_refl i : alike i i. Proof. reflexivity. Qed.
Lemma alike_here c : alike c (here c). Proof. unfold alike. destruct c as [| |a k v []| | | |]; reflexivity. Qed.
Lemma alike_cases i j : alike i j -> i = j \/ exists a k v o o', i = IAttr a k v o /\ j = IAttr a k v o'.
Proof.
  unfold alike. intros H. destruct i as [|a|a k v o|s|z|f|b]; destruct j as [|a'|a' k' v' o'|s'|z'|f'|b']; cbn in H; try destruct o; try destruct o'; cbn in H; try discriminate H;
    try (left; exact H); injection H; intros; subst; try (left; reflexivity); right; repeat eexists.
Qed.
Lemma alike_list_refl l : Forall2 alike l l. Proof. induction l; constructor; [apply alike_refl|auto]. Qed.
Lemma same_res r : alike_res r r. Proof. split; [apply alike_list_refl|reflexivity]. Qed.
Lemma al_yield i j : alike i j -> alike_res (yield1 i) (yield1 j).
Proof. intros H. split; [constructor; [exact H|constructor]|reflexivity]. Qed.
Lemma al_seq2 r r' s s' : alike_res r r' -> alike_res s s' -> alike_res (seq2 r s) (seq2 r' s').
Proof.
  intros [H1 H2] [K1 K2]. destruct r as [l f], r' as [l' f'], s as [m g], s' as [m' g']. cbn in *. subst f' g'. destruct f; cbn; split; cbn; auto. apply Forall2_app; auto.
Qed.
Lemma al_bindl l l' f k k' : Forall2 alike l l' -> (forall i j, alike i j -> alike_res (k i) (k' j)) -> alike_res (bindl l f k) (bindl l' f k').
Proof.
  intros H K. induction H as [|i j l l' Hi _ IH]; [split; [constructor|reflexivity]|]. rewrite !bindl_seq2. apply al_seq2; auto.
Qed.
Lemma al_bind r r' k k' : alike_res r r' -> (forall i j, alike i j -> alike_res (k i) (k' j)) -> alike_res (bind r k) (bind r' k').
Proof. intros [H E] K. unfold bind. rewrite E. apply al_bindl; auto. Qed.
Lemma al_first r r' n n' k k' : alike_res r r' -> alike_res n n' -> (forall i j, alike i j -> alike_res (k i) (k' j)) -> alike_res (first r n k) (first r' n' k').
Proof.
  intros [H E] Hn K. destruct r as [l f], r' as [l' f']. cbn in *. subst f'. destruct H as [|i j l l' Hi _]; cbn; [|auto]. destruct f; [exact Hn|apply same_res|apply same_res].
Qed.
Lemma al_collected r r' k k' : alike_res r r' -> (forall l l', Forall2 alike l l' -> alike_res (k l) (k' l')) -> alike_res (collected r k) (collected r' k').
Proof. intros [H E] K. destruct r as [l f], r' as [l' f']. cbn in *. subst f'. destruct f; cbn; [auto|apply same_res|apply same_res]. Qed.
Lemma al_seq_all l l' : Forall2 alike_res l l' -> alike_res (seq_all l) (seq_all l').
Proof. induction 1; cbn [seq_all]; [apply same_res|]. apply al_seq2; auto. Qed.

Section Here.
  Variable w : env.

  Lemma al_copy c c' i j : alike c c' -> alike i j -> alike (copy w c i) (copy w c' j).
  Proof.
    intros Hc H. unfold copy. destruct (alike_cases i j H) as [-> |(a & k & v & o & o' & -> & ->)].
    - destruct (truthy w j); [apply alike_refl|exact Hc].
    - exact H.
  Qed.
  Lemma al_test t i j : alike i j -> alike_res (test w t i) (test w t j).
  Proof.
    intros H. destruct (alike_cases i j H) as [-> |(a & k & v & o & o' & -> & ->)]; [apply same_res|].
    destruct t; cbn; try apply same_res; apply al_yield, H.
  Qed.
  Lemma al_test_all t c c' l : alike c c' -> alike_res (test_all w t c l) (test_all w t c' l).
  Proof. intros H. apply al_bindl; [apply alike_list_refl|]. intros i j Hi. apply al_test, al_copy; auto. Qed.
  Lemma al_step n ax t c c' : alike c c' -> alike_res (step w n ax t c) (step w n ax t c').
  Proof.
    intros H. destruct (alike_cases c c' H) as [-> |(a & k & v & o & o' & -> & ->)]; [apply same_res|].
    destruct ax; cbn [step kids parent with_root root_of]; try apply same_res.
    - apply al_test, H.
    - apply al_seq2; [apply al_test_all, H|apply same_res].
    - apply al_seq2; [apply al_test, H|]. pose proof (al_test_all t _ _ (repeat a n) H) as [K _]. destruct (test_all w t _ _), (test_all w t _ _). split; [exact K|reflexivity].
    - apply al_seq2; [apply al_test, H|apply same_res].
    - unfold sibling_index. change (same_node w (IAttr a k v o)) with (same_node w (IAttr a k v o')). destruct (find_index _ _); [apply al_test_all, H|apply same_res].
    - unfold sibling_index. change (same_node w (IAttr a k v o)) with (same_node w (IAttr a k v o')). destruct (find_index _ _); [apply al_test_all, H|apply same_res].
    - apply al_test_all, H.
    - unfold sibling_index. change (same_node w (IAttr a k v o)) with (same_node w (IAttr a k v o')). destruct (find_index _ _); [apply al_test_all, H|apply same_res].
  Qed.
  Lemma al_abbrev u c c' : alike c c' -> alike_res (abbrev w u c) (abbrev w u c').
  Proof.
    intros H. destruct (alike_cases c c' H) as [-> |(a & k & v & o & o' & -> & ->)]; [apply same_res|]. destruct u; [apply same_res|apply al_yield, H].
  Qed.
  (** What is computed of one item does not depend on the identity. *)
  Lemma al_fun {A} (f : item -> A) i j : (forall a k v o o', f (IAttr a k v o) = f (IAttr a k v o')) -> alike i j -> f i = f j.
  Proof. intros F H. destruct (alike_cases i j H) as [-> |(a & k & v & o & o' & -> & ->)]; auto. Qed.
  Lemma al_list {A} (f : item -> list A) l l' : (forall a k v o o', f (IAttr a k v o) = f (IAttr a k v o')) -> Forall2 alike l l' -> flat_map f l = flat_map f l'.
  Proof. intros F H. induction H as [|i j l l' Hi _ IH]; [reflexivity|]. cbn. rewrite (al_fun f i j F Hi), IH. reflexivity. Qed.
  Definition no_attr (i : item) : Prop := match i with IAttr _ _ _ _ => False | _ => True end.
  Lemma plain_no_attr i : no_attr (plain w i).
  Proof. unfold plain. destruct i; cbn; auto. destruct (node_at w a); exact I. Qed.
  Lemma al_scan x l l' f : no_attr x -> Forall2 alike l l' -> eq_scan w x l f = eq_scan w x l' f.
  Proof.
    intros Hx H. induction H as [|i j l l' Hi _ IH]; [reflexivity|]. cbn [eq_scan]. rewrite (al_fun is_node i j (fun _ _ _ _ _ => eq_refl) Hi), IH.
    destruct (is_node j) eqn:E; [reflexivity|]. rewrite (al_fun (py_eq w x) i j); [reflexivity| |exact Hi]. intros. destruct x; try (destruct Hx); reflexivity.
  Qed.
  Lemma al_equality l l' r r' : alike_res l l' -> alike_res r r' -> alike_res (equality w l r) (equality w l' r').
  Proof.
    intros [H E] [K F]. destruct l as [l f], l' as [l' f'], r as [r g], r' as [r' g']. cbn in *. subst f' g'. destruct H as [|i j l l' Hi _]; [apply same_res|]. cbn [equality fst snd].
    rewrite (al_fun (plain w) i j (fun _ _ _ _ _ => eq_refl) Hi), (al_scan (plain w j) r r' g (plain_no_attr j) K). apply same_res.
  Qed.
  Lemma al_keyed c c' l l' : alike c c' -> Forall2 alike l l' -> keyed w c l = keyed w c' l'.
  Proof.
    intros Hc H. induction H as [|i j l l' Hi _ IH]; [reflexivity|]. cbn [keyed]. rewrite IH. clear IH.
    assert (E : docorder w c = docorder w c'). { destruct (alike_cases c c' Hc) as [-> |(a & k & v & o & o' & -> & ->)]; reflexivity. }
    rewrite E. destruct (alike_cases i j Hi) as [-> |(a & k & v & o & o' & -> & ->)]; reflexivity.
  Qed.
  Lemma al_union c c' l l' r r' : alike c c' -> alike_res l l' -> alike_res r r' -> alike_res (union w c l r) (union w c' l' r').
  Proof.
    intros Hc Hl Hr. unfold union. rewrite (al_fun parent c c' (fun _ _ _ _ _ => eq_refl) Hc). destruct (parent c'); [|apply same_res]. apply al_collected; [exact Hl|]. intros l1 l1' H1. apply al_collected; [exact Hr|].
    intros l2 l2' H2. rewrite (al_keyed c c' (l1 ++ l2) (l1' ++ l2') Hc (Forall2_app H1 H2)). apply same_res.
  Qed.
  Definition al_fn (f g : item -> res) : Prop := forall c c', alike c c' -> alike_res (f c) (g c').
  Lemma al_binary op c c' l l' r r' : alike c c' -> al_fn l l' -> al_fn r r' -> (op = OpNe -> (forall i, l i = l' i) /\ forall i, r i = r' i) -> alike_res (binary w op c l r) (binary w op c' l' r').
  Proof.
    intros Hc Hl Hr Hn. assert (P : forall i j i' j', alike i i' -> alike j j' -> py_cmp w i j = py_cmp w i' j').
    { intros i j i' j' Hi Hj. rewrite (al_fun (fun x => py_cmp w x j) i i' (fun _ _ _ _ _ => eq_refl) Hi). apply (al_fun (py_cmp w i') j j'); [|exact Hj]. intros. unfold py_cmp. cbn. reflexivity. }
    destruct op; cbn [binary]; try apply same_res.
    - apply al_bind; [apply Hl, Hc|]. intros i j Hi. apply Hr, al_copy; auto.
    - apply al_bind; [apply Hl, Hc|]. intros i j Hi. apply Hr, al_copy; auto.
    - apply al_union; auto.
    - apply al_equality; auto.
    - destruct (Hn eq_refl) as [E1 E2]. unfold alike in Hc. rewrite Hc, E1.
      destruct (l' (here c')) as [[|i ?] ?]; [apply same_res|]. cbn [first]. rewrite E2. apply same_res.
    - apply al_first; [auto|apply same_res|]. intros i i' Hi. apply al_first; [auto|apply same_res|]. intros j j' Hj. rewrite (P i j i' j' Hi Hj). apply same_res.
    - apply al_first; [auto|apply same_res|]. intros i i' Hi. apply al_first; [auto|apply same_res|]. intros j j' Hj. rewrite (P i j i' j' Hi Hj). apply same_res.
    - apply al_first; [auto|apply same_res|]. intros i i' Hi. apply al_first; [auto|apply same_res|]. intros j j' Hj. rewrite (P i j i' j' Hi Hj). apply same_res.
    - apply al_first; [auto|apply same_res|]. intros i i' Hi. apply al_first; [auto|apply same_res|]. intros j j' Hj. rewrite (P i j i' j' Hi Hj). apply same_res.
    - apply al_first; [auto|apply same_res|]. intros i i' Hi. rewrite (al_fun (truthy w) i i' (fun _ _ _ _ _ => eq_refl) Hi). destruct (truthy w i'); [apply al_yield, Hi|].
      apply al_first; [auto|apply same_res|apply al_yield].
    - apply al_first; [auto|apply same_res|]. intros i i' Hi. rewrite (al_fun (truthy w) i i' (fun _ _ _ _ _ => eq_refl) Hi). destruct (truthy w i'); [|apply al_yield, Hi].
      apply al_first; [auto|apply same_res|apply al_yield].
  Qed.
  Lemma al_verdict pos c c' ps : alike c c' -> Forall (fun p => al_fn p p) ps -> verdict_of w pos c ps = verdict_of w pos c' ps.
  Proof.
    intros Hc H. induction H as [|p ps Hp _ IH]; [reflexivity|]. cbn [verdict_of]. rewrite IH. destruct (Hp c c' Hc) as [K E]. destruct (p c) as [l f], (p c') as [l' f']. cbn in K, E. subst f'.
    destruct K as [|i j l l' Hi _]; [reflexivity|]. cbv zeta. rewrite (al_fun number_of i j (fun _ _ _ _ _ => eq_refl) Hi), (al_fun (to_boolean w) i j (fun _ _ _ _ _ => eq_refl) Hi). reflexivity.
  Qed.
  Lemma al_predicated c c' l l' f ps : alike c c' -> Forall (fun p => al_fn p p) ps -> Forall2 alike l l' -> forall pos, alike_res (predicated w pos c l f ps) (predicated w pos c' l' f ps).
  Proof.
    intros Hc Hp H. induction H as [|i j l l' Hi _ IH]; intros pos; [apply same_res|]. rewrite !predicated_seq2, (al_verdict pos _ _ ps (al_copy c c' i j Hc Hi) Hp).
    destruct (verdict_of w pos (copy w c' j) ps); [|auto|apply same_res]. apply al_seq2; [apply al_yield, Hi|auto].
  Qed.
  Lemma al_absolute d c c' r : alike c c' -> (forall jn ev, r = Some (jn, ev) -> al_fn ev ev) -> alike_res (absolute w d c r) (absolute w d c' r).
  Proof.
    intros Hc Hr. unfold absolute, with_root. rewrite (al_fun (root_of w) c c' (fun _ _ _ _ _ => eq_refl) Hc). destruct (root_of w c') as [rt|]; [|apply same_res].
    destruct r as [[jn ev]|]; [|apply same_res]. specialize (Hr jn ev eq_refl). apply al_seq2; [apply same_res|]. apply al_seq2; [apply Hr, alike_refl|]. destruct d; [|apply same_res].
    apply al_bindl; [apply alike_list_refl|]. intros i j Hi. apply Hr, al_copy; auto.
  Qed.
  Lemma al_to_string i j : alike i j -> alike (to_string w i) (to_string w j).
  Proof. intros H. destruct (alike_cases i j H) as [-> |(a & k & v & o & o' & -> & ->)]; [apply alike_refl|reflexivity]. Qed.
  Lemma al_string_arg r r' k k' : alike_res r r' -> (forall i, alike_res (k i) (k' i)) -> alike_res (string_arg w r k) (string_arg w r' k').
  Proof.
    intros H K. unfold string_arg. apply al_first; [exact H|apply K|]. intros i j Hi. rewrite (al_fun (to_string w) i j (fun _ _ _ _ _ => eq_refl) Hi). apply K.
  Qed.
  Lemma al_call d f raw args c c' : alike c c' -> Forall (fun p => al_fn p p) args -> (forall ev, d = Some ev -> forall e, al_fn (ev e) (ev e)) ->
    alike_res (call w d f raw args c) (call w d f raw args c').
  Proof.
    intros Hc H Hd. unfold call. destruct (dict_get builtins f) as [fn|]; [|apply same_res].
    assert (Hall : alike_res (seq_all (map (fun x => x c) args)) (seq_all (map (fun x => x c') args))).
    { apply al_seq_all. clear - H Hc. induction H; cbn; constructor; auto. }
    assert (Hcat : alike_res (collected (seq_all (map (fun x => x c) args)) (fun l => yield1 (IStr (flat_map (the_str w) l))))
                             (collected (seq_all (map (fun x => x c') args)) (fun l => yield1 (IStr (flat_map (the_str w) l))))).
    { apply al_collected; [exact Hall|]. intros l l' K. rewrite (al_list (the_str w) l l' (fun _ _ _ _ _ => eq_refl) K). apply same_res. }
    destruct H as [|x l Hx H].
    { destruct fn; try apply same_res; try exact Hcat.
      - rewrite (al_fun (item_name w) c c' (fun _ _ _ _ _ => eq_refl) Hc). apply same_res.
      - apply al_yield, al_to_string, Hc. }
    destruct H as [|y l Hy H].
    { destruct fn; try apply same_res; try exact Hcat.
      - apply al_first; [auto|apply same_res|]. intros i j Hi. rewrite (al_fun (item_name w) i j (fun _ _ _ _ _ => eq_refl) Hi). apply same_res.
      - apply al_collected; [auto|]. intros l l' K. assert (length l = length l') as -> by (clear - K; induction K; cbn; auto). apply same_res.
      - apply al_first; [auto|apply same_res|]. intros i j Hi. apply al_yield, al_to_string, Hi.
      - apply al_first; [auto|apply same_res|]. intros i j Hi. rewrite (al_fun (as_str w) i j (fun _ _ _ _ _ => eq_refl) Hi). apply same_res.
      - apply al_first; [auto|apply same_res|]. intros i j Hi. rewrite (al_fun (to_boolean w) i j (fun _ _ _ _ _ => eq_refl) Hi). apply same_res.
      - apply al_first; [auto|apply same_res|]. intros i j Hi. rewrite (al_fun (to_boolean w) i j (fun _ _ _ _ _ => eq_refl) Hi). apply same_res.
      - apply al_first; [auto|apply same_res|]. intros i j Hi. rewrite (al_fun (to_number w) i j (fun _ _ _ _ _ => eq_refl) Hi). apply same_res. }
    destruct H as [|z l Hz H].
    { destruct fn; try apply same_res; try exact Hcat.
      - apply al_string_arg; [auto|]. intros i. apply al_string_arg; [auto|]. intros j. apply same_res.
      - apply al_string_arg; [auto|]. intros i. apply al_string_arg; [auto|]. intros j. apply same_res.
      - apply al_string_arg; [auto|]. intros i. apply al_string_arg; [auto|]. intros j. apply same_res.
      - apply al_string_arg; [auto|]. intros i. apply al_string_arg; [auto|]. intros j. apply same_res.
      - apply al_string_arg; [auto|]. intros i. destruct (xparse w (str_of w i)) as [e|]; [|apply same_res]. apply al_bind; [auto|]. intros u v Hu. destruct d as [ev|]; [|apply same_res].
        apply (Hd ev eq_refl), al_copy; auto.
      - apply al_string_arg; [auto|]. intros i. apply al_string_arg; [auto|]. intros j. apply same_res. }
    destruct H as [|z0 l Hz0 H].
    { destruct fn; try apply same_res; try exact Hcat. apply al_string_arg; [auto|]. intros i. apply same_res. }
    destruct fn; try apply same_res; exact Hcat.
  Qed.
  Lemma eval_alike n : forall e, al_fn (eval w n e) (eval w n e).
  Proof.
    induction n as [|n IHn].
    1: assert (Hd : forall ev, dyn_of w 0 = Some ev -> forall e, al_fn (ev e) (ev e)) by discriminate.
    2: assert (Hd : forall ev, dyn_of w (S n) = Some ev -> forall e, al_fn (ev e) (ev e)) by (intros ev E; cbn in E; inversion E; subst; auto).
    all: intros e; induction e as [l|e IHe|l op r IHl IHr|d|d e IHe|ax t|e ps IHe IHps|t|u|v|f l IHl|l IHl] using expr_ind'; intros c c' Hc.
    all: rewrite ?eval_lit, ?eval_neg, ?eval_bin, ?eval_root, ?eval_abs, ?eval_step, ?eval_pred, ?eval_test, ?eval_abbrev, ?eval_var, ?eval_call, ?eval_seq.
    all: try apply same_res.
    all: try (apply al_first; [auto|apply same_res|intros; apply same_res]).
    all: try (apply al_binary; [exact Hc|exact IHl| |intros _; split; reflexivity]; intros i j Hi; unfold right_of; (destruct op; try (apply IHr; exact Hi)); (destruct r; try (apply IHr; exact Hi)); apply al_step, Hi).
    all: try (apply al_absolute; [exact Hc|]; intros jn ev E; inversion E; subst; auto).
    all: try (apply al_step, Hc).
    all: try (destruct (IHe c c' Hc) as [K E]; rewrite E; apply al_predicated; [exact Hc| |exact K]; clear - IHps; induction IHps; cbn [map]; constructor; auto).
    all: try (apply al_test, Hc).
    all: try (apply al_abbrev, Hc).
    all: try (apply al_call; [exact Hc| |exact Hd]; clear - IHl; induction IHl; cbn [map]; constructor; auto).
    all: apply al_seq_all; clear - IHl Hc; induction IHl; cbn [map]; constructor; auto.
  Qed.
  (** The operands of [!=] are computed at [here c]. *)
  Lemma eval_here_nil n e c f : eval w n e c = ([], f) -> eval w n e (here c) = ([], f).
  Proof.
    intros E. destruct (eval_alike n e c (here c) (alike_here c)) as [H K]. rewrite E in H, K. destruct (eval w n e (here c)) as [l g]. cbn in *. inversion H. subst. reflexivity.
  Qed.
  Lemma eval_here_cons n e c i l f : eval w n e c = (i :: l, f) -> exists i' l', eval w n e (here c) = (i' :: l', f) /\ alike i i'.
  Proof.
    intros E. destruct (eval_alike n e c (here c) (alike_here c)) as [H K]. rewrite E in H, K. destruct (eval w n e (here c)) as [m g]. cbn in *. inversion H; subst. eauto.
  Qed.
  Lemma alike_no_attr i j : no_attr i -> alike i j -> j = i.
  Proof. intros N H. destruct (alike_cases i j H) as [-> |(a & k & v & o & o' & -> & ->)]; [reflexivity|destruct N]. Qed.
End Here.
