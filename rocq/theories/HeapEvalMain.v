From Verif Require Import PyStr Parser XTree Tree Path TreeUtil TreeUtilFacts Heap Builder BuilderFacts HeapSpec HeapFacts BuilderMore RootCache RootSpec RootFacts.
From Verif Require Import DocOrder DocOrderSpec DocOrderFacts DocOrderInv DocOrderUse XPath XPathSpec XPathFacts XPathFuel XPathMore XPathExpr HeapNav HeapNavSpec HeapNavFacts HeapEval HeapEvalSpec HeapEvalFacts.

(** ** Expressions without root nodes *)
Section Rootless.
  Variable w : env.
  Hypothesis El : is_element (doc w).
  Definition free (x : list item * fin) : Prop := forall i, In i (fst x) -> i <> IRoot.

  Lemma free_nil f : free ([], f). Proof. intros i []. Qed.
  Lemma free_one i : i <> IRoot -> free (yield1 i). Proof. intros H j [<-|[]]. exact H. Qed.
  Lemma free_first a n k : free n -> (forall i, In i (fst a) -> free (k i)) -> free (first a n k).
  Proof. destruct a as [[|i l] f]; cbn [first]; intros Hn Hk; [destruct f; auto using free_nil|]. apply Hk. left; auto. Qed.
  Lemma free_list a k : (forall l, free (k l)) -> free (collected a k).
  Proof. destruct a as [l f]. intros H. destruct f; cbn [collected]; auto using free_nil. Qed.
  Lemma free_bind l f k : (forall i, In i l -> free (k i)) -> free (bindl l f k).
  Proof. intros H i Hi. apply bindl_in in Hi as (x & Hx & Hi). exact (H x Hx i Hi). Qed.
  Lemma free_seq a b : free a -> free b -> free (seq2 a b).
  Proof. intros A B i Hi. apply seq2_in in Hi as [Hi|Hi]; auto. Qed.
  Lemma test_narrow t x : narrow t -> free (test w t x).
  Proof.
    destruct t as [|n| |]; try (intros []; fail); intros _; cbn [test]; destruct x as [|a|a k s o|s|z|f|b]; cbn [as_str]; try apply free_nil.
    - destruct (node_at w a) as [[m ? ?|]|]; try apply free_nil. destruct (str_eqb m n); [apply free_one; discriminate|apply free_nil].
    - destruct (text_at w a); [apply free_one; discriminate|apply free_nil].
    - apply free_one; discriminate.
  Qed.
  Lemma test_at t x : x <> IRoot -> free (test w t x).
  Proof. intros H i Hi. apply test_known in Hi. subst. exact H. Qed.
  Lemma tests_narrow t x l : narrow t -> free (test_all w t x l).
  Proof. intros H. apply free_bind. intros i _. apply test_narrow, H. Qed.
  Lemma tests_at t x l : x <> IRoot \/ (forall a, In a l -> truthy w (INode a) = true) -> free (test_all w t x l).
  Proof.
    intros H. apply free_bind. intros i Hi. apply in_map_iff in Hi as (a & <- & Ha). apply test_at. unfold copy. destruct (truthy w (INode a)) eqn:E; [discriminate|].
    destruct H as [H|H]; [exact H|]. rewrite (H a Ha) in E. discriminate E.
  Qed.
  Lemma root_kid : truthy w (INode []) = true.
  Proof. cbn [truthy]. unfold text_at, node_at. cbn [subtree]. destruct El as (n & a & ks & ->). reflexivity. Qed.
  Lemma free_step fuel ax t x : (match ax with
      | AxChild | AxAttribute | AxFollowing | AxFollowingSibling | AxPreceding | AxPrecedingSibling => True
      | AxAncestor | AxParent => False
      | _ => narrow t
      end) -> free (step w fuel ax t x).
  Proof.
    intros H. destruct ax; cbn [step]; try contradiction.
    - apply test_narrow, H.
    - destruct x as [|a|a k s o|s|z|f|b]; cbn [kids]; try apply free_nil.
      + apply tests_at. right. intros a Ha. assert (a = []) as -> by (destruct (is_name_test t); [apply filter_In in Ha as [[<-|[]] _]|destruct Ha as [<-|[]]]; auto). apply root_kid.
      + apply tests_at. left. discriminate.
    - destruct x as [|a|a k s o|s|z|f|b]; try apply free_nil. destruct (node_at w a) as [[n ats ks|]|]; try apply free_nil.
      intros i Hi. cbn [fst] in Hi. apply in_map_iff in Hi as (kv & <- & _). discriminate.
    - apply free_seq; [apply test_narrow, H|]. destruct (parent x) as [[p|]|]; try apply free_nil.
      pose proof (tests_narrow t x (repeat p fuel) H) as F. destruct (test_all w t x (repeat p fuel)) as [l f]. exact F.
    - destruct (kids w x); [|apply free_nil]. apply tests_narrow, H.
    - apply free_seq; [apply test_narrow, H|]. destruct (kids w x); [|apply free_nil]. apply tests_narrow, H.
    - destruct x as [|a|a k s o|s|z|f|b]; try apply free_nil; destruct (parent _) as [[p|]|]; try apply free_nil; destruct (sibling_index _ _ _); try apply free_nil; apply tests_at; left; discriminate.
    - destruct x as [|a|a k s o|s|z|f|b]; try apply free_nil; destruct (parent _) as [[p|]|]; try apply free_nil; destruct (sibling_index _ _ _); try apply free_nil; apply tests_at; left; discriminate.
    - destruct (parent x) as [[p|]|]; try apply free_nil. destruct (sibling_index _ _ _); apply free_nil.
    - destruct x as [|a|a k s o|s|z|f|b]; try apply free_nil; destruct (parent _) as [[p|]|]; try apply free_nil; destruct (sibling_index _ _ _); try apply free_nil; apply tests_at; left; discriminate.
  Qed.
  Lemma to_string_free x : to_string w x <> IRoot.
  Proof. unfold to_string. destruct x as [|a|a k s o|s|z|f|[|]]; cbn; try discriminate. destruct (text_at w a); [discriminate|]. destruct (option_map strval (node_at w a)); discriminate. Qed.
  Lemma free_sarg a k : (forall i, i <> IRoot -> free (k i)) -> free (string_arg w a k).
  Proof. intros H. apply free_first; [apply H; discriminate|]. intros i _. apply H, to_string_free. Qed.
  Lemma free_number x : free (or_raise (to_number w x)).
  Proof.
    unfold to_number, or_raise, float_item. destruct x as [|a|a k s o|s|z|f|b]; cbn [as_str node_strval node_value]; try (destruct (to_float w _); [apply free_one; discriminate|apply free_nil]);
      try (apply free_one; discriminate). destruct (text_at w a); [destruct (to_float w _); [apply free_one; discriminate|apply free_nil]|].
    destruct (option_map strval (node_at w a)); [destruct (to_float w _); [apply free_one; discriminate|apply free_nil]|apply free_one; discriminate].
  Qed.
  Ltac quiet1 := first [apply free_nil | apply free_one; discriminate | apply free_one; apply to_string_free | apply free_one; assumption | apply free_number
    | match goal with |- free (string_arg _ _ _) => apply free_sarg; intros ? ? | |- free (first _ _ _) => apply free_first; [|intros ? _] end | apply free_list; intros ?].
  Lemma call_name f : dict_get builtins f = Some FnForEach -> f = lit "for-each".
  Proof.
    unfold builtins. cbn [dict_get]. repeat match goal with |- (if str_eqb ?a ?b then _ else _) = _ -> _ => destruct (str_eqb a b) eqn:?; [try (intros K; discriminate K); intros _; symmetry; apply ParserInv.str_eqb_eq; assumption|] end.
    intros K. discriminate K.
  Qed.
  Lemma free_call dyn f raw args x : f <> lit "for-each" -> free (call w dyn f raw args x).
  Proof.
    intros Hf. unfold call. destruct (dict_get builtins f) as [fn|] eqn:E; [|apply free_nil].
    destruct fn; try (destruct args as [|a1 [|a2 [|a3 [|a4 args]]]]; repeat quiet1; fail).
    - destruct args as [|a1 [|a2 [|a3 args]]]; repeat quiet1. destruct (str_of w i0) as [|c p]; [apply free_nil|]. destruct (find_sub _ _); repeat quiet1.
    - destruct args as [|a1 [|a2 [|a3 args]]]; repeat quiet1. destruct (str_of w i0) as [|c p]; [apply free_nil|]. destruct (find_sub _ _); repeat quiet1.
    - destruct args as [|a1 [|a2 [|a3 [|a4 args]]]]; repeat quiet1. destruct raw as [|? [|y [|z [|? ?]]]]; repeat quiet1. destruct (int_arg w y); [|apply free_nil]. destruct (int_arg w z); repeat quiet1.
    - destruct args as [|a1 [|a2 args]]; repeat quiet1. destruct (as_str w i); repeat quiet1.
    - destruct args as [|a1 [|a2 args]]; repeat quiet1. unfold float_item. destruct (to_float w []); repeat quiet1.
    - destruct Hf. apply call_name, E.
    - destruct (Nat.eqb _ _); apply free_nil.
  Qed.
  Lemma predicated_in pos x l f ps i : In i (fst (predicated w pos x l f ps)) -> In i l.
  Proof.
    revert pos. induction l as [|j l IH]; intros pos; cbn [predicated]; [intros []|]. destruct (verdict_of w pos (copy w x j) ps); [|intros H; right; eapply IH; exact H|intros []].
    destruct (predicated w (S pos) x l f ps) as [l2 f2] eqn:E. cbn [fst]. intros [<-|H]; [left; auto|right]. apply (IH (S pos)). rewrite E. exact H.
  Qed.
  Lemma rootless_free fuel e : rootless e -> forall x, free (eval w fuel e x).
  Proof.
    induction e as [l|e IHe|l op r IHl IHr|d|d e IHe|ax t|e ps IHe IHps|t|u|n|f l IHl|l IHl] using expr_ind'; intros H x.
    - rewrite eval_lit. apply free_one. destruct l; discriminate.
    - rewrite eval_neg. apply free_first; [apply free_nil|]. intros; apply free_nil.
    - rewrite eval_bin. cbn [rootless] in H. destruct op; cbn [binary right_of].
      + apply free_bind. intros i _. apply IHr, H.
      + apply free_bind. intros i _. destruct r; try (apply IHr, H). apply free_step, H.
      + intros i Hi. unfold union in Hi. destruct (parent x); [|destruct Hi]. pose proof (IHl (proj1 H) x) as F1. pose proof (IHr (proj2 H) x) as F2.
        destruct (eval w fuel l x) as [l1 f1], (eval w fuel r x) as [l2 f2]. unfold collected in Hi. destruct f1; try (destruct Hi; fail). destruct f2; try (destruct Hi; fail).
        destruct (keyed w x (l1 ++ l2)) as [ks|] eqn:K; [|destruct Hi]. cbn [fst] in Hi.
        assert (G : forall l ks, keyed w x l = Some ks -> map snd ks = l).
        { clear. induction l as [|j l IH]; intros ks; cbn [keyed]; [intros E; injection E as <-; reflexivity|]. destruct (docorder w x j); [|discriminate].
          destruct (keyed w x l); [|discriminate]. intros E. injection E as <-. cbn [map snd]. rewrite (IH _ eq_refl). reflexivity. }
        assert (In i (map snd ks)) as Hk by (apply in_map_iff in Hi as (p & <- & Hp); apply in_map; rewrite (XPathMore.sort_perm ks) in Hp; exact Hp).
        rewrite (G _ _ K) in Hk. apply in_app_iff in Hk as [Hk|Hk]; auto.
      + unfold equality. destruct (eval w fuel l x) as [[|i l1] f1]; [destruct f1; repeat quiet1|]. destruct (eq_scan _ _ _ _) as [[|]|]; repeat quiet1. destruct f1; repeat quiet1.
      + repeat quiet1.
      + repeat quiet1. destruct (py_cmp _ _ _); repeat quiet1.
      + repeat quiet1. destruct (py_cmp _ _ _); repeat quiet1.
      + repeat quiet1. destruct (py_cmp _ _ _); repeat quiet1.
      + repeat quiet1. destruct (py_cmp _ _ _); repeat quiet1.
      + destruct H as [H1 H2]. apply free_first; [apply free_nil|]. intros i Hi. destruct (truthy w i); [apply free_one, (IHl H1 x i Hi)|].
        apply free_first; [apply free_nil|]. intros j Hj. apply free_one, (IHr H2 x j Hj).
      + destruct H as [H1 H2]. apply free_first; [apply free_nil|]. intros i Hi. destruct (truthy w i); [|apply free_one, (IHl H1 x i Hi)].
        apply free_first; [apply free_nil|]. intros j Hj. apply free_one, (IHr H2 x j Hj).
      + apply free_nil.
    - destruct H.
    - rewrite eval_abs. cbn [rootless] in H. destruct H as [H1 H2]. unfold absolute, XPath.with_root. destruct (root_of w x); [|apply free_nil]. rewrite H1.
      apply free_seq; [apply free_nil|]. apply free_seq; [apply IHe, H2|]. destruct d; [|apply free_nil]. apply free_bind. intros j _. apply IHe, H2.
    - rewrite eval_step. apply free_step. destruct ax; exact H.
    - rewrite eval_pred. intros i Hi. apply predicated_in in Hi. exact (IHe H x i Hi).
    - rewrite eval_test. apply test_narrow, H.
    - destruct H.
    - destruct H.
    - rewrite eval_call. apply free_call, H.
    - rewrite eval_seq. cbn [rootless] in H. induction IHl as [|e l He _ IH]; cbn [map seq_all]; [apply free_nil|]. cbn [fold_right] in H. apply free_seq; [apply He, H|apply IH, H].
  Qed.
End Rootless.

(** ** The equations of [heval] *)
Section Equations.
  Variable h : heap.
  Variable w : env.
  Variable hv : dict hval.
  Variable c : hval -> rcache.
  Variable v : hval -> numbers.
  Local Notation ev := (heval h w hv c v).
  Definition vdyn (n : nat) : option (expr -> hval -> list hval * fin) := match n with O => None | S k => Some (ev k) end.
  Definition vright (n : nat) (op : binop) (r : expr) : hval -> list hval * fin :=
    match op, r with OpDeep, EStep _ t => vstep h c n AxDescendantOrSelf t | _, _ => ev n r end.
  Lemma heval_lit n l x : ev n (ELit l) x = vyield (match l with LStr s => VStr s | LInt z => VInt z | LFlt f => VFlt f end). Proof. destruct n; reflexivity. Qed.
  Lemma heval_neg n e x : ev n (ENeg e) x = vnext (ev n e x) (vraise TypeErr) (fun _ => vraise TypeErr). Proof. destruct n; reflexivity. Qed.
  Lemma heval_bin n l op r x : ev n (EBin l op r) x = vbinary h v op x (ev n l) (vright n op r). Proof. destruct n; reflexivity. Qed.
  Lemma heval_root n d x : ev n (EAbs d None) x = vabsolute h c d x None. Proof. destruct n; reflexivity. Qed.
  Lemma heval_abs n d e x : ev n (EAbs d (Some e)) x = vabsolute h c d x (Some (just_node e, ev n e)). Proof. destruct n; reflexivity. Qed.
  Lemma heval_step n ax t x : ev n (EStep ax t) x = vstep h c n ax t x. Proof. destruct n; reflexivity. Qed.
  Lemma heval_pred n e ps x : ev n (EPred e ps) x = vpredicated h 1 x (fst (ev n e x)) (snd (ev n e x)) (map (ev n) ps). Proof. destruct n; reflexivity. Qed.
  Lemma heval_test n t x : ev n (ETest t) x = vtest h t x. Proof. destruct n; reflexivity. Qed.
  Lemma heval_abbrev n u x : ev n (EAbbrev u) x = vabbrev h c u x. Proof. destruct n; reflexivity. Qed.
  Lemma heval_var n k x : ev n (EVar k) x = match dict_get hv k with Some y => vyield y | None => vraise KeyErr end. Proof. destruct n; reflexivity. Qed.
  Lemma heval_call n f l x : ev n (ECall f l) x = vcall h w (vdyn n) f l (map (ev n) l) x. Proof. destruct n; reflexivity. Qed.
  Lemma heval_seq n l x : ev n (ESeq l) x = vchain (map (fun e => ev n e x) l). Proof. destruct n; reflexivity. Qed.
End Equations.

Section Main.
  Variable h : heap.
  Variable r : ref.
  Variable w : env.
  Variable hv : dict hval.
  Variable c : hval -> rcache.
  Variable v : hval -> numbers.
  Variable DD : Prop.
  Hypothesis W : well_linked h.
  Hypothesis D : HeapNavSpec.document h r (doc w).
  Hypothesis El : is_element (doc w).
  Hypothesis Hc : forall x, cache_ok h (c x).
  Hypothesis Hvars : same_vars h r (vars w) hv.
  Hypothesis Hnums : good_numbers h v.
  Hypothesis Hdyn : DD -> forall s e, xparse w s = inl e -> careful DD e.
  Local Notation vst := (vstands h r).
  Local Notation vsm := (vsame h r).
  Local Notation ev := (heval h w hv c v).
  (** Computations on both sides. *)
  Definition fsame (f : item -> list item * fin) (g : hval -> list hval * fin) : Prop := forall x y, vst x y -> vsm (f x) (g y).

  Lemma vars_rel n : match dict_get (vars w) n, dict_get hv n with Some i, Some j => vst i j | None, None => True | _, _ => False end.
  Proof.
    assert (G : forall d d', same_vars h r d d' -> match dict_get d n, dict_get d' n with Some i, Some j => vst i j | None, None => True | _, _ => False end); [|exact (G _ _ Hvars)].
    intros d d' Hd. induction Hd as [|[k i] [k' j] d d' [E H] _ IH]; cbn [dict_get]; [exact I|]. cbn [fst snd] in *. subst k'. destruct (str_eqb k n); [exact H|exact IH].
  Qed.
  Lemma here_rel x y : vst x y -> vst (here x) (vhere y).
  Proof. intros []; cbn [here vhere]; try (constructor; auto; fail). destruct o; constructor; auto. Qed.

  Lemma binary_rel op f f' g g' : fsame f f' -> fsame g g' ->
    (match op with
     | OpUnion => (forall x, free (f x)) /\ (forall x, free (g x))
     | OpNe => (forall x, free (f x)) \/ (forall x, free (g x))
     | _ => True
     end) -> fsame (fun x => binary w op x f g) (fun y => vbinary h v op y f' g').
  Proof.
    intros F G N x y H. destruct op; cbn [binary vbinary].
    - unfold bind. rewrite (proj2 (F x y H)). apply for_rel; [apply (F x y H)|]. intros i j Hi. apply G. apply vcopy_rel; auto.
    - unfold bind. rewrite (proj2 (F x y H)). apply for_rel; [apply (F x y H)|]. intros i j Hi. apply G. apply vcopy_rel; auto.
    - apply union_rel; auto; apply N.
    - apply equal_rel; auto.
    - pose proof (here_rel x y H) as Hh. apply next_rel; [apply F, Hh|apply raise_vrel|]. intros i j Ii Hi. apply next_rel; [apply G, Hh|apply raise_vrel|]. intros i' j' Ii' Hi'.
      rewrite (eq_rel h r w W D i j i' j' Hi Hi'); [apply yield_rel; constructor|]. intros [-> ->]. destruct N as [N|N]; eapply N; eauto.
    - apply next_rel; [apply F, H|apply raise_vrel|]. intros i j _ Hi. apply next_rel; [apply G, H|apply raise_vrel|]. intros i' j' _ Hi'.
      rewrite (cmp_rel h r w D i j i' j' Hi Hi'). destruct (vcmp h j j'); [apply yield_rel; constructor|apply raise_vrel].
    - apply next_rel; [apply F, H|apply raise_vrel|]. intros i j _ Hi. apply next_rel; [apply G, H|apply raise_vrel|]. intros i' j' _ Hi'.
      rewrite (cmp_rel h r w D i j i' j' Hi Hi'). destruct (vcmp h j j'); [apply yield_rel; constructor|apply raise_vrel].
    - apply next_rel; [apply F, H|apply raise_vrel|]. intros i j _ Hi. apply next_rel; [apply G, H|apply raise_vrel|]. intros i' j' _ Hi'.
      rewrite (cmp_rel h r w D i j i' j' Hi Hi'). destruct (vcmp h j j'); [apply yield_rel; constructor|apply raise_vrel].
    - apply next_rel; [apply F, H|apply raise_vrel|]. intros i j _ Hi. apply next_rel; [apply G, H|apply raise_vrel|]. intros i' j' _ Hi'.
      rewrite (cmp_rel h r w D i j i' j' Hi Hi'). destruct (vcmp h j j'); [apply yield_rel; constructor|apply raise_vrel].
    - apply next_rel; [apply F, H|apply raise_vrel|]. intros i j _ Hi. rewrite (true_rel h r w D i j Hi). destruct (vtrue h j); [apply yield_rel, Hi|].
      apply next_rel; [apply G, H|apply raise_vrel|]. intros i' j' _ Hi'. apply yield_rel, Hi'.
    - apply next_rel; [apply F, H|apply raise_vrel|]. intros i j _ Hi. rewrite (true_rel h r w D i j Hi). destruct (vtrue h j); [|apply yield_rel, Hi].
      apply next_rel; [apply G, H|apply raise_vrel|]. intros i' j' _ Hi'. apply yield_rel, Hi'.
    - apply raise_vrel.
  Qed.

  Lemma verdict_rel pos x y ps qs : vst x y -> Forall2 fsame ps qs -> verdict_of w pos x ps = vverdict h pos y qs.
  Proof.
    intros H. induction 1 as [|p q ps qs P _ IH]; cbn [verdict_of vverdict]; [reflexivity|]. destruct (P x y H) as [P1 P2].
    destruct (p x) as [l f], (q y) as [m g]. cbn [fst snd] in *. subst g. destruct P1 as [|i j l m Hi _].
    - destruct f; [|reflexivity|reflexivity]. cbn [XPath.number_of vindex]. reflexivity.
    - assert (E : XPath.number_of i = vindex j) by (destruct Hi; reflexivity). rewrite E, (to_boolean_rel h r w D i j Hi), IH. reflexivity.
  Qed.
  Lemma predicated_rel x y ps qs f l m : vst x y -> Forall2 fsame ps qs -> Forall2 vst l m -> forall pos, vsm (predicated w pos x l f ps) (vpredicated h pos y m f qs).
  Proof.
    intros H P. induction 1 as [|i j l m Hi _ IH]; intros pos; cbn [predicated vpredicated]; [apply stop_rel|].
    rewrite (verdict_rel pos (copy w x i) (vcopy h y j) ps qs (vcopy_rel h r w D x y i j H Hi) P). destruct (vverdict h pos (vcopy h y j) qs); [|apply IH|apply stop_rel].
    destruct (IH (S pos)) as [I1 I2]. destruct (predicated w (S pos) x l f ps) as [l2 f2], (vpredicated h (S pos) y m f qs) as [m2 g2]. cbn [fst snd] in *.
    split; [constructor; auto|exact I2].
  Qed.
  Lemma absolute_rel d x y o o' : vst x y -> match o, o' with Some (b, f), Some (b', f') => b = b' /\ fsame f f' | None, None => True | _, _ => False end ->
    vsm (absolute w d x o) (vabsolute h c d y o').
  Proof.
    intros H K. unfold absolute, vabsolute. apply vroot_rel; auto. intros q Hq. assert (R : vst IRoot (Obj (HRoot q) Made)) by (constructor; auto).
    destruct o as [[b f]|], o' as [[b' f']|]; try contradiction; [|apply yield_rel, R]. destruct K as [<- F].
    apply then_rel; [destruct b; [apply yield_rel, R|apply nothing_vrel]|]. apply then_rel; [apply F, R|]. destruct d; [|apply nothing_vrel].
    rewrite Hq. destruct (process_rel h r w D (nxt h) [[]] [r]) as (m & -> & Fm).
    { constructor; [reflexivity|constructor]. }
    { unfold total, size_at. cbn. rewrite Nat.add_0_r. apply Nat.le_refl. }
    { exact (size_ok h r w W D). }
    apply for_rel.
    - clear - Fm. induction Fm; cbn [map]; constructor; auto. constructor; auto.
    - intros i j Hi. apply F. apply vcopy_rel; auto.
  Qed.

  Lemma sarg_rel a a' k k' : vsm a a' -> (forall i j, vst i j -> vsm (k i) (k' j)) -> vsm (string_arg w a k) (vstring_arg h w a' k').
  Proof. intros A K. apply next_rel; [exact A| |]. - apply K. apply (to_string_rel h r w W D). constructor. - intros i j _ Hi. apply K. apply to_string_rel; auto. Qed.
  Lemma name_rel x y : vst x y -> item_name w x = vname h y.
  Proof.
    intros H. destruct H as [q o Hq|a i o Hi|a i k s o Hi|s|z|f|b]; cbn [item_name vname]; try reflexivity. destruct (rel_holds h r w D a i Hi) as (u & q & ids & E & Hh).
    unfold node_at. rewrite E. inversion Hh as [p' j n at_ is ks idss Ho Ha|p' j s Ho]; subst; rewrite Ho; reflexivity.
  Qed.
  Lemma strs_rel l m : Forall2 vst l m -> flat_map (the_str w) l = flat_map (fun y => vthe h (vto_string h w y)) m.
  Proof.
    induction 1 as [|i j l m Hi _ IH]; cbn [flat_map]; [reflexivity|]. rewrite IH. f_equal. exact (the_rel h r w D _ _ (to_string_rel h r w W D i j Hi)).
  Qed.
  Lemma F2_len l m : Forall2 vst l m -> length l = length m. Proof. induction 1; cbn; congruence. Qed.
  Lemma float_rel0 : vsm (or_raise (float_item w [])) (vfloat w []). Proof. apply float_rel. Qed.
  Ltac both1 H :=
    match goal with
    | |- vsm (yield1 _) (vyield _) => apply yield_rel; try (constructor; fail)
    | |- vsm (raise _) (vraise _) => apply raise_vrel
    | |- vsm (string_arg _ _ _) (vstring_arg _ _ _ _) => apply sarg_rel; [eauto|intros ? ? ?]
    | |- vsm (first _ _ _) (vnext _ _ _) => apply next_rel; [eauto| |intros ? ? _ ?]
    end.
  Lemma call_rel dyn dyn' fn raw args args' : (fn = lit "for-each" -> forall s e, xparse w s = inl e -> match dyn, dyn' with Some f, Some f' => fsame (f e) (f' e) | None, None => True | _, _ => False end) ->
    Forall2 fsame args args' -> fsame (fun x => call w dyn fn raw args x) (fun y => vcall h w dyn' fn raw args' y).
  Proof.
    intros Hd F x y H. pose proof (call_name fn) as CN. unfold call, vcall. destruct (dict_get builtins fn) as [b|]; [|apply raise_vrel]. specialize (fun E => Hd (CN (f_equal Some E))). clear CN.
    assert (Len : length args = length args') by (clear - F; induction F; cbn; congruence).
    assert (Ch : vsm (seq_all (map (fun a => a x) args)) (vchain (map (fun a => a y) args'))) by (apply chain_rel; clear - F H; induction F; cbn [map]; constructor; auto).
    destruct b; try (rewrite <- Len; destruct (Nat.eqb _ _); apply raise_vrel).
    all: try (apply list_rel; [exact Ch|]; intros m Hm; rewrite (strs_rel _ _ Hm); apply yield_rel; constructor).
    all: destruct F as [|a a' l l' Fa F]; [|destruct F as [|b b' l l' Fb F]; [|destruct F as [|d d' l l' Fd F]; [|destruct F as [|e e' l l' Fe F]]]]; try apply raise_vrel.
    all: try (rewrite (name_rel x y H); apply yield_rel; constructor).
    all: repeat both1 H.
    all: try (rewrite (name_rel _ _ H0); constructor; fail).
    all: try (apply to_string_rel; auto; fail).
    all: try (rewrite (the_rel h r w D _ _ H0), (the_rel h r w D _ _ H1); constructor; fail).
    all: try (rewrite (to_boolean_rel h r w D _ _ H0); constructor; fail).
    all: try (apply to_number_rel; auto; fail).
    all: try (apply float_rel0).
    - apply list_rel; [apply Fa, H|]. intros m Hm. rewrite (F2_len _ _ Hm). apply yield_rel. constructor.
    - rewrite (the_rel h r w D _ _ H0), (the_rel h r w D _ _ H1). destruct (vthe h _) as [|ch p]; [apply raise_vrel|]. destruct (find_sub _ _); apply yield_rel; [constructor|exact H0].
    - rewrite (the_rel h r w D _ _ H0), (the_rel h r w D _ _ H1). destruct (vthe h _) as [|ch p]; [apply raise_vrel|]. destruct (find_sub _ _); apply yield_rel; constructor.
    - rewrite (the_rel h r w D _ _ H0). destruct raw as [|? [|e1 [|e2 [|? ?]]]]; try apply raise_vrel. destruct (int_arg w e1); [|apply raise_vrel]. destruct (int_arg w e2); [apply yield_rel; constructor|apply raise_vrel].
    - rewrite (string_rel h r w D _ _ H0). destruct (vstring h _); [apply yield_rel; constructor|apply raise_vrel].
    - rewrite (the_rel h r w D _ _ H0). destruct (xparse w (vthe h _)) as [e|e] eqn:E; [|apply raise_vrel]. specialize (Hd eq_refl _ _ E). unfold bind. rewrite (proj2 (Fa x y H)).
      apply for_rel; [apply (Fa x y H)|]. intros i' j' Hi'. destruct dyn as [f|], dyn' as [f'|]; try contradiction; [|apply stop_rel]. apply Hd. apply vcopy_rel; auto.
  Qed.

  Lemma right_rel fuel op e : fsame (eval w fuel e) (ev fuel e) -> fsame (right_of w fuel op e) (vright h w hv c v fuel op e).
  Proof.
    intros H. destruct op; try exact H. destruct e; try exact H. intros x y Hx. apply vstep_rel; auto.
  Qed.
  Lemma expr_rel fuel : forall e, careful DD e -> fsame (eval w fuel e) (ev fuel e).
  Proof.
    induction fuel as [fuel IHf] using lt_wf_ind.
    induction e as [l|e IHe|l op e IHl IHr|d|d e IHe|ax t|e ps IHe IHps|t|u|n|f l IHl|l IHl] using expr_ind'; intros K x y H.
    - rewrite eval_lit, heval_lit. apply yield_rel. destruct l; constructor.
    - rewrite eval_neg, heval_neg. apply next_rel; [apply IHe; auto|apply raise_vrel|]. intros; apply raise_vrel.
    - rewrite eval_bin, heval_bin. cbn [careful] in K. destruct K as (Kl & Kr & Ko). apply (binary_rel op _ (ev fuel l) _ (vright h w hv c v fuel op e)); auto.
      + apply right_rel; auto.
      + destruct op; auto; cbn [right_of].
        * destruct Ko as [K1 K2]. split; intros z; apply rootless_free; auto.
        * destruct Ko as [K1|K1]; [left|right]; intros z; apply rootless_free; auto.
    - rewrite eval_root, heval_root. apply absolute_rel; auto.
    - rewrite eval_abs, heval_abs. apply absolute_rel; auto.
    - rewrite eval_step, heval_step. apply vstep_rel; auto.
    - rewrite eval_pred, heval_pred. cbn [careful] in K. destruct K as [Ke Kp]. destruct (IHe Ke x y H) as [E1 E2]. rewrite E2. apply predicated_rel; auto.
      clear - IHps Kp. induction IHps as [|q ps Hq _ IH]; cbn [map fold_right] in *; constructor; [apply Hq, Kp|apply IH, Kp].
    - rewrite eval_test, heval_test. apply vtest_rel; auto.
    - rewrite eval_abbrev, heval_abbrev. apply vabbrev_rel; auto.
    - rewrite eval_var, heval_var. pose proof (vars_rel n) as V. destruct (dict_get (vars w) n), (dict_get hv n); try contradiction; [apply yield_rel, V|apply raise_vrel].
    - rewrite eval_call, heval_call. cbn [careful] in K. destruct K as [Kd Ka]. apply (call_rel (dyn_of w fuel) (vdyn h w hv c v fuel) f l (map (eval w fuel) l) (map (ev fuel) l)); auto.
      + intros E s e Es. destruct fuel as [|n]; cbn [dyn_of vdyn]; [exact I|]. apply IHf; [lia|]. eapply Hdyn; eauto.
      + clear - IHl Ka. induction IHl as [|q ps Hq _ IH]; cbn [map fold_right] in *; constructor; [apply Hq, Ka|apply IH, Ka].
    - rewrite eval_seq, heval_seq. cbn [careful] in K. apply chain_rel. clear - IHl K H. induction IHl as [|q ps Hq _ IH]; cbn [map fold_right] in *; constructor; [apply Hq; [apply K|exact H]|apply IH, K].
  Qed.
End Main.
