(** Closed expressions have the same results everywhere in a document. *)
From Verif Require Import PyStr XTree Path XPath XPathSpec XPathFuel XClosedSpec.
From Verif Require ParserInv.

Section Closed.
  Variable w : env.
  (** ** Only nodes *)
  Definition nodes (l : list item) : Prop := Forall (fun i => is_node i = true) l.
  Lemma nodes_bindl l k : forall f, nodes l -> (forall i, is_node i = true -> nodes (fst (k i))) -> nodes (fst (bindl l f k)).
  Proof.
    induction l as [|i l IH]; intros f H K; cbn [bindl]; [constructor|]. apply Forall_cons_iff in H as (H1 & H2). specialize (K i H1) as Ki.
    destruct (k i) as [l1 g]. destruct g; try exact Ki. specialize (IH f H2 K). destruct (bindl l f k) as [l2 f2]. cbn [fst] in *. apply Forall_app. auto.
  Qed.
  Lemma nodes_seq2 r r' : nodes (fst r) -> nodes (fst r') -> nodes (fst (seq2 r r')).
  Proof. intros H H'. destruct r as [l g], r' as [l' f']. destruct g; cbn [seq2 fst] in *; try exact H. apply Forall_app. auto. Qed.
  Lemma nodes_copy c i : is_node c = true -> is_node i = true -> is_node (copy w c i) = true.
  Proof. intros C I. unfold copy. destruct (truthy w i); assumption. Qed.
  Lemma nodes_one i : is_node i = true -> nodes (fst (yield1 i)).
  Proof. intros H. repeat constructor. exact H. Qed.
  Lemma nodes_nil f : nodes (fst (@nil item, f : fin)).
  Proof. constructor. Qed.
  Lemma nodes_inode l : nodes (map INode l).
  Proof. induction l; constructor; auto. Qed.
  Lemma nodes_test t c : is_node c = true -> nodes (fst (test w t c)).
  Proof.
    intros H. unfold test. destruct t; repeat match goal with |- context [match ?x with _ => _ end] => destruct x end; try apply nodes_nil; apply nodes_one; exact H.
  Qed.
  Lemma nodes_test_all t c l : is_node c = true -> nodes (fst (test_all w t c l)).
  Proof. intros H. apply nodes_bindl; [apply nodes_inode|]. intros i I. apply nodes_test, nodes_copy; assumption. Qed.
  Lemma nodes_root c : nodes (fst (with_root w c yield1)).
  Proof.
    unfold with_root, root_of. destruct c as [|a| | | | |]; try apply nodes_nil; [now apply nodes_one|]. destruct (is_elem_at w a); [now apply nodes_one|apply nodes_nil].
  Qed.
  Lemma nodes_step n ax t c : is_node c = true -> nodes (fst (step w n ax t c)).
  Proof.
    intros H. pose proof (nodes_test t c H) as T. assert (A : forall l, nodes (fst (test_all w t c l))) by (intros; now apply nodes_test_all).
    assert (M : forall a (d : dict str), nodes (map (fun kv => IAttr a (fst kv) (snd kv) Made) d)) by (intros a d; induction d; constructor; auto).
    unfold step. destruct ax; try exact T; try (apply nodes_seq2; [exact T|]);
      repeat match goal with
      | |- nodes (fst (test_all _ _ _ _)) => apply A
      | |- nodes (fst (seq2 _ _)) => apply nodes_seq2
      | |- nodes (fst (with_root _ _ _)) => apply nodes_root
      | |- nodes (fst (raise _)) => constructor
      | |- nodes (fst nothing) => constructor
      | |- nodes (fst (map _ _, _)) => apply M
      | |- context [match ?x with _ => _ end] => destruct x eqn:?
      end; try assumption.
    all: cbn [fst]; match goal with E : test_all _ _ _ ?l = (_, _) |- _ => pose proof (A l) as X; rewrite E in X; exact X end.
  Qed.
  Lemma nodes_absolute d c e ev : (forall i, is_node i = true -> nodes (fst (ev i))) -> is_node c = true -> nodes (fst (absolute w d c (Some (e, ev)))).
  Proof.
    intros H C. unfold absolute, with_root. destruct (root_of w c) as [r|] eqn:E; [|constructor].
    assert (R : is_node r = true) by (unfold root_of in E; destruct c as [|a| | | | |]; try discriminate; [|destruct (is_elem_at w a); [|discriminate]]; injection E as <-; reflexivity).
    apply nodes_seq2; [destruct e; [now apply nodes_one|constructor]|]. apply nodes_seq2; [now apply H|]. destruct d; [|constructor].
    apply nodes_bindl; [apply nodes_inode|]. intros i I. apply H, nodes_copy; assumption.
  Qed.
  Lemma nodes_predicated c ps : forall l pos f, nodes l -> nodes (fst (predicated w pos c l f ps)).
  Proof.
    induction l as [|i l IH]; intros pos f H; cbn [predicated]; [constructor|]. apply Forall_cons_iff in H as (H1 & H2).
    destruct (verdict_of w pos (copy w c i) ps); [|now apply IH|constructor]. specialize (IH (S pos) f H2). destruct (predicated w (S pos) c l f ps) as [l2 f2].
    constructor; assumption.
  Qed.
  Lemma keyed_items c l : forall ks, keyed w c l = Some ks -> map snd ks = l.
  Proof.
    induction l as [|i l IH]; intros ks H; cbn [keyed] in H; [injection H as <-; reflexivity|].
    destruct (docorder w c i); [|discriminate]. destruct (keyed w c l) as [k|]; [|discriminate]. injection H as <-. cbn [map snd]. f_equal. now apply IH.
  Qed.
  Lemma nodes_sorted l : nodes (map snd l) -> nodes (map snd (sort_by l)).
  Proof.
    assert (I : forall x l, is_node (snd x) = true -> nodes (map snd l) -> nodes (map snd (insert_by x l))).
    { intros x k Hx. induction k as [|y k IH]; intros H; cbn [insert_by]; [now repeat constructor|]. cbn [map] in H. apply Forall_cons_iff in H as (H1 & H2).
      destruct (Nat.leb (fst x) (fst y)); cbn [map]; repeat constructor; auto. now apply IH. }
    unfold sort_by. induction l as [|x l IH]; intros H; cbn [fold_right]; [constructor|]. cbn [map] in H. apply Forall_cons_iff in H as (H1 & H2). apply I; auto.
  Qed.
  Lemma nodes_union c l r : nodes (fst l) -> nodes (fst r) -> nodes (fst (union w c l r)).
  Proof.
    intros H H'. unfold union. destruct (parent c); [|constructor]. destruct l as [l g], r as [r g']. destruct g; cbn [collected]; try constructor. destruct g'; cbn [collected]; try constructor.
    destruct (keyed w c (l ++ r)) as [ks|] eqn:E; [|constructor]. cbn [fst]. apply nodes_sorted. rewrite (keyed_items _ _ _ E). apply Forall_app. auto.
  Qed.
  Lemma nodes_eval n e : nodes_only e = true -> forall c, is_node c = true -> nodes (fst (eval w n e c)).
  Proof.
    induction e as [l|e IHe|l op r IHl IHr|d|d e IHe|ax t|e ps IHe IHps|t|u|v|f l IHl|l IHl] using expr_ind'; intros N c C; cbn [nodes_only] in N; try discriminate.
    - rewrite eval_bin.
      assert (X : op = OpPath \/ op = OpDeep \/ op = OpUnion) by (destruct op; auto; discriminate).
      assert (B : nodes_only l && nodes_only r = true) by (destruct X as [->|[->| ->]]; exact N). apply andb_true_iff in B as (B1 & B2). specialize (IHl B1). specialize (IHr B2).
      assert (R : forall i, is_node i = true -> nodes (fst (right_of w n op r i))).
      { intros i I. unfold right_of. destruct op; try (now apply IHr). destruct r; try (now apply IHr). now apply nodes_step. }
      destruct X as [->|[->| ->]]; cbn [binary]; [unfold bind; apply nodes_bindl; [now apply IHl|]; intros i I; apply R, nodes_copy; assumption ..|].
      apply nodes_union; [now apply IHl|now apply R].
    - rewrite eval_root. exact (nodes_root c).
    - rewrite eval_abs. apply nodes_absolute; [intros i I; now apply IHe|exact C].
    - rewrite eval_step. now apply nodes_step.
    - rewrite eval_pred. apply nodes_predicated. now apply IHe.
    - rewrite eval_test. now apply nodes_test.
    - rewrite eval_abbrev. unfold abbrev. destruct u; [|now apply nodes_one]. destruct (parent c) as [[p|]|]; [now apply nodes_one|apply nodes_root|constructor].
  Qed.

  (** ** The same everywhere *)
  Hypothesis full : no_empty_text w.
  Lemma node_truthy i : is_node i = true -> truthy w i = true.
  Proof.
    intros H. destruct i as [|a| | | | |]; try discriminate; try reflexivity. cbn [truthy]. destruct (text_at w a) as [[|x s]|] eqn:E; try reflexivity.
    unfold text_at in E. destruct (node_at w a) as [[n ats ks|s]|] eqn:N; try discriminate. injection E as ->. now contradiction (full a []).
  Qed.
  Lemma node_copy c i : is_node i = true -> copy w c i = i.
  Proof. intros H. unfold copy. now rewrite node_truthy. Qed.
  Lemma bindl_nodes c c' l k : forall f, nodes l -> bindl l f (fun i => k (copy w c i)) = bindl l f (fun i => k (copy w c' i)).
  Proof.
    induction l as [|i l IH]; intros f H; cbn [bindl]; [reflexivity|]. apply Forall_cons_iff in H as (H1 & H2). rewrite !node_copy by exact H1. destruct (k i) as [l1 g].
    destruct g; try reflexivity. now rewrite (IH f H2).
  Qed.
  Lemma predicated_nodes c c' ps : forall l pos f, nodes l -> predicated w pos c l f ps = predicated w pos c' l f ps.
  Proof.
    induction l as [|i l IH]; intros pos f H; cbn [predicated]; [reflexivity|]. apply Forall_cons_iff in H as (H1 & H2). rewrite !node_copy by exact H1. now rewrite !(IH _ _ H2).
  Qed.
  (** A place to begin: an element, or the root if there is no union. *)
  Definition place (u : bool) (c : item) : Prop := element_item w c \/ (u = false /\ c = IRoot).
  Lemma place_node u c : place u c -> is_node c = true.
  Proof. intros [(a & n & ats & ks & -> & _)|(_ & ->)]; reflexivity. Qed.
  Lemma place_root u c : place u c -> root_of w c = Some IRoot.
  Proof. intros [(a & n & ats & ks & -> & E)|(_ & ->)]; [|reflexivity]. cbn [root_of]. unfold is_elem_at, node_at. now rewrite E. Qed.
  Lemma place_here u c : place u c -> here c = c.
  Proof. intros [(a & n & ats & ks & -> & E)|(_ & ->)]; reflexivity. Qed.
  Lemma place_keyed c c' l : place true c -> place true c' -> keyed w c l = keyed w c' l.
  Proof.
    intros [(a & n & ats & ks & -> & _)|(H & _)] [(a' & n' & ats' & ks' & -> & _)|(H' & _)]; try discriminate. reflexivity || (induction l as [|i l IH]; cbn [keyed]; [reflexivity|]; rewrite IH; destruct i; reflexivity).
  Qed.
  Lemma absolute_same u d r c c' : place u c -> place u c' -> absolute w d c r = absolute w d c' r.
  Proof.
    intros C C'. unfold absolute, with_root. rewrite (place_root u c C), (place_root u c' C'). destruct r as [[jn ev]|]; [|reflexivity]. f_equal. f_equal. destruct d; [|reflexivity].
    apply bindl_nodes, nodes_inode.
  Qed.
  Lemma builtin_name f fn : dict_get builtins f = Some fn -> In (f, fn) builtins.
  Proof.
    generalize builtins. intros d. induction d as [|[k v] d IH]; cbn [dict_get]; [discriminate|]. destruct (str_eqb k f) eqn:E.
    - intros [= ->]. apply ParserInv.str_eqb_eq in E. subst. now left.
    - intros H. right. auto.
  Qed.
  Lemma builtin_of (p : fname -> bool) f fn : dict_get builtins f = Some fn -> p fn = true -> In f (map fst (filter (fun x => p (snd x)) builtins)).
  Proof. intros E P. apply in_map_iff. exists (f, fn). split; [reflexivity|]. apply filter_In. split; [now apply builtin_name|exact P]. Qed.
  Lemma name_builtin f : dict_get builtins f = Some FnName -> f = lit "name".
  Proof. intros E. apply (builtin_of (fun x => match x with FnName => true | _ => false end)) in E; [|reflexivity]. vm_compute in E. destruct E as [<-|[]]. reflexivity. Qed.
  Lemma string_builtin f : dict_get builtins f = Some FnString -> f = lit "string".
  Proof. intros E. apply (builtin_of (fun x => match x with FnString => true | _ => false end)) in E; [|reflexivity]. vm_compute in E. destruct E as [<-|[]]. reflexivity. Qed.
  Lemma each_builtin f : dict_get builtins f = Some FnForEach -> f = lit "for-each".
  Proof. intros E. apply (builtin_of (fun x => match x with FnForEach => true | _ => false end)) in E; [|reflexivity]. vm_compute in E. destruct E as [<-|[]]. reflexivity. Qed.
  Lemma call_same dyn f raw args c c' : is_node c = true -> is_node c' = true -> Forall (fun x => x c = x c') args ->
    (args = [] -> f <> lit "name" /\ f <> lit "string") -> (f = lit "for-each" -> match args with a :: _ => nodes (fst (a c)) | [] => True end) ->
    call w dyn f raw args c = call w dyn f raw args c'.
  Proof.
    intros C C' H N F. unfold call. destruct (dict_get builtins f) as [fn|] eqn:E; [|reflexivity].
    assert (M : map (fun x => x c) args = map (fun x => x c') args) by (clear - H; induction H; cbn [map]; congruence).
    destruct fn; try (rewrite M; reflexivity);
      (destruct H as [|x l Hx H];
       [try reflexivity; exfalso; destruct (N eq_refl) as (N1 & N2); first [apply N1, name_builtin, E|apply N2, string_builtin, E]|]);
      try (rewrite Hx); try reflexivity;
      (destruct H as [|y l Hy H]; [try reflexivity|]); try (rewrite Hy); try reflexivity;
      (destruct H as [|z l Hz H]; [try reflexivity|]); try (rewrite Hz); try reflexivity.
    all: try (destruct H; reflexivity).
    pose proof (each_builtin f E) as Ef.
    specialize (F Ef). cbn in F. unfold string_arg. destruct (y c') as [[|s ls] g]; cbn [first]; try (destruct g; try reflexivity).
    all: match goal with |- context [xparse w ?s] => let x := fresh in destruct (xparse w s) as [x|x]; [|reflexivity] end; rewrite <- Hx; apply bindl_nodes with (k := fun i => match dyn with Some ev => ev _ i | None => ([], Cut) end); exact F.
  Qed.
  Theorem closed_same u n e : closed u e -> forall c c', place u c -> place u c' -> eval w n e c = eval w n e c'.
  Proof.
    intros K c c' C C'. revert K. induction e as [l|e IHe|l op r IHl IHr|d|d e IHe|ax t|e ps IHe IHps|t|up|v|f l IHl|l IHl] using expr_ind'; intros K; cbn [closed] in K; try contradiction.
    - now rewrite !eval_lit.
    - rewrite !eval_neg. now rewrite IHe.
    - rewrite !eval_bin.
      assert (R : op <> OpPath -> op <> OpDeep -> closed u l /\ closed u r).
      { intros N1 N2. destruct op; try contradiction; tauto. }
      assert (Q : op = OpPath \/ op = OpDeep \/ (op <> OpPath /\ op <> OpDeep)) by (destruct op; auto; right; right; split; discriminate).
      destruct Q as [->|[->|(N1 & N2)]].
      + destruct K as (K1 & K2). cbn [binary]. unfold bind. rewrite (IHl K1). apply bindl_nodes. apply nodes_eval; [exact K2|]. eapply place_node; eassumption.
      + destruct K as (K1 & K2). cbn [binary]. unfold bind. rewrite (IHl K1). apply bindl_nodes. apply nodes_eval; [exact K2|]. eapply place_node; eassumption.
      + destruct (R N1 N2) as (K1 & K2). specialize (IHl K1). specialize (IHr K2).
        assert (E : forall i, right_of w n op r i = eval w n r i) by (intros i; destruct op; try contradiction; reflexivity).
        destruct op; try contradiction; cbn [binary]; rewrite ?(place_here u c C), ?(place_here u c' C'), ?E, ?IHl, ?IHr; try reflexivity.
        destruct K as (-> & _). unfold union. destruct C as [(a & m & ats & ks & -> & Ea)|(C & _)]; [|discriminate]. destruct C' as [(a' & m' & ats' & ks' & -> & Ea')|(C' & _)]; [|discriminate].
        assert (P : forall b, exists q, parent (INode b) = Some q) by (intros []; eexists; reflexivity). destruct (P a) as (q & ->), (P a') as (q' & ->).
        destruct (eval w n l (INode a')) as [l1 g1], (eval w n r (INode a')) as [l2 g2]. destruct g1; cbn [collected]; try reflexivity. destruct g2; cbn [collected]; try reflexivity.
        rewrite (place_keyed (INode a) (INode a')); [reflexivity|left; eexists _, _, _, _; split; [reflexivity|eassumption] ..].
    - rewrite !eval_root. eapply absolute_same; eassumption.
    - rewrite !eval_abs. eapply absolute_same; eassumption.
    - destruct K as (K1 & K2). rewrite !eval_pred. rewrite (IHe K1). apply predicated_nodes, nodes_eval; [exact K2|]. eapply place_node; eassumption.
    - now rewrite !eval_var.
    - destruct K as (K & N & F). rewrite !eval_call. apply call_same; [eapply place_node; eassumption ..| | |].
      + clear - K IHl. induction IHl as [|x l Hx HF IH]; cbn [map fold_right] in *; constructor; tauto.
      + intros E. apply N. destruct l; [reflexivity|discriminate].
      + intros E. specialize (F E). destruct l as [|x l]; [exact I|]. cbn [map]. apply nodes_eval; [exact F|]. eapply place_node; eassumption.
    - rewrite !eval_seq. f_equal. clear - K IHl. induction IHl as [|x l Hx HF IH]; cbn [map fold_right] in *; [reflexivity|]. destruct K as (K1 & K2). rewrite (Hx K1), (IH K2). reflexivity.
  Qed.
End Closed.
