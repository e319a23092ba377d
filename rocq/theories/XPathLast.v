(** MicroXPath: termination, absolute paths, comparisons, attributes, serialisation, and
    the axes that do not work. *)
From Verif Require Import PyStr XTree ParserInv Tree TreeFacts Heap Path Nodes Pattern PatternSpec PatternFacts TreeUtil TreeUtilSpec TreeUtilFacts XPath XPathSpec XPathFacts XPathFuel XPathMore XPathHere XPathExpr XPathFun.
From Coq Require Import Permutation.

(** ** Termination *)
Definition ends (r : list item * fin) : Prop := snd r <> Cut.
Section Ends.
  Variable w : env.
  Lemma en_raise e : ends (raise e). Proof. cbv. discriminate. Qed.
  Lemma en_yield i : ends (yield1 i). Proof. cbv. discriminate. Qed.
  Lemma en_nothing : ends nothing. Proof. cbv. discriminate. Qed.
  Lemma en_seq2 r1 r2 : ends r1 -> ends r2 -> ends (seq2 r1 r2).
  Proof. destruct r1 as [l1 []], r2 as [l2 f2]; cbn; auto. Qed.
  Lemma en_seq_all l : Forall ends l -> ends (seq_all l).
  Proof. induction 1; cbn [seq_all]; [apply en_nothing|apply en_seq2; auto]. Qed.
  Lemma en_bindl l f k : f <> Cut -> (forall i, ends (k i)) -> ends (bindl l f k).
  Proof. intros Hf Hk. induction l as [|i l IH]; [exact Hf|]. rewrite bindl_seq2. apply en_seq2; auto. Qed.
  Lemma en_bind r k : ends r -> (forall i, ends (k i)) -> ends (bind r k).
  Proof. intros. apply en_bindl; auto. Qed.
  Lemma en_first r x k : ends r -> ends x -> (forall i, ends (k i)) -> ends (first r x k).
  Proof. destruct r as [[|i l] []]; cbn; auto. Qed.
  Lemma en_collected r k : ends r -> (forall l, ends (k l)) -> ends (collected r k).
  Proof. destruct r as [l []]; cbn; auto. Qed.
  Lemma en_test t c : ends (test w t c).
  Proof. destruct t; cbn [test]; repeat match goal with |- context [match ?x with _ => _ end] => destruct x end; cbv; discriminate. Qed.
  Lemma en_test_all t c l : ends (test_all w t c l).
  Proof. apply en_bindl; [discriminate|]. intros; apply en_test. Qed.
  Lemma en_with_root c k : (forall i, ends (k i)) -> ends (with_root w c k).
  Proof. intros H. unfold with_root. destruct (root_of w c); [auto|apply en_raise]. Qed.
  Lemma en_step n ax t c : ax <> AxAncestorOrSelf -> ends (step w n ax t c).
  Proof.
    intros H. destruct ax; cbn [step]; try congruence; try apply en_test; repeat first [apply en_test_all|apply en_raise|apply en_nothing|apply en_test|apply en_seq2|apply en_with_root; intros; apply en_yield|match goal with |- context [match ?x with _ => _ end] => destruct x end]; cbv; discriminate.
  Qed.
  Lemma en_scan x l f : f <> Cut -> eq_scan w x l f <> inr Cut.
  Proof. intros Hf. induction l as [|j l IH]; cbn [eq_scan]; [destruct f; congruence|]. destruct (is_node j); [discriminate|]. destruct (py_eq w x j); [discriminate|auto]. Qed.
  Lemma en_binary op c l r : (forall i, ends (l i)) -> (forall i, ends (r i)) -> ends (binary w op c l r).
  Proof.
    intros Hl Hr. assert (Hr' : forall i, ends (r i)) by exact Hr.
    assert (F : forall k, (forall i j, ends (k i j)) -> ends (first (l c) (raise RuntimeErr) (fun i => first (r c) (raise RuntimeErr) (fun j => k i j)))).
    { intros k Hk. apply en_first; auto using en_raise. intros i. apply en_first; auto using en_raise. }
    destruct op; cbn [binary].
    - apply en_bind; auto. - apply en_bind; auto.
    - unfold union. destruct (parent c); [|apply en_raise]. apply en_collected; auto. intros ls. apply en_collected; auto. intros rs. destruct (keyed w c (ls ++ rs)); [cbv; discriminate|apply en_raise].
    - unfold equality. specialize (Hl c). specialize (Hr c). destruct (l c) as [[|i ls] f]; unfold ends in *; cbn [snd] in *; [destruct f; cbv in *; congruence|].
      pose proof (en_scan (plain w i) (fst (r c)) (snd (r c)) Hr) as K. destruct (eq_scan w (plain w i) (fst (r c)) (snd (r c))) as [[|]|g]; cbn; try discriminate; [destruct f; cbv in *; congruence|congruence].
    - apply en_first; auto using en_raise. intros i. apply en_first; auto using en_raise, en_yield.
    - apply F. intros i j. destruct (py_cmp w i j); [apply en_yield|apply en_raise].
    - apply F. intros i j. destruct (py_cmp w i j); [apply en_yield|apply en_raise].
    - apply F. intros i j. destruct (py_cmp w i j); [apply en_yield|apply en_raise].
    - apply F. intros i j. destruct (py_cmp w i j); [apply en_yield|apply en_raise].
    - apply en_first; auto using en_raise. intros i. destruct (truthy w i); [apply en_yield|]. apply en_first; auto using en_raise, en_yield.
    - apply en_first; auto using en_raise. intros i. destruct (truthy w i); [|apply en_yield]. apply en_first; auto using en_raise, en_yield.
    - apply en_raise.
  Qed.
  Lemma en_verdict pos c ps : Forall (fun p : item -> list item * fin => forall i, ends (p i)) ps -> verdict_of w pos c ps <> VStop Cut.
  Proof.
    induction 1 as [|p ps H _ IH]; cbn [verdict_of]; [discriminate|]. specialize (H c). destruct (p c) as [[|i l] []]; unfold ends in H; cbn [snd] in H; try congruence;
    repeat match goal with |- context [match ?x with _ => _ end] => destruct x end; auto; discriminate.
  Qed.
  Lemma en_predicated c ps : Forall (fun p : item -> list item * fin => forall i, ends (p i)) ps -> forall l f pos, f <> Cut -> ends (predicated w pos c l f ps).
  Proof.
    intros Hp. induction l as [|i l IH]; intros f pos Hf; [exact Hf|]. rewrite predicated_seq2. pose proof (en_verdict pos (copy w c i) ps Hp) as K.
    destruct (verdict_of w pos (copy w c i) ps); [apply en_seq2; auto using en_yield|auto|unfold ends; cbn; congruence].
  Qed.
  Lemma en_absolute d c r : (forall jn f, r = Some (jn, f) -> forall i, ends (f i)) -> ends (absolute w d c r).
  Proof.
    intros H. apply en_with_root. intros root. destruct r as [[jn f]|]; [|apply en_yield]. specialize (H jn f eq_refl).
    apply en_seq2; [destruct jn; auto using en_yield, en_nothing|]. apply en_seq2; [auto|]. destruct d; [|apply en_nothing]. apply en_bindl; [discriminate|auto].
  Qed.
  Lemma en_abbrev u c : ends (abbrev w u c).
  Proof. unfold abbrev. destruct u; [|apply en_yield]. destruct (parent c) as [[|]|]; auto using en_yield, en_raise. apply en_with_root. auto using en_yield. Qed.
  Lemma en_string_arg r k : ends r -> (forall i, ends (k i)) -> ends (string_arg w r k).
  Proof. intros. apply en_first; auto. Qed.
  Lemma en_or_raise x : ends (or_raise x). Proof. destruct x; [apply en_yield|apply en_raise]. Qed.
  Lemma not_foreach f fn : dict_get builtins f = Some fn -> f <> lit "for-each" -> fn <> FnForEach.
  Proof. intros H Hn ->. apply dict_get_in in H. cbn in H. repeat destruct H as [H|H]; try discriminate H; try contradiction. inversion H; subst; apply Hn; reflexivity. cbn [map fst builtins]. repeat constructor; cbn [In]; intros K; repeat destruct K as [K|K]; try discriminate K; contradiction. Qed.
  Lemma en_call dyn f raw args c : f <> lit "for-each" -> Forall (fun p : item -> list item * fin => forall i, ends (p i)) args -> ends (call w dyn f raw args c).
  Proof.
    intros Hf Ha. unfold call. destruct (dict_get builtins f) as [fn|] eqn:E; [|apply en_raise]. pose proof (not_foreach f fn E Hf) as Hfn.
    destruct fn; try congruence;
    repeat first [apply en_raise|apply en_yield|apply en_or_raise
      |match goal with |- context [FnConcat] => fail 1 | |- ends (collected (seq_all _) _) => apply en_collected; [apply en_seq_all; apply Forall_map; eapply Forall_impl; [|exact Ha]; cbn; auto|intros; apply en_yield] end
      |apply en_string_arg; [match goal with H : Forall _ _ |- _ => solve [repeat (inversion H as [|? ? ?H1 H]; subst; clear H; rename H1 into H); auto] end|intros]
      |match goal with H : Forall _ (_ :: _) |- _ => inversion H; subst; clear H end
      |apply en_string_arg; [solve [auto]|intros]
      |apply en_first; [solve [auto]| |intros]
      |apply en_collected; [solve [auto]|intros]
      |match goal with |- context [match ?x with _ => _ end] => destruct x end].
  Qed.
  Lemma eval_ends n e : tame e -> forall c, ends (eval w n e c).
  Proof.
    induction e as [l|e IH|l op r IHl IHr|d|d e IH|ax t|e ps IH IHp|t|u|v|f l IHl|l IHl] using expr_ind'; intros H c; inversion H; subst.
    - rewrite eval_lit. apply en_yield.
    - rewrite eval_neg. apply en_first; auto using en_raise.
    - rewrite eval_bin. apply en_binary; [auto|]. unfold right_of. intros i. destruct op; auto. destruct r; auto. apply en_step. discriminate.
    - rewrite eval_bin. apply en_binary; [auto|]. unfold right_of. intros i. apply en_step. discriminate.
    - rewrite eval_root. apply en_absolute. discriminate.
    - rewrite eval_abs. apply en_absolute. intros jn f E i. inversion E; subst. auto.
    - rewrite eval_step. apply en_step; auto.
    - rewrite eval_pred. apply en_predicated; [|apply IH; auto]. apply Forall_map. rewrite Forall_forall in *. auto.
    - rewrite eval_test. apply en_test.
    - rewrite eval_abbrev. apply en_abbrev.
    - rewrite eval_var. destruct (dict_get (vars w) v); [apply en_yield|apply en_raise].
    - rewrite eval_call. apply en_call; [auto|]. apply Forall_map. rewrite Forall_forall in *. auto.
    - rewrite eval_seq. apply en_seq_all. apply Forall_map. rewrite Forall_forall in *. auto.
  Qed.
End Ends.

Section Last.
  Variable w : env.
  Notation D := (doc w).

  (** ** Absolute paths *)
  Lemma absolute_context n d e c : c = IRoot \/ element_item w c -> d = false \/ no_empty_text w ->
    eval w n (EAbs d (Some e)) c = eval w n (EAbs d (Some e)) IRoot.
  Proof.
    intros Hc Hd. rewrite !eval_abs. unfold absolute, with_root. rewrite (proj2 (root_of_some w c IRoot)) by auto. change (root_of w IRoot) with (Some IRoot). cbv beta iota.
    do 2 f_equal. destruct d; [|reflexivity]. destruct Hd as [?|He]; [discriminate|].
    assert (K : forall l, (forall a, In a l -> subtree D a <> Some (XT [])) ->
      bindl (map INode l) Done (fun i => eval w n e (copy w c i)) = bindl (map INode l) Done (fun i => eval w n e (copy w IRoot i))).
    { induction l as [|a l IH]; intros H; [reflexivity|]. cbn [map]. rewrite !bindl_seq2, IH by (intros; apply H; right; auto). rewrite !copy_node by (apply H; left; auto). reflexivity. }
    apply K. intros a _ E. apply (He a [] E). reflexivity.
  Qed.
  Lemma absolute_elsewhere n d e c : c <> IRoot -> ~ element_item w c -> eval w n (EAbs d e) c = ([], Exn AssertionErr).
  Proof.
    intros H1 H2. assert (root_of w c = None) as E.
    { destruct (root_of w c) eqn:E; [|auto]. apply root_of_some in E as (_ & [E|E]); contradiction. }
    destruct e; [rewrite eval_abs|rewrite eval_root]; unfold absolute, with_root; rewrite E; reflexivity.
  Qed.
  Lemma absolute_root n c : c = IRoot \/ element_item w c -> forall d, eval w n (EAbs d None) c = ([IRoot], Done).
  Proof. intros Hc d. rewrite eval_root. unfold absolute, with_root. rewrite (proj2 (root_of_some w c IRoot)) by auto. reflexivity. Qed.
  Lemma absolute_relative n e c : c = IRoot \/ element_item w c -> just_node e = false -> eval w n (EAbs false (Some e)) c = eval w n e IRoot.
  Proof.
    intros Hc Hj. rewrite eval_abs. unfold absolute, with_root. rewrite (proj2 (root_of_some w c IRoot)) by auto. rewrite Hj. cbn [nothing seq2].
    destruct (eval w n e IRoot) as [l []]; cbn; rewrite ?app_nil_r; reflexivity.
  Qed.

  (** ** Comparisons *)
  Lemma str_cmp_eq s t : str_cmp s t = Eq <-> s = t.
  Proof.
    revert t. induction s as [|a s IH]; intros [|b t]; cbn; try (split; [discriminate|discriminate]); [tauto|].
    destruct (N.compare_spec a b) as [->|H|H]; [rewrite IH; split; [intros ->; auto|intros E; inversion E; auto]| |]; (split; [discriminate|]; intros E; inversion E; subst; lia).
  Qed.
  Lemma str_cmp_lt s t : str_cmp s t = Lt <-> str_before s t.
  Proof.
    revert t. induction s as [|a s IH]; intros [|b t]; cbn.
    - split; [discriminate|intros H; inversion H]. - split; [intros; constructor|reflexivity]. - split; [discriminate|intros H; inversion H].
    - destruct (N.compare_spec a b) as [->|H|H].
      + rewrite IH. split; [apply sb_same|]. intros K. inversion K; subst; [lia|auto].
      + split; [intros; apply sb_less; auto|reflexivity].
      + split; [discriminate|]. intros K. inversion K; subst; lia.
  Qed.
  Lemma str_cmp_sym s t : str_cmp t s = CompOpp (str_cmp s t).
  Proof. revert t. induction s as [|a s IH]; intros [|b t]; cbn; try reflexivity. rewrite N.compare_antisym. destruct (a ?= b)%N; cbn; auto. Qed.
  Lemma str_cmp_gt s t : str_cmp s t = Gt <-> str_before t s.
  Proof. rewrite <- str_cmp_lt, (str_cmp_sym s t). destruct (str_cmp s t); cbn; split; congruence. Qed.
  Lemma flt_cmp_lt x y : flt_cmp x y = Some Lt <-> num_before x y.
  Proof.
    destruct x as [|b|m e], y as [|b'|m' e']; try destruct b; try destruct b'; try (cbn; split; [first [discriminate|intros; constructor]|intros H; inversion H; reflexivity]).
    cbn. set (k := Z.min e e'). split.
    - intros H. injection H as H. rewrite Z.compare_lt_iff in H. apply nb_fin with (k := (- k)%Z); unfold k in *; try lia.
      replace (e + - Z.min e e')%Z with (e - Z.min e e')%Z by lia. replace (e' + - Z.min e e')%Z with (e' - Z.min e e')%Z by lia. exact H.
    - intros H. inversion H as [| | |m1 e1 m2 e2 j H1 H2 H3 E1 E2]; subst. f_equal. apply Z.compare_lt_iff.
      replace (e + j)%Z with ((e - k) + (k + j))%Z in H3 by lia. replace (e' + j)%Z with ((e' - k) + (k + j))%Z in H3 by lia.
      rewrite (Z.pow_add_r 2 (e - k)), (Z.pow_add_r 2 (e' - k)) in H3 by (unfold k; lia). rewrite !Z.mul_assoc in H3.
      apply Z.mul_lt_mono_pos_r in H3; [auto|]. apply Z.pow_pos_nonneg; unfold k; lia.
  Qed.
  Lemma flt_cmp_sym x y : flt_cmp y x = option_map CompOpp (flt_cmp x y).
  Proof.
    destruct x as [|b|m e], y as [|b'|m' e']; try destruct b; try destruct b'; try reflexivity. cbn. rewrite (Z.min_comm e' e). f_equal. apply Z.compare_antisym.
  Qed.
  Lemma flt_cmp_gt x y : flt_cmp x y = Some Gt <-> num_before y x.
  Proof. rewrite <- flt_cmp_lt, (flt_cmp_sym x y). destruct (flt_cmp x y) as [[]|]; cbn; split; congruence. Qed.
  Lemma as_str_text i s : as_str w i = Some s <-> text_item w i s.
  Proof.
    destruct i as [|a|a k v|s'|z|f|b]; cbn; try (split; [discriminate|intros H; inversion H]).
    - unfold text_at, node_at. split.
      + destruct (subtree D a) as [[|s']|] eqn:E; try discriminate. intros H. inversion H; subst. constructor. auto.
      + intros H. inversion H as [|a' s' E]; subst. rewrite E. reflexivity.
    - split; [intros H; inversion H; constructor|intros H; inversion H; reflexivity].
  Qed.
  Lemma number_as i : as_num i = number_value i.
  Proof. destruct i as [| | | | | |[]]; reflexivity. Qed.
  Lemma order_eq n op l r c i l' f j r' g : is_order op -> eval w n l c = (i :: l', f) -> eval w n r c = (j :: r', g) ->
    eval w n (EBin l op r) c = match py_cmp w i j with Some o => ([IBool (rel op o)], Done) | None => ([], Exn TypeErr) end.
  Proof.
    intros Ho El Er. unfold is_order in Ho. cbn in Ho. rewrite eval_bin. unfold right_of. destruct Ho as [<-|[<-|[<-|[<-|[]]]]]; cbn [binary]; rewrite El, Er; cbn [first]; destruct (py_cmp w i j); reflexivity.
  Qed.
  Lemma order_strings n op l r c i l' f j r' g s t : is_order op -> eval w n l c = (i :: l', f) -> eval w n r c = (j :: r', g) -> text_item w i s -> text_item w j t ->
    exists b, eval w n (EBin l op r) c = ([IBool b], Done) /\ (b = true <-> ordered op (str_before s t) (s = t) (str_before t s)).
  Proof.
    intros Ho El Er Hi Hj. rewrite (order_eq n op l r c i l' f j r' g Ho El Er). apply as_str_text in Hi, Hj. unfold py_cmp. rewrite Hi, Hj. eexists. split; [reflexivity|].
    unfold is_order in Ho. cbn in Ho. destruct Ho as [<-|[<-|[<-|[<-|[]]]]]; cbn [ordered]; rewrite <- ?(str_cmp_lt s t), <- ?(str_cmp_gt s t), <- ?(str_cmp_eq s t); destruct (str_cmp s t); cbn; intuition discriminate.
  Qed.
  Lemma order_numbers n op l r c i l' f j r' g x y : is_order op -> eval w n l c = (i :: l', f) -> eval w n r c = (j :: r', g) -> number_value i = Some x -> number_value j = Some y ->
    exists b, eval w n (EBin l op r) c = ([IBool b], Done) /\ (b = true <-> ordered op (num_before x y) (same_number x y) (num_before y x)).
  Proof.
    intros Ho El Er Hi Hj. rewrite (order_eq n op l r c i l' f j r' g Ho El Er). unfold py_cmp. rewrite !number_as, Hi, Hj.
    assert (as_str w i = None) as -> by (destruct i; cbn in *; try discriminate; reflexivity). assert (as_str w j = None) as -> by (destruct j; cbn in *; try discriminate; reflexivity).
    eexists. split; [reflexivity|].
    unfold is_order in Ho. cbn in Ho. destruct Ho as [<-|[<-|[<-|[<-|[]]]]]; cbn [ordered]; rewrite <- ?(flt_cmp_lt x y), <- ?(flt_cmp_gt x y), <- ?(flt_cmp_eq x y); destruct (flt_cmp x y) as [[]|]; cbn; intuition discriminate.
  Qed.
  Lemma order_mixed n op l r c i l' f j r' g : is_order op -> eval w n l c = (i :: l', f) -> eval w n r c = (j :: r', g) ->
    ~ (exists s t, text_item w i s /\ text_item w j t) -> ~ (exists x y, number_value i = Some x /\ number_value j = Some y) ->
    eval w n (EBin l op r) c = ([], Exn TypeErr).
  Proof.
    intros Ho El Er H1 H2. rewrite (order_eq n op l r c i l' f j r' g Ho El Er). unfold py_cmp. destruct (as_str w i) as [s|] eqn:Ei, (as_str w j) as [t|] eqn:Ej; try reflexivity.
    - exfalso. apply H1. exists s, t. rewrite <- !as_str_text. auto.
    - rewrite !number_as. destruct (number_value i) as [x|] eqn:Ni, (number_value j) as [y|] eqn:Nj; try reflexivity. exfalso. apply H2. eauto.
  Qed.
  Lemma differ_values n l r c i l' f j r' g : eval w n l c = (i :: l', f) -> eval w n r c = (j :: r', g) -> ~ is_node_item i -> ~ is_node_item j ->
    exists b, eval w n (EBin l OpNe r) c = ([IBool b], Done) /\ (b = true <-> ~ same_value i j).
  Proof.
    intros El Er Hi Hj. apply eval_here_cons in El as (i' & l2 & El & Ai), Er as (j' & r2 & Er & Aj). apply alike_no_attr in Ai as ->; [|destruct i; cbn in *; tauto]. apply alike_no_attr in Aj as ->; [|destruct j; cbn in *; tauto].
    rewrite eval_bin. cbn [binary]. unfold right_of. rewrite El, Er. cbn [first]. eexists. split; [reflexivity|]. rewrite negb_true_iff, <- (py_eq_same w i j Hi Hj).
    destruct (py_eq w i j); intuition congruence.
  Qed.
  Lemma differ_element n l r c i l' f j r' g : eval w n l c = (i :: l', f) -> eval w n r c = (j :: r', g) -> element_item w i -> ~ is_node_item j ->
    eval w n (EBin l OpNe r) c = ([IBool true], Done).
  Proof.
    intros El Er (a & m & ats & ks & -> & Ha) Hj. apply eval_here_cons in El as (i' & l2 & El & Ai), Er as (j' & r2 & Er & Aj). apply alike_no_attr in Ai as ->; [|exact I]. apply alike_no_attr in Aj as ->; [|destruct j; cbn in *; tauto].
    rewrite eval_bin. cbn [binary]. unfold right_of. rewrite El, Er. cbn [first]. unfold py_eq. cbn [as_str]. unfold text_at, node_at. rewrite Ha.
    destruct j as [|b|b k v o|s|z|fl|b]; cbn in Hj; try tauto; reflexivity.
  Qed.

  Definition is_made (i : item) : Prop := exists a k v, i = IAttr a k v Made.
  Lemma made_bindl l f k : (forall i, Forall is_made (fst (k i))) -> Forall is_made (fst (bindl l f k)).
  Proof.
    intros H. induction l as [|i l IH]; [constructor|]. rewrite bindl_seq2. specialize (H i). destruct (k i) as [m []], (bindl l f k) as [m' g]; cbn in *; [apply Forall_app; auto|exact H|exact H].
  Qed.
  Lemma made_predicated c l f ps : forall pos, Forall is_made l -> Forall is_made (fst (predicated w pos c l f ps)).
  Proof.
    induction l as [|i l IH]; intros pos H; [constructor|]. inversion H; subst. rewrite predicated_seq2. destruct (verdict_of w pos (copy w c i) ps); [|auto|constructor].
    specialize (IH (S pos) H3). destruct (predicated w (S pos) c l f ps). constructor; auto.
  Qed.
  Lemma attributes_made n e : attributes_of e -> forall c, Forall is_made (fst (eval w n e c)).
  Proof.
    induction 1 as [t|l r _ IH|e ps _ IH]; intros c.
    - rewrite eval_step. cbn [step]. destruct c; try constructor. destruct (node_at w a) as [[m ats ks|s]|]; try constructor. cbn [fst]. apply Forall_forall. intros i Hi. apply in_map_iff in Hi as (kv & <- & _). repeat eexists.
    - rewrite eval_bin. cbn [binary]. unfold right_of, bind. apply made_bindl. intros i. apply IH.
    - rewrite eval_pred. apply made_predicated, IH.
  Qed.
  Lemma differ_attributes n l r c i l' f j r' g : attributes_of l \/ attributes_of r -> eval w n l c = (i :: l', f) -> eval w n r c = (j :: r', g) ->
    eval w n (EBin l OpNe r) c = ([IBool true], Done).
  Proof.
    intros H El Er. apply eval_here_cons in El as (i' & l2 & El & _), Er as (j' & r2 & Er & _). rewrite eval_bin. cbn [binary]. unfold right_of. rewrite El, Er. cbn [first].
    assert (E : py_eq w i' j' = false).
    { destruct H as [H|H]; pose proof (attributes_made n _ H (here c)) as M; [rewrite El in M|rewrite Er in M]; inversion M as [|? ? (a & k & v & ->)]; subst; unfold py_eq; cbn [as_str as_num].
      - destruct (as_str w j'); [reflexivity|]. destruct (as_num j'); [reflexivity|]. destruct j'; reflexivity.
      - destruct (as_str w i'); [reflexivity|]. destruct (as_num i'); [reflexivity|]. destruct i' as [| |a' k' v' []| | | |]; reflexivity. }
    rewrite E. reflexivity.
  Qed.
  Lemma differ_itself n a k v o : eval w n (EBin (EAbbrev false) OpNe (EAbbrev false)) (IAttr a k v o) = ([IBool false], Done).
  Proof. rewrite eval_bin. cbn [binary]. unfold right_of. rewrite !eval_abbrev. destruct o; cbn; rewrite ?Nat.eqb_refl; reflexivity. Qed.

  (** ** Attributes *)
  Lemma filter_true {A} (p : A -> bool) l : (forall x, In x l -> p x = true) -> filter p l = l.
  Proof. induction l as [|x l IH]; intros H; cbn; [auto|]. rewrite (H x) by (left; auto). rewrite IH by (intros; apply H; right; auto). reflexivity. Qed.
  Lemma filter_key (k : str) (v : str) (ats : dict str) : NoDup (map fst ats) -> In (k, v) ats -> filter (fun kv => str_eqb k (fst kv)) ats = [(k, v)].
  Proof.
    induction ats as [|[k' v'] ats IH]; intros Hn Hi; [destruct Hi|]. cbn in Hn. inversion Hn; subst. cbn [filter fst]. destruct Hi as [E|Hi].
    - inversion E; subst. rewrite (proj2 (str_eqb_eq k k) eq_refl). f_equal. clear - H1. induction ats as [|[k' v'] ats IH]; [reflexivity|]. cbn in *. destruct (str_eqb k k') eqn:E; [apply str_eqb_eq in E; subst; tauto|]. apply IH. tauto.
    - destruct (str_eqb k k') eqn:E; [|auto]. apply str_eqb_eq in E as <-. exfalso. apply H1. apply in_map_iff. exists (k, v). auto.
  Qed.
  Lemma filter_no_key (k : str) (ats : dict str) : ~ In k (map fst ats) -> filter (fun kv => str_eqb k (fst kv)) ats = [].
  Proof. induction ats as [|[k' v'] ats IH]; intros H; [reflexivity|]. cbn in *. destruct (str_eqb k k') eqn:E; [apply str_eqb_eq in E; subst; tauto|]. apply IH. tauto. Qed.
  Lemma filter_ext_eq {A} (p q : A -> bool) l : (forall x, p x = q x) -> filter p l = filter q l.
  Proof. intros H. apply filter_ext. exact H. Qed.
  Lemma attribute_axis n a m ats ks : subtree D a = Some (XE m ats ks) -> NoDup (map fst ats) ->
    eval w n (EStep AxAttribute TStar) (INode a) = (map (fun kv => IAttr a (fst kv) (snd kv) Made) ats, Done) /\
    (forall k v, k <> lit "*" -> In (k, v) ats -> eval w n (EStep AxAttribute (TName k)) (INode a) = ([IAttr a k v Made], Done)) /\
    (forall k, k <> lit "*" -> ~ In k (map fst ats) -> eval w n (EStep AxAttribute (TName k)) (INode a) = ([], Done)).
  Proof.
    intros Ha Hn.
    assert (K : forall k, k <> lit "*" -> filter (fun kv : str * str => str_eqb k (lit "*") || str_eqb k (fst kv)) ats = filter (fun kv => str_eqb k (fst kv)) ats).
    { intros k Hk. apply filter_ext. intros kv. destruct (str_eqb k (lit "*")) eqn:E; [apply str_eqb_eq in E; contradiction|reflexivity]. }
    split; [|split].
    - rewrite eval_step. cbn [step]. unfold node_at. rewrite Ha. rewrite filter_true; [reflexivity|]. intros; reflexivity.
    - intros k v Hk Hi. rewrite eval_step. cbn [step]. unfold node_at. rewrite Ha. cbn [test_name]. rewrite (K k Hk), (filter_key k v ats Hn Hi). reflexivity.
    - intros k Hk Hi. rewrite eval_step. cbn [step]. unfold node_at. rewrite Ha. cbn [test_name]. rewrite (K k Hk), filter_no_key by auto. reflexivity.
  Qed.
  Lemma attribute_nothing n t c : ~ element_item w c -> eval w n (EStep AxAttribute t) c = ([], Done).
  Proof.
    intros H. rewrite eval_step. cbn [step]. destruct c as [|a| | | | |]; try reflexivity. unfold node_at. destruct (subtree D a) as [[m ats ks|s]|] eqn:E; try reflexivity.
    exfalso. apply H. exists a, m, ats, ks. auto.
  Qed.
  Lemma attribute_type n c : eval w n (EStep AxAttribute TNode) c = eval w n (EStep AxAttribute (TName (lit "node"))) c /\
    eval w n (EStep AxAttribute TText) c = eval w n (EStep AxAttribute (TName (lit "text"))) c.
  Proof. rewrite !eval_step. split; reflexivity. Qed.
  Lemma attribute_string n e c a k v o l f : eval w n e c = (IAttr a k v o :: l, f) ->
    eval w n (ECall (lit "string") [e]) c = ([IStr v], Done) /\ eval w n (ECall (lit "name") [e]) c = ([IStr []], Done).
  Proof.
    intros E. rewrite !eval_call. split.
    - change (first (eval w n e c) (yield1 (IStr [])) (fun i => yield1 (to_string w i)) = ([IStr v], Done)). rewrite E. reflexivity.
    - change (first (eval w n e c) (yield1 (IStr [])) (fun i => yield1 (IStr (item_name w i))) = ([IStr []], Done)). rewrite E. reflexivity.
  Qed.

  (** ** Axes that do not work *)
  Lemma preceding_nothing n t p i u : subtree D (p ++ [i]) = Some u -> eval w n (EStep AxPreceding t) (INode (p ++ [i])) = ([], Done).
  Proof.
    intros H. rewrite eval_step. cbn [step]. rewrite parent_snoc. destruct (sibling_index w p (INode (p ++ [i]))) eqn:E; [reflexivity|]. exfalso.
    destruct (parent_elem w p i u H) as (m & ats & ks & Hp & Hi). unfold sibling_index in E.
    assert (In (p ++ [i]) (kid_addrs w p)) as K.
    { unfold kid_addrs, node_at. rewrite Hp. apply in_map_iff. exists i. split; [auto|]. apply in_seq. apply nth_error_Some_lt in Hi || (assert (i < length ks) by (apply nth_error_Some; congruence)). lia. }
    clear - E K. induction (kid_addrs w p) as [|b l IH]; [destruct K|]. cbn [find_index] in E. destruct (same_node w (INode (p ++ [i])) b) eqn:F; [discriminate|].
    destruct K as [->|K]; [cbn [same_node] in F; destruct (list_eq_dec Nat.eq_dec (p ++ [i]) (p ++ [i])); congruence|]. destruct (find_index _ l); [discriminate|auto].
  Qed.
  Lemma ancestor_or_self_cut n t p i u : subtree D (p ++ [i]) = Some u -> snd (eval w n (EStep AxAncestorOrSelf t) (INode (p ++ [i]))) = Cut.
  Proof.
    intros H. rewrite eval_step. cbn [step]. rewrite parent_snoc, test_node by congruence. cbn [seq2]. destruct (test_all w t (INode (p ++ [i])) (repeat p n)). reflexivity.
  Qed.
  Lemma ancestor_or_self_top n t c : c = IRoot \/ c = INode [] -> exists l, eval w n (EStep AxAncestorOrSelf t) c = (l, Exn AssertionErr).
  Proof.
    intros H. rewrite eval_step. cbn [step]. assert (exists l, test w t c = (l, Done)) as (l & ->).
    { destruct H as [-> | ->].
      - destruct t; cbn; eexists; reflexivity.
      - rewrite test_node by (cbn; discriminate). eexists; reflexivity. }
    exists l. destruct H as [-> | ->]; cbn; rewrite app_nil_r; reflexivity.
  Qed.

  Lemma parent_root n t : document w -> eval w n (EStep AxParent t) (INode []) = ([IRoot], Done) /\ eval w n (EAbbrev true) (INode []) = ([IRoot], Done).
  Proof.
    intros (m & ats & ks & E). rewrite eval_step, eval_abbrev. cbn [step abbrev parent]. unfold with_root, root_of, is_elem_at, node_at. cbn [subtree]. rewrite E. split; reflexivity.
  Qed.
  Lemma abbrev_up n p i : eval w n (EAbbrev true) (INode (p ++ [i])) = ([INode p], Done).
  Proof. rewrite eval_abbrev. unfold abbrev. rewrite parent_snoc. reflexivity. Qed.
  Lemma deep_grouped n t c : no_empty_text w -> c = IRoot \/ element_item w c ->
    exists all groups, listing D (fun _ _ => True) all /\
      Forall2 (fun p g => listing D (fun b u => child_of p b /\ child_passes t u) g) (IRoot :: nodes all) groups /\
      eval w n (EAbs true (Some (EStep AxChild t))) c = ((match t with TNode => [IRoot] | _ => [] end) ++ concat (map nodes groups), Done).
  Proof.
    intros He Hc. exists (all_nodes D). rewrite (deep_child w n t c He Hc).
    assert (K : forall l, (forall p, In p l -> tree_item w p) -> exists groups, Forall2 (fun p g => listing D (fun b u => child_of p b /\ child_passes t u) g) l groups /\
      flat_map (kid_items w n t) l = concat (map nodes groups)).
    { induction l as [|p l IH]; intros H; [exists []; split; [constructor|reflexivity]|]. destruct IH as (gs & F & E); [intros; apply H; right; auto|].
      destruct (kid_items_spec w n t p He) as (g & Hg & Eg); [apply H; left; auto|]. exists (g :: gs). split; [constructor; auto|]. cbn [flat_map map concat]. rewrite Eg, E. reflexivity. }
    destruct (K (IRoot :: nodes (all_nodes D))) as (gs & F & E); [intros p; apply in_all|]. exists gs. split; [apply all_nodes_listing|]. split; [exact F|]. rewrite E. reflexivity.
  Qed.
  Lemma deep_exactly_once n t c : no_empty_text w -> c = IRoot \/ element_item w c -> t <> TNode ->
    exists l out, listing D (fun _ u => child_passes t u) l /\ eval w n (EAbs true (Some (EStep AxChild t))) c = (out, Done) /\ Permutation out (nodes l).
  Proof.
    intros He Hc Ht. rewrite (deep_child w n t c He Hc). destruct (deep_once w n t He) as (l & Hl & P). exists l. eexists. split; [exact Hl|]. split; [reflexivity|].
    destruct t; try congruence; exact P.
  Qed.
  Lemma predicates_kept n e ps c items : eval w n e c = (items, Done) ->
    (forall i p j, In i items -> In p ps -> moved w c i j -> exists v, first_value (eval w n p j) v /\ usable v) ->
    exists out, kept (fun pos i => forall p j v, In p ps -> moved w c i j -> first_value (eval w n p j) v -> holds_as w v pos) 1 items out /\
      eval w n (EPred e ps) c = (out, Done).
  Proof.
    intros E H. rewrite eval_pred, E. cbn [fst snd].
    destruct (predicated_kept w c (map (eval w n) ps) items) with (pos := 1) as (out & K & ->).
    { intros i p Hi Hp. apply in_map_iff in Hp as (p' & <- & Hp). apply (H i p'); auto. apply copy_moved. reflexivity. }
    exists out. split; [|reflexivity]. clear - K. induction K as [pos|pos i l l' Hp K IH|pos i l l' Hp K IH]; [constructor|apply k_keep; auto|apply k_drop; auto].
    - intros p j v Hi Hm Hv. apply copy_moved in Hm. subst j. eapply Hp; [apply in_map_iff; eauto|exact Hv].
    - intros G. apply Hp. intros p v Hi Hv. apply in_map_iff in Hi as (p' & <- & Hi). eapply G; eauto. apply copy_moved. reflexivity.
  Qed.
  Lemma predicates_unusable n e p ps c i j items f v x : eval w n e c = (i :: items, f) -> moved w c i j -> first_value (eval w n p j) v ->
    (v = IFlt FNan /\ x = ValueErr) \/ (exists b, v = IFlt (FInf b)) /\ x = OverflowErr -> eval w n (EPred e (p :: ps)) c = ([], Exn x).
  Proof.
    intros E M V H. rewrite eval_pred, E. cbn [fst snd map predicated verdict_of]. apply copy_moved in M. subst j.
    destruct V as [(l & g & ->)|[-> ->]]; [|destruct H as [[H _]|[(b & H) _]]; discriminate]. destruct H as [[-> ->]|[(b & ->) ->]]; reflexivity.
  Qed.
  Lemma union_fails_text n l r c ls rs i : eval w n l c = (ls, Done) -> eval w n r c = (rs, Done) -> In i (ls ++ rs) ->
    (forall a u, i = INode a -> subtree D a = Some u -> ~ is_element u) -> (i = IRoot -> c <> IRoot) -> document w ->
    eval w n (EBin l OpUnion r) c = ([], Exn AttributeErr).
  Proof.
    intros El Er Hi H1 H2 Hd. eapply union_fails; eauto. destruct i as [|a|a k v|s|z|f|b]; try reflexivity.
    - cbn. destruct c; try reflexivity. exfalso. apply H2; reflexivity.
    - destruct (docorder w c (INode a)) as [x|] eqn:E; [|reflexivity]. exfalso. apply docorder_node in E as (k & _ & Hk). apply nth_error_In in Hk. unfold elements in Hk.
      destruct Hk as [<-|Hk]; [apply (H1 [] D eq_refl eq_refl); exact Hd|]. apply in_map_iff in Hk as ([b u] & <- & Hk). apply descendants_in in Hk as (K1 & _ & K2). eapply H1; eauto.
  Qed.

  (** ** Further functions *)
  Lemma name_context n c : (forall a m ats ks, c = INode a -> subtree D a = Some (XE m ats ks) -> eval w n (ECall (lit "name") []) c = ([IStr m], Done)) /\
    (forall a s, c = INode a -> subtree D a = Some (XT s) -> eval w n (ECall (lit "name") []) c = ([IStr (lit "#text")], Done)) /\
    ((forall a, c <> INode a) -> eval w n (ECall (lit "name") []) c = ([IStr []], Done)).
  Proof.
    rewrite eval_call. change (call w (dyn_of w n) (lit "name") [] (map (eval w n) []) c) with (yield1 (IStr (item_name w c))). split; [|split].
    - intros a m ats ks -> H. cbn [item_name]. unfold node_at. rewrite H. reflexivity.
    - intros a s -> H. cbn [item_name]. unfold node_at. rewrite H. reflexivity.
    - intros H. destruct c; try reflexivity. exfalso. eapply H; reflexivity.
  Qed.
  Lemma name_first n e c : (eval w n e c = ([], Done) -> eval w n (ECall (lit "name") [e]) c = ([IStr []], Done)) /\
    (forall i l f, eval w n e c = (i :: l, f) -> eval w n (ECall (lit "name") [e]) c = eval w n (ECall (lit "name") []) i).
  Proof.
    rewrite eval_call. change (call w (dyn_of w n) (lit "name") [e] (map (eval w n) [e]) c) with (first (eval w n e c) (yield1 (IStr [])) (fun i => yield1 (IStr (item_name w i)))).
    split; [intros ->; reflexivity|]. intros i l f ->. rewrite eval_call. reflexivity.
  Qed.
  Lemma string_context n c s : string_value w c s -> exists i, eval w n (ECall (lit "string") []) c = ([i], Done) /\ text_item w i s.
  Proof.
    intros H. rewrite eval_call. change (call w (dyn_of w n) (lit "string") [] (map (eval w n) []) c) with (yield1 (to_string w c)). exists (to_string w c). split; [reflexivity|].
    apply as_str_text. apply the_str_value in H as [E H]. unfold the_str in E. destruct (as_str w (to_string w c)); congruence.
  Qed.
  Lemma string_first n e c : (eval w n e c = ([], Done) -> eval w n (ECall (lit "string") [e]) c = ([IStr []], Done)) /\
    (forall i l f, eval w n e c = (i :: l, f) -> eval w n (ECall (lit "string") [e]) c = eval w n (ECall (lit "string") []) i).
  Proof.
    rewrite eval_call. change (call w (dyn_of w n) (lit "string") [e] (map (eval w n) [e]) c) with (first (eval w n e c) (yield1 (IStr [])) (fun i => yield1 (to_string w i))).
    split; [intros ->; reflexivity|]. intros i l f ->. rewrite eval_call. reflexivity.
  Qed.
  Lemma number_first n e c : (eval w n e c = ([], Done) -> eval w n (ECall (lit "number") [e]) c = converted w []) /\
    (forall i l f s, eval w n e c = (i :: l, f) -> number_value i = None -> string_value w i s -> eval w n (ECall (lit "number") [e]) c = converted w s) /\
    (forall i l f x, eval w n e c = (i :: l, f) -> number_value i = Some x -> eval w n (ECall (lit "number") [e]) c = ([i], Done)).
  Proof.
    rewrite eval_call. change (call w (dyn_of w n) (lit "number") [e] (map (eval w n) [e]) c) with (first (eval w n e c) (or_raise (float_item w [])) (fun i => or_raise (to_number w i))).
    assert (K : forall s, or_raise (float_item w s) = converted w s) by (intros s; unfold float_item, converted; destruct (to_float w s); reflexivity).
    split; [intros ->; apply K|]. split.
    - intros i l f s -> Hn Hs. cbn [first]. rewrite <- K. apply the_str_value in Hs as [_ Hs]. f_equal. unfold to_number. unfold to_string in Hs.
      destruct (as_str w i) as [t|] eqn:Ei; [rewrite Ei in Hs; congruence|]. destruct (node_strval w i) as [t|] eqn:Et; [cbn in Hs; congruence|].
      destruct i as [|a|a k v|t|z|x|[]]; cbn in Hn; try discriminate; congruence.
    - intros i l f x -> Hn. cbn [first]. destruct i as [|a|a k v|t|z|y|[]]; cbn in Hn; try discriminate; reflexivity.
  Qed.
  Lemma length_first n e c : (eval w n e c = ([], Done) -> eval w n (ECall (lit "string-length") [e]) c = ([IInt 0], Done)) /\
    (forall i l f s, eval w n e c = (i :: l, f) -> text_item w i s -> eval w n (ECall (lit "string-length") [e]) c = ([IInt (Z.of_nat (length s))], Done)) /\
    (forall i l f, eval w n e c = (i :: l, f) -> (forall s, ~ text_item w i s) -> eval w n (ECall (lit "string-length") [e]) c = ([], Exn TypeErr)).
  Proof.
    rewrite eval_call. change (call w (dyn_of w n) (lit "string-length") [e] (map (eval w n) [e]) c) with
      (first (eval w n e c) (yield1 (IInt 0)) (fun i => match as_str w i with Some s => yield1 (IInt (Z.of_nat (length s))) | None => raise TypeErr end)).
    split; [intros ->; reflexivity|]. split.
    - intros i l f s -> H. apply as_str_text in H. cbn [first]. rewrite H. reflexivity.
    - intros i l f -> H. cbn [first]. destruct (as_str w i) as [s|] eqn:E; [|reflexivity]. apply as_str_text in E. exfalso. eapply H; eauto.
  Qed.
  Lemma wrong_arity n f lo hi l c : In (f, (lo, hi)) signatures -> ~ takes lo hi (length l) -> eval w n (ECall (lit f) l) c = ([], Exn TypeErr).
  Proof.
    intros H Ht. rewrite eval_call. unfold signatures in H. cbn [In] in H. unfold takes in Ht.
    repeat (destruct H as [H|H]; [injection H as <- <- <-; unfold call;
      match goal with |- context [dict_get builtins ?k] => let v := eval vm_compute in (dict_get builtins k) in change (dict_get builtins k) with v end; cbv iota beta;
      destruct l as [|x1 [|x2 [|x3 [|x4 l]]]]; cbn [map length] in *; first [reflexivity | exfalso; lia]|]); destruct H.
  Qed.
  Lemma stubs n f lo hi l c : In f not_implemented -> In (f, (lo, hi)) signatures -> takes lo hi (length l) -> eval w n (ECall (lit f) l) c = ([], Exn NotImplErr).
  Proof.
    intros Hf H Ht. rewrite eval_call. unfold signatures in H. cbn [In] in H. unfold takes in Ht.
    repeat (destruct H as [H|H]; [injection H as <- <- <-; try (exfalso; cbn in Hf; repeat destruct Hf as [Hf|Hf]; try discriminate Hf; exact Hf); unfold call;
      match goal with |- context [dict_get builtins ?k] => let v := eval vm_compute in (dict_get builtins k) in change (dict_get builtins k) with v end; cbv iota beta;
      destruct l as [|x1 [|x2 [|x3 [|x4 l]]]]; cbn [map length] in *; first [reflexivity | exfalso; lia]|]); destruct H.
  Qed.
  Lemma unknown_function n f l c : ~ In f (map (fun x => lit (fst x)) signatures) -> eval w n (ECall f l) c = ([], Exn RuntimeErr).
  Proof. change (map (fun x => lit (fst x)) signatures) with (map fst builtins). intros H. rewrite eval_call. unfold call. apply dict_get_none in H. rewrite H. reflexivity. Qed.
  Lemma call_nothing n c : eval w n (ECall (lit "last") []) c = ([IInt (-1)], Done) /\ eval w n (ECall (lit "number") []) c = ([IInt 0], Done) /\
    eval w n (ECall (lit "string-length") []) c = ([], Exn AttributeErr) /\ eval w n (ECall (lit "true") []) c = ([IBool true], Done) /\ eval w n (ECall (lit "false") []) c = ([IBool false], Done) /\
    (forall e, eval w n (ECall (lit "sum") [e]) c = ([], Exn NotImplErr)).
  Proof. repeat split; intros; rewrite eval_call; reflexivity. Qed.

  Lemma connective_second n l r c i l' f j r' g : eval w n l c = (i :: l', f) -> eval w n r c = (j :: r', g) ->
    (falsy w i -> eval w n (EBin l OpOr r) c = ([j], Done)) /\ (~ falsy w i -> eval w n (EBin l OpAnd r) c = ([j], Done)).
  Proof.
    intros El Er. destruct (connectives w n l r c i l' f j r' g El Er) as [-> ->]. split; intros H; [apply truthy_false in H|apply truthy_iff in H]; rewrite H; reflexivity.
  Qed.
  Lemma substring_plain n x c s (i k : nat) : arg_string w (eval w n x c) s ->
    eval w n (ECall (lit "substring") [x; ELit (LInt (Z.of_nat (S i))); ELit (LInt (Z.of_nat k))]) c = ([IStr (firstn k (skipn i s))], Done).
  Proof. intros H. rewrite (substring_eq w n x _ _ c s H). replace (Z.of_nat (S i) - 1)%Z with (Z.of_nat i) by lia. rewrite slice_plain. reflexivity. Qed.
  Lemma substring_zero n x c s (k : nat) : arg_string w (eval w n x c) s -> 0 < k -> k <= length s ->
    eval w n (ECall (lit "substring") [x; ELit (LInt 0); ELit (LInt (Z.of_nat k))]) c = ([IStr []], Done).
  Proof. intros H H1 H2. rewrite (substring_eq w n x _ _ c s H). change (0 - 1)%Z with (-1)%Z. rewrite slice_zero by auto. reflexivity. Qed.
  Lemma fuel_enough n m e c : n <= m -> snd (eval w n e c) <> Cut -> eval w m e c = eval w n e c.
  Proof. intros H K. destruct (eval_continues w n m H e c) as [[_ E]|[E _]]; [exact E|contradiction]. Qed.
  Lemma fuel_prefix n m e c : n <= m -> snd (eval w n e c) = Cut -> exists more, fst (eval w m e c) = fst (eval w n e c) ++ more.
  Proof. intros H K. destruct (eval_continues w n m H e c) as [[E _]|[_ E]]; [contradiction|exact E]. Qed.

  (** ** Serialisation *)
  Lemma serialize_literal e : serialize w (ELit (LStr (serialize w e))) = serialize w e.
  Proof. reflexivity. Qed.
End Last.
