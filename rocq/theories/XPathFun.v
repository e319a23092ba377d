(** Facts about the functions and operators of MicroXPath. *)
From Verif Require Import PyStr XTree ParserInv Tree TreeFacts Heap Path Nodes Pattern PatternSpec PatternFacts TreeUtil TreeUtilSpec TreeUtilFacts XPath XPathSpec XPathFacts XPathFuel XPathMore XPathHere XPathExpr.

Lemma prefixb_iff x s : prefixb x s = true <-> exists q, s = x ++ q.
Proof.
  revert s. induction x as [|a x IH]; intros s; cbn; [split; [eauto|auto]|]. destruct s as [|b s]; [split; [discriminate|intros (q & E); discriminate]|].
  rewrite andb_true_iff, N.eqb_eq, IH. split.
  - intros [-> (q & ->)]. exists q. reflexivity.
  - intros (q & E). inversion E; subst. split; [auto|eauto].
Qed.
Lemma find_sub_some x s i : find_sub x s = Some i -> first_at x s (firstn i s) (skipn (i + length x) s).
Proof.
  revert i. induction s as [|b s IH]; intros i H; cbn [find_sub] in H.
  - destruct (prefixb x []) eqn:E; [|discriminate]. inversion H; subst. apply prefixb_iff in E as (q & E). destruct x; [|discriminate]. split; [reflexivity|]. cbn. intros; lia.
  - destruct (prefixb x (b :: s)) eqn:E.
    + inversion H; subst. apply prefixb_iff in E as (q & E). rewrite E. split; [|cbn; intros; lia]. cbn [firstn app plus].
      rewrite skipn_app, skipn_all, Nat.sub_diag. reflexivity.
    + destruct (find_sub x s) as [j|] eqn:F; [|discriminate]. cbn in H. inversion H; subst. destruct (IH j eq_refl) as [I1 I2]. split.
      * cbn [firstn skipn plus app]. f_equal. exact I1.
      * intros p' q' E'. destruct p' as [|b' p'].
        { exfalso. assert (prefixb x (b :: s) = true) by (apply prefixb_iff; exists q'; exact E'). congruence. }
        cbn in E'. inversion E'; subst. specialize (I2 p' q' eq_refl). cbn [firstn length]. lia.
Qed.
Lemma find_sub_none x s : find_sub x s = None -> forall p q, s <> p ++ x ++ q.
Proof.
  induction s as [|b s IH]; intros H p q E; cbn [find_sub] in H.
  - destruct (prefixb x []) eqn:F; [discriminate|]. destruct p; [|discriminate]. assert (prefixb x [] = true) by (apply prefixb_iff; exists q; auto). congruence.
  - destruct (prefixb x (b :: s)) eqn:F; [discriminate|]. destruct (find_sub x s) eqn:G; [discriminate|]. destruct p as [|b' p].
    + assert (prefixb x (b :: s) = true) by (apply prefixb_iff; exists q; auto). congruence.
    + cbn in E. inversion E; subst. apply (IH eq_refl p q). reflexivity.
Qed.
Lemma app_same_length {A} (p p' a b : list A) : length p = length p' -> p ++ a = p' ++ b -> p = p' /\ a = b.
Proof.
  revert p'. induction p as [|x p IH]; intros [|y p'] L E; try discriminate; [auto|]. cbn in *. inversion E; subst.
  destruct (IH p') as [-> ->]; auto.
Qed.
Lemma first_at_unique x s p q p' q' : first_at x s p q -> first_at x s p' q' -> p = p' /\ q = q'.
Proof.
  intros [E H] [E' H']. assert (L : length p = length p') by (specialize (H _ _ E'); specialize (H' _ _ E); lia). rewrite E in E'.
  apply app_same_length in E' as [-> E']; [|auto]. split; [auto|]. apply app_inv_head in E'. auto.
Qed.
Lemma find_sub_first x s p q : first_at x s p q -> find_sub x s = Some (length p) /\ firstn (length p) s = p /\ skipn (length p + length x) s = q.
Proof.
  intros H. destruct (find_sub x s) as [i|] eqn:E.
  - pose proof (find_sub_some _ _ _ E) as H'. destruct (first_at_unique _ _ _ _ _ _ H H') as [E1 E2].
    assert (length p = i) as L.
    { destruct H' as [H' _]. rewrite E1. rewrite firstn_length. apply (f_equal (@length _)) in H'. rewrite !app_length, firstn_length, skipn_length in H'.
      destruct (Nat.le_gt_cases i (length s)) as [|G]; [lia|]. exfalso.
      assert (x = [] /\ length s < i) as [-> ?] by (split; [|auto]; destruct x; [auto|cbn in H'; lia]). clear - E G. revert i E G. induction s as [|b s IH]; intros i E G; cbn in E; inversion E; subst; cbn in G; lia. }
    subst i. auto.
  - exfalso. destruct H as [H _]. eapply find_sub_none; eauto.
Qed.

Section Fun.
  Variable w : env.
  Notation D := (doc w).
  Variable n : nat.
  Notation ev := (eval w n).

  Lemma string_arg_eq r s k : arg_string w r s -> exists i, string_value w i s /\ str_of w i = s /\ string_arg w r k = k i.
  Proof.
    intros (v & Hv & Hs). destruct (the_str_value w v s Hs) as [_ E]. exists (to_string w v).
    assert (string_value w (to_string w v) s /\ str_of w (to_string w v) = s) as [K1 K2].
    { split; [|unfold str_of; rewrite E; reflexivity]. clear - Hs E. destruct (to_string w v) as [|a|a k v'|s'|z|f|b]; cbn in E; try discriminate.
      - unfold text_at, node_at in E. destruct (subtree D a) as [[|s']|] eqn:F; try discriminate. inversion E; subst. change s with (tree_text (XT s)). constructor. auto.
      - inversion E; subst. constructor. }
    split; [auto|]. split; [auto|]. unfold string_arg. destruct Hv as [(l & f & ->)|[-> ->]]; reflexivity.
  Qed.
  Lemma args2 x y c s t : arg_string w (ev x c) s -> arg_string w (ev y c) t -> forall k, exists i j, string_value w i s /\ str_of w i = s /\ string_value w j t /\ str_of w j = t /\
    string_arg w (ev x c) (fun full => string_arg w (ev y c) (fun part => k full part)) = k i j.
  Proof.
    intros Hx Hy k. destruct (string_arg_eq _ _ (fun full => string_arg w (ev y c) (fun part => k full part)) Hx) as (i & Hi & Hi' & Ei).
    destruct (string_arg_eq _ _ (fun part => k i part) Hy) as (j & Hj & Hj' & Ej). exists i, j. rewrite Ei, Ej. auto 10.
  Qed.
  Lemma starts_with_spec x y c s t : arg_string w (ev x c) s -> arg_string w (ev y c) t ->
    exists b, ev (ECall (lit "starts-with") [x; y]) c = ([IBool b], Done) /\ (b = true <-> exists q, s = t ++ q).
  Proof.
    intros Hx Hy. rewrite eval_call. change (call w (dyn_of w n) (lit "starts-with") [x; y] (map ev [x; y]) c) with
      (string_arg w (ev x c) (fun full => string_arg w (ev y c) (fun part => yield1 (IBool (prefixb (str_of w part) (str_of w full)))))).
    destruct (args2 x y c s t Hx Hy (fun full part => yield1 (IBool (prefixb (str_of w part) (str_of w full))))) as (i & j & _ & Ei & _ & Ej & ->). rewrite Ei, Ej.
    eexists. split; [reflexivity|]. apply prefixb_iff.
  Qed.
  Lemma contains_spec x y c s t : arg_string w (ev x c) s -> arg_string w (ev y c) t ->
    exists b, ev (ECall (lit "contains") [x; y]) c = ([IBool b], Done) /\ (b = true <-> exists p q, s = p ++ t ++ q).
  Proof.
    intros Hx Hy. rewrite eval_call. change (call w (dyn_of w n) (lit "contains") [x; y] (map ev [x; y]) c) with
      (string_arg w (ev x c) (fun full => string_arg w (ev y c) (fun part => yield1 (IBool (match find_sub (str_of w part) (str_of w full) with Some _ => true | None => false end))))).
    destruct (args2 x y c s t Hx Hy (fun full part => yield1 (IBool (match find_sub (str_of w part) (str_of w full) with Some _ => true | None => false end)))) as (i & j & _ & Ei & _ & Ej & ->). rewrite Ei, Ej.
    eexists. split; [reflexivity|]. destruct (find_sub t s) as [k|] eqn:E.
    - split; [intros _|reflexivity]. destruct (find_sub_some _ _ _ E) as [H _]. eauto.
    - split; [discriminate|]. intros (p & q & H). exfalso. eapply find_sub_none; eauto.
  Qed.
  Lemma before_spec x y c s t : arg_string w (ev x c) s -> arg_string w (ev y c) t ->
    (t = [] -> ev (ECall (lit "substring-before") [x; y]) c = ([], Exn ValueErr)) /\
    (forall p q, t <> [] -> first_at t s p q -> ev (ECall (lit "substring-before") [x; y]) c = ([IStr p], Done)) /\
    (t <> [] -> (forall p q, s <> p ++ t ++ q) -> exists i, string_value w i s /\ ev (ECall (lit "substring-before") [x; y]) c = ([i], Done)).
  Proof.
    intros Hx Hy.
    set (k := fun full part => match str_of w part with [] => raise ValueErr | p => match find_sub p (str_of w full) with Some i => yield1 (IStr (firstn i (str_of w full))) | None => yield1 full end end).
    assert (E : ev (ECall (lit "substring-before") [x; y]) c = string_arg w (ev x c) (fun full => string_arg w (ev y c) (fun part => k full part))) by (rewrite eval_call; reflexivity).
    destruct (args2 x y c s t Hx Hy k) as (i & j & Hi & Ei & Hj & Ej & E2). rewrite E, E2. unfold k. rewrite Ei, Ej. split; [|split].
    - intros ->. reflexivity.
    - intros p q Ht Hf. destruct (find_sub_first _ _ _ _ Hf) as (F1 & F2 & F3). destruct t; [congruence|]. rewrite F1, F2. reflexivity.
    - intros Ht Hn. destruct t as [|ch t]; [congruence|]. destruct (find_sub (ch :: t) s) as [z|] eqn:F; [|exists i; auto]. exfalso. destruct (find_sub_some _ _ _ F) as [G _]. eapply Hn; eauto.
  Qed.
  Lemma after_spec x y c s t : arg_string w (ev x c) s -> arg_string w (ev y c) t ->
    (t = [] -> ev (ECall (lit "substring-after") [x; y]) c = ([], Exn ValueErr)) /\
    (forall p q, t <> [] -> first_at t s p q -> ev (ECall (lit "substring-after") [x; y]) c = ([IStr q], Done)) /\
    (t <> [] -> (forall p q, s <> p ++ t ++ q) -> ev (ECall (lit "substring-after") [x; y]) c = ([IStr []], Done)).
  Proof.
    intros Hx Hy.
    set (k := fun full part => match str_of w part with [] => raise ValueErr | p => match find_sub p (str_of w full) with Some i => yield1 (IStr (skipn (i + length p) (str_of w full))) | None => yield1 (IStr []) end end).
    assert (E : ev (ECall (lit "substring-after") [x; y]) c = string_arg w (ev x c) (fun full => string_arg w (ev y c) (fun part => k full part))) by (rewrite eval_call; reflexivity).
    destruct (args2 x y c s t Hx Hy k) as (i & j & Hi & Ei & Hj & Ej & E2). rewrite E, E2. unfold k. rewrite Ei, Ej. split; [|split].
    - intros ->. reflexivity.
    - intros p q Ht Hf. destruct (find_sub_first _ _ _ _ Hf) as (F1 & F2 & F3). destruct t; [congruence|]. rewrite F1, F3. reflexivity.
    - intros Ht Hn. destruct t as [|ch t]; [congruence|]. destruct (find_sub (ch :: t) s) as [z|] eqn:F; [|auto]. exfalso. destruct (find_sub_some _ _ _ F) as [G _]. eapply Hn; eauto.
  Qed.
  (** substring with literal arguments *)
  Lemma substring_eq x a b c s : arg_string w (ev x c) s ->
    ev (ECall (lit "substring") [x; ELit (LInt a); ELit (LInt b)]) c = ([IStr (py_slice s (a - 1) (a - 1 + b))], Done).
  Proof.
    intros Hx. rewrite eval_call. set (k := fun full => yield1 (IStr (py_slice (str_of w full) (a - 1) (a - 1 + b)))).
    change (string_arg w (ev x c) k = ([IStr (py_slice s (a - 1) (a - 1 + b))], Done)). destruct (string_arg_eq _ _ k Hx) as (i & _ & E & ->). unfold k. rewrite E. reflexivity.
  Qed.
  Lemma slice_plain s (i j : nat) : py_slice s (Z.of_nat i) (Z.of_nat i + Z.of_nat j) = firstn j (skipn i s).
  Proof.
    unfold py_slice, clamp. destruct (Z.ltb_spec (Z.of_nat i) 0); [lia|]. destruct (Z.ltb_spec (Z.of_nat i + Z.of_nat j) 0); [lia|].
    destruct (Nat.le_gt_cases i (length s)) as [Hi|Hi].
    - replace (Z.to_nat (Z.min (Z.of_nat i) (Z.of_nat (length s)))) with i by lia.
      destruct (Nat.le_gt_cases (i + j) (length s)) as [Hj|Hj].
      + replace (Z.to_nat (Z.min (Z.of_nat i + Z.of_nat j) (Z.of_nat (length s)))) with (i + j) by lia. rewrite skipn_firstn_comm. f_equal. lia.
      + replace (Z.to_nat (Z.min (Z.of_nat i + Z.of_nat j) (Z.of_nat (length s)))) with (length s) by lia. rewrite firstn_all. symmetry. apply firstn_all2. rewrite skipn_length. lia.
    - replace (Z.to_nat (Z.min (Z.of_nat i) (Z.of_nat (length s)))) with (length s) by lia.
      rewrite (skipn_all2 (n := i) s) by lia. rewrite firstn_nil. apply skipn_all2. rewrite firstn_length. lia.
  Qed.
  Lemma slice_zero s (k : nat) : 0 < k -> k <= length s -> py_slice s (-1) (-1 + Z.of_nat k) = [].
  Proof.
    intros H1 H2. unfold py_slice, clamp. cbn [Z.ltb]. destruct (Z.ltb_spec (-1) 0); [|lia]. destruct (Z.ltb_spec (-1 + Z.of_nat k) 0); [lia|].
    apply skipn_all2. rewrite firstn_length. lia.
  Qed.
  Lemma slice_any s z1 z2 p q : slice_pos (length s) z1 p -> slice_pos (length s) z2 q -> py_slice s z1 z2 = firstn (q - p) (skipn p s).
  Proof.
    assert (K : forall z r, slice_pos (length s) z r -> clamp z (length s) = r).
    { intros z r H. unfold clamp. inversion H; subst; match goal with |- context [(?y <? 0)%Z] => destruct (Z.ltb_spec y 0) end; lia. }
    intros H1 H2. unfold py_slice. rewrite (K _ _ H1), (K _ _ H2). rewrite firstn_skipn_comm.
    destruct (Nat.le_gt_cases p q) as [L|L]; [f_equal; f_equal; lia|]. rewrite !skipn_all2; auto; rewrite firstn_length; lia.
  Qed.
  Lemma int_arg_whole l z : whole_number w l z -> int_arg w (ELit l) = inl z.
  Proof.
    intros H. assert (K : forall f y, position_of (IFlt f) y -> number_of (IFlt f) = Some (inl y)).
    { intros f y G. inversion G; subst; cbn; destruct (Z.leb_spec 0 e); try lia; reflexivity. }
    inversion H as [y|f y G|t f y F G]; subst; cbn [int_arg]; [reflexivity|rewrite (K _ _ G); reflexivity|rewrite F, (K _ _ G); reflexivity].
  Qed.
  Lemma substring_any x l1 l2 c s a b p q : arg_string w (ev x c) s -> whole_number w l1 a -> whole_number w l2 b ->
    slice_pos (length s) (a - 1) p -> slice_pos (length s) (a - 1 + b) q ->
    ev (ECall (lit "substring") [x; ELit l1; ELit l2]) c = ([IStr (firstn (q - p) (skipn p s))], Done).
  Proof.
    intros Hx H1 H2 Hp Hq. rewrite eval_call. rewrite <- (slice_any _ _ _ _ _ Hp Hq).
    set (k := fun full => match int_arg w (ELit l1) with inr e => raise e | inl i => match int_arg w (ELit l2) with inr e => raise e | inl n => yield1 (IStr (py_slice (str_of w full) (i - 1) (i - 1 + n))) end end).
    change (string_arg w (ev x c) k = ([IStr (py_slice s (a - 1) (a - 1 + b))], Done)). destruct (string_arg_eq _ _ k Hx) as (i & _ & E & ->). unfold k.
    rewrite (int_arg_whole _ _ H1), (int_arg_whole _ _ H2), E. reflexivity.
  Qed.
  Lemma substring_computed x y z c s : arg_string w (ev x c) s -> (forall l, y <> ELit l) ->
    ev (ECall (lit "substring") [x; y; z]) c = ([], Exn RuntimeErr).
  Proof.
    intros Hx Hy. rewrite eval_call.
    set (k := fun full => match int_arg w y with inr e => raise e | inl i => match int_arg w z with inr e => raise e | inl n => yield1 (IStr (py_slice (str_of w full) (i - 1) (i - 1 + n))) end end).
    change (string_arg w (ev x c) k = ([], Exn RuntimeErr)). destruct (string_arg_eq _ _ k Hx) as (i & _ & E & ->). unfold k.
    destruct y; cbn [int_arg]; try reflexivity. destruct (Hy _ eq_refl).
  Qed.
  Lemma concat_eq l c outs ss : Forall2 (fun e o => ev e c = (o, Done)) l outs -> Forall2 (string_value w) (concat outs) ss ->
    ev (ECall (lit "concat") l) c = ([IStr (concat ss)], Done).
  Proof.
    intros H1 H2. rewrite eval_call.
    assert (E : call w (dyn_of w n) (lit "concat") l (map ev l) c = collected (seq_all (map (fun x => x c) (map ev l))) (fun m => yield1 (IStr (flat_map (the_str w) m)))).
    { unfold call. cbn [dict_get builtins]. change (dict_get builtins (lit "concat")) with (Some FnConcat). destruct (map ev l) as [|? [|? [|? ?]]]; reflexivity. }
    rewrite E, map_map. rewrite (seq_all_done _ outs) by (apply Forall2_map_l; exact H1). cbn [collected]. unfold yield1. do 3 f_equal. f_equal.
    clear - H2. induction H2 as [|i s m ss H _ IH]; cbn; [reflexivity|]. rewrite (proj1 (the_str_value w i s H)), IH. reflexivity.
  Qed.
  Lemma count_eq e c l : ev e c = (l, Done) -> ev (ECall (lit "count") [e]) c = ([IInt (Z.of_nat (length l))], Done).
  Proof. intros E. rewrite eval_call. change (collected (ev e c) (fun l => yield1 (IInt (Z.of_nat (length l)))) = ([IInt (Z.of_nat (length l))], Done)). rewrite E. reflexivity. Qed.
  Lemma seq_eq l c outs : Forall2 (fun e o => ev e c = (o, Done)) l outs -> ev (ESeq l) c = (concat outs, Done).
  Proof. intros H. rewrite eval_seq. apply seq_all_done, Forall2_map_l, H. Qed.
  Lemma seq_fails l1 e l2 c outs o f : f <> Done -> Forall2 (fun e o => ev e c = (o, Done)) l1 outs -> ev e c = (o, f) -> ev (ESeq (l1 ++ e :: l2)) c = (concat outs ++ o, f).
  Proof.
    intros Hf H E. rewrite eval_seq. induction H as [|e1 o1 l1 outs H1 _ IH]; cbn [app map seq_all].
    - rewrite E. destruct f; [congruence|reflexivity|reflexivity].
    - rewrite H1. cbn [seq2]. rewrite IH. cbn [concat]. rewrite app_assoc. reflexivity.
  Qed.
  Lemma path_eq l r c items outs : ev l c = (items, Done) ->
    Forall2 (fun i o => exists j, moved w c i j /\ ev r j = (o, Done)) items outs -> ev (EBin l OpPath r) c = (concat outs, Done).
  Proof.
    intros E H. rewrite eval_bin. cbn [binary]. unfold right_of, bind. rewrite E. cbn [fst snd]. apply bindl_done. clear E.
    induction H as [|i o items outs (j & Hj & Ho) _ IH]; constructor; auto. apply copy_moved in Hj. rewrite Hj. exact Ho.
  Qed.
  Lemma path_falsy l r c i : ev l c = ([i], Done) -> falsy w i -> ev (EBin l OpPath r) c = ev r c.
  Proof.
    intros E H. rewrite eval_bin. cbn [binary]. unfold right_of, bind. rewrite E. cbn [fst snd bindl].
    rewrite (proj2 (copy_moved w c i c)) by (right; auto). destruct (ev r c) as [o []]; rewrite ?app_nil_r; reflexivity.
  Qed.
  Lemma deep_step l ax t c : ev (EBin l OpDeep (EStep ax t)) c = ev (EBin l OpPath (EStep AxDescendantOrSelf t)) c.
  Proof. rewrite !eval_bin. cbn [binary]. unfold right_of, bind. apply bindl_ext. intros i. symmetry. apply eval_step. Qed.
  Lemma deep_other l r c : (forall ax t, r <> EStep ax t) -> ev (EBin l OpDeep r) c = ev (EBin l OpPath r) c.
  Proof. intros H. rewrite !eval_bin. cbn [binary]. unfold right_of. destruct r; try reflexivity. exfalso. eapply H; reflexivity. Qed.
  Lemma deep_below l ax t c addrs : no_empty_text w -> Forall (fun a => subtree D a <> None) addrs -> ev l c = (map INode addrs, Done) ->
    exists groups, Forall2 (fun a g => listing D (fun b v => (b = a \/ above a b) /\ passes t v) g) addrs groups /\
      ev (EBin l OpDeep (EStep ax t)) c = (concat (map nodes groups), Done).
  Proof.
    intros He Ha E. rewrite deep_step.
    assert (exists groups, Forall2 (fun a g => listing D (fun b v => (b = a \/ above a b) /\ passes t v) g) addrs groups /\
      Forall2 (fun i o => exists j, moved w c i j /\ ev (EStep AxDescendantOrSelf t) j = (o, Done)) (map INode addrs) (map nodes groups)) as (groups & H1 & H2).
    { clear E. induction Ha as [|a addrs H _ (groups & I1 & I2)]; [exists []; split; constructor|]. destruct (subtree D a) as [u|] eqn:F; [|congruence].
      destruct (descendant_or_self_axis w n t a u He F) as (g & Hg & Eg). exists (g :: groups). split; [constructor; auto|]. cbn [map]. constructor; [|auto].
      exists (INode a). split; [|rewrite eval_step; exact Eg]. left. split; [|reflexivity]. apply truthy_iff. cbn. unfold text_at, node_at. rewrite F.
      destruct u as [|[|ch s]]; try reflexivity. exfalso. eapply He; eauto. }
    exists groups. split; [auto|]. eapply path_eq; eauto.
  Qed.
  Lemma boolean_spec e c : (ev e c = ([], Done) -> ev (ECall (lit "boolean") [e]) c = ([IBool false], Done)) /\
    (forall i l f, ev e c = (i :: l, f) -> exists b, ev (ECall (lit "boolean") [e]) c = ([IBool b], Done) /\ (b = false <-> falsy w i)).
  Proof.
    assert (E : ev (ECall (lit "boolean") [e]) c = first (ev e c) (yield1 (IBool false)) (fun i => yield1 (IBool (to_boolean w i)))) by (rewrite eval_call; reflexivity).
    rewrite E. split; [intros ->; reflexivity|]. intros i l f ->. cbn [first]. exists (to_boolean w i). split; [reflexivity|]. rewrite to_boolean_truthy. apply truthy_false.
  Qed.
  Lemma not_spec e c b : ev (ECall (lit "boolean") [e]) c = ([IBool b], Done) -> ev (ECall (lit "not") [e]) c = ([IBool (negb b)], Done).
  Proof.
    assert (E : ev (ECall (lit "boolean") [e]) c = first (ev e c) (yield1 (IBool false)) (fun i => yield1 (IBool (to_boolean w i)))) by (rewrite eval_call; reflexivity).
    assert (E' : ev (ECall (lit "not") [e]) c = first (ev e c) (yield1 (IBool true)) (fun i => yield1 (IBool (negb (to_boolean w i))))) by (rewrite eval_call; reflexivity).
    rewrite E, E'. destruct (ev e c) as [[|i l] []]; cbn [first]; intros H; inversion H; reflexivity.
  Qed.
  Lemma connectives l r c i l' f j r' f' : ev l c = (i :: l', f) -> ev r c = (j :: r', f') ->
    ev (EBin l OpOr r) c = ([if truthy w i then i else j], Done) /\ ev (EBin l OpAnd r) c = ([if truthy w i then j else i], Done).
  Proof.
    intros El Er. rewrite !eval_bin. cbn [binary]. unfold right_of. rewrite El, Er. cbn [first]. destruct (truthy w i); split; reflexivity.
  Qed.
  Lemma connective_short l r c i l' f : ev l c = (i :: l', f) ->
    (~ falsy w i -> ev (EBin l OpOr r) c = ([i], Done)) /\ (falsy w i -> ev (EBin l OpAnd r) c = ([i], Done)).
  Proof.
    intros El. rewrite !eval_bin. cbn [binary]. rewrite El. cbn [first]. split; intros H; [apply truthy_iff in H|apply truthy_false in H]; rewrite H; reflexivity.
  Qed.
  Lemma empty_left op l r c : strict op -> ev l c = ([], Done) -> ev (EBin l op r) c = ([], Exn RuntimeErr).
  Proof. intros H El. rewrite !eval_bin. unfold strict in H. cbn in H. destruct H as [<-|[<-|[<-|[<-|[<-|[<-|[<-|[]]]]]]]]; cbn [binary]; rewrite ?El, ?(eval_here_nil w _ _ _ _ El); reflexivity. Qed.
  Lemma neg_never e c : exists f, ev (ENeg e) c = ([], f) /\ f <> Done /\ (forall i l g, ev e c = (i :: l, g) -> f = Exn TypeErr).
  Proof.
    rewrite eval_neg. destruct (ev e c) as [[|i l] []]; cbn [first raise]; eexists; (split; [reflexivity|]); (split; [discriminate|]); intros; congruence || reflexivity || discriminate.
  Qed.
  Lemma equality_spec l r c i ls rs x : ev l c = (i :: ls, Done) -> ev r c = (rs, Done) -> compared w i x -> (forall j, In j rs -> ~ is_node_item j) ->
    exists b, ev (EBin l OpEq r) c = ([IBool b], Done) /\ (b = true <-> exists j, In j rs /\ same_value x j).
  Proof.
    intros El Er Hc Hr. rewrite eval_bin. cbn [binary]. unfold right_of. rewrite El, Er. cbn [equality fst snd]. rewrite (plain_compared w i x Hc).
    destruct (eq_scan_spec w x rs (compared_plain w i x Hc) Hr) as (b & -> & Hb). exists b. split; [destruct b; reflexivity|auto].
  Qed.
  Lemma equality_node l r c i ls f pre j post g x : ev l c = (i :: ls, f) -> ev r c = (pre ++ j :: post, g) -> compared w i x -> is_node_item j ->
    (forall k, In k pre -> ~ is_node_item k /\ ~ same_value x k) -> ev (EBin l OpEq r) c = ([], Exn AttributeErr).
  Proof.
    intros El Er Hc Hj Hp. rewrite eval_bin. cbn [binary]. unfold right_of. rewrite El, Er. cbn [equality fst snd]. rewrite (plain_compared w i x Hc).
    rewrite (eq_scan_node w x _ (compared_plain w i x Hc) pre j post eq_refl Hj Hp). reflexivity.
  Qed.
  Lemma equality_empty l r c : ev l c = ([], Done) -> ev (EBin l OpEq r) c = ([IBool false], Done).
  Proof. intros El. rewrite eval_bin. cbn [binary]. rewrite El. reflexivity. Qed.
End Fun.

Lemma foreach_eq w n e y c s p items outs : arg_string w (eval w (S n) y c) s -> xparse w s = inl p -> eval w (S n) e c = (items, Done) ->
  Forall2 (fun i o => exists j, moved w c i j /\ eval w n p j = (o, Done)) items outs -> eval w (S n) (ECall (lit "for-each") [e; y]) c = (concat outs, Done).
Proof.
  intros Hy Hp Ee H. rewrite eval_call.
  set (k := fun i => match xparse w (str_of w i) with inr e => raise e | inl p => bind (eval w (S n) e c) (fun i => eval w n p (copy w c i)) end).
  change (string_arg w (eval w (S n) y c) k = (concat outs, Done)). destruct (string_arg_eq w _ _ k Hy) as (i & _ & E & ->). unfold k. rewrite E, Hp, Ee. unfold bind. cbn [fst snd].
  apply bindl_done. clear - H. induction H as [|i o items outs (j & Hj & Ho) _ IH]; constructor; auto. apply copy_moved in Hj. rewrite Hj. exact Ho.
Qed.
