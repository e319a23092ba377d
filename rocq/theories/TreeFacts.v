(** Serialisation and parsing. *)
From Verif Require Import PyStr CharClass Parser ParserS ParserM XTree Grammar ParserSpec ParserFrag ParserInv ParserGram ParserMore ParserVal ParserClass Tree TreeSpec.

(** ** String value *)
Lemma xml_value_text t : forall anc, xml_value t = flat_map event_text (tree_events anc t).
Proof.
  induction t as [n a ks IH|s] using xtree_ind'; intros anc; cbn [xml_value tree_events].
  - cbn [flat_map event_text app]. rewrite flat_map_app. cbn [flat_map event_text]. rewrite !app_nil_r.
    unfold py_join. induction IH as [|k ks Hk _ IHks]; [reflexivity|].
    cbn [map flat_map concat]. rewrite flat_map_app, <- IHks, (Hk (anc ++ [n])). reflexivity.
  - cbn. rewrite app_nil_r. reflexivity.
Qed.

Lemma strval_acc_value t : py_join (strval_acc t) = xml_value t.
Proof.
  induction t as [n a ks IH|s] using xtree_ind'; cbn [strval_acc xml_value].
  - unfold py_join in *. induction IH as [|k ks Hk _ IHks]; [reflexivity|].
    cbn [map flat_map concat]. rewrite concat_app, IHks. f_equal.
    destruct k; [exact Hk|]. cbn. apply app_nil_r.
  - cbn. apply app_nil_r.
Qed.
Lemma strval_value t : strval t = xml_value t.
Proof. destruct t; [apply strval_acc_value|reflexivity]. Qed.

(** ** Escaping *)
Lemma replace_flat {A} c r (f : A -> str) s : replace_char c r (flat_map f s) = flat_map (fun x => replace_char c r (f x)) s.
Proof.
  unfold replace_char. induction s as [|x s IH]; [reflexivity|]. cbn [flat_map]. rewrite <- IH. apply flat_map_app.
Qed.

Definition esc1 (c : chr) : str :=
  if (c =? c_amp)%N then lit "&amp;" else if (c =? c_gt)%N then lit "&gt;" else if (c =? c_lt)%N then lit "&lt;" else [c].
Lemma py_escape_map s : py_escape s = flat_map esc1 s.
Proof.
  unfold py_escape. unfold replace_char at 3. rewrite !replace_flat.
  apply flat_map_ext. intros c. unfold esc1.
  destruct (c =? c_amp)%N eqn:E1; [reflexivity|].
  unfold replace_char; cbn [flat_map app]. destruct (c =? c_gt)%N eqn:E2; [reflexivity|].
  cbn [flat_map app]. rewrite app_nil_r. reflexivity.
Qed.

Definition esc2 (c : chr) : str :=
  if (c =? c_nl)%N then lit "&#10;" else if (c =? c_cr)%N then lit "&#13;" else if (c =? c_tab)%N then lit "&#9;" else esc1 c.
Definition quote_data (s : str) : str := flat_map esc2 s.
Lemma py_quoteattr_data s : py_quoteattr s =
  if char_in c_dq s
  then if char_in c_sq s then [c_dq] ++ flat_map (fun c => if (c =? c_dq)%N then lit "&quot;" else esc2 c) s ++ [c_dq]
       else [c_sq] ++ quote_data s ++ [c_sq]
  else [c_dq] ++ quote_data s ++ [c_dq].
Proof.
  unfold py_quoteattr. cbv zeta.
  assert (Hd : replace_char c_tab (lit "&#9;") (replace_char c_cr (lit "&#13;") (replace_char c_nl (lit "&#10;") (py_escape s))) = quote_data s).
  { rewrite py_escape_map, !replace_flat.
    apply flat_map_ext. intros c. unfold esc2.
    destruct (c =? c_nl)%N eqn:E1; [apply N.eqb_eq in E1; subst; reflexivity|].
    destruct (c =? c_cr)%N eqn:E2; [apply N.eqb_eq in E2; subst; reflexivity|].
    destruct (c =? c_tab)%N eqn:E3; [apply N.eqb_eq in E3; subst; reflexivity|].
    unfold esc1. destruct (c =? c_amp)%N; [reflexivity|]. destruct (c =? c_gt)%N; [reflexivity|].
    destruct (c =? c_lt)%N; [reflexivity|]. unfold replace_char; cbn [flat_map app]. rewrite E1. cbn [flat_map app]. rewrite E2. cbn [flat_map app]. rewrite E3. reflexivity. }
  rewrite Hd.
  assert (Hin : forall q, q = c_dq \/ q = c_sq -> char_in q (quote_data s) = char_in q s).
  { intros q Hq. clear Hd. unfold char_in, quote_data. induction s as [|c s IH]; [reflexivity|].
    cbn [flat_map existsb]. rewrite existsb_app, IH. f_equal. 
    assert (Hn : forall x, x <> q -> (q =? x)%N = false) by (intros x Hx; apply N.eqb_neq; congruence).
    unfold esc2, esc1.
    repeat match goal with |- context [(c =? ?k)%N] => 
      let E := fresh in destruct (c =? k)%N eqn:E; [apply N.eqb_eq in E; subst c; destruct Hq as [->| ->]; reflexivity|] end.
    cbn. apply orb_false_r. }
  rewrite !Hin by auto.
  assert (Hq : replace_char c_dq (lit "&quot;") (quote_data s) = flat_map (fun c => if (c =? c_dq)%N then lit "&quot;" else esc2 c) s).
  { unfold quote_data. rewrite replace_flat. apply flat_map_ext. intros c. unfold esc2, esc1.
    repeat match goal with |- context [(c =? ?k)%N] => 
      let E := fresh in destruct (c =? k)%N eqn:E; [apply N.eqb_eq in E; subst c; reflexivity|] end.
    unfold replace_char; cbn [flat_map app]. repeat match goal with H : (c =? _)%N = false |- _ => rewrite H end. reflexivity. }
  rewrite Hq. reflexivity.
Qed.

Lemma esc1_char c : c <> c_amp -> c <> c_gt -> c <> c_lt -> esc1 c = [c].
Proof. intros H1 H2 H3. unfold esc1. apply N.eqb_neq in H1, H2, H3. rewrite H1, H2, H3. reflexivity. Qed.

Lemma cdata_escape stop (p : chr -> bool) (f : chr -> str) s :
  (forall c, In c s -> (f c = [c] /\ p c = is_character c /\ droppable stop c) \/ (is_character c = true /\ exists b, f c = c_amp :: b ++ [c_semi] /\ refers b c)) ->
  cdata (droppable stop) p (flat_map f s) (filter is_character s).
Proof.
  induction s as [|c s IH]; intros H; [constructor|]. cbn [flat_map filter].
  assert (IH' := IH (fun x Hx => H x (or_intror Hx))).
  destruct (H c (or_introl eq_refl)) as [(-> & Hp & Hd)|(Hc & b & -> & Hr)].
  - destruct (is_character c); [apply cd_char|apply cd_drop]; auto.
  - rewrite Hc. cbn [app]. rewrite <- app_assoc. cbn [app]. apply cd_ref; auto.
Qed.

Lemma char_dec c : c = c_amp \/ c = c_gt \/ c = c_lt \/ (c <> c_amp /\ c <> c_gt /\ c <> c_lt).
Proof. destruct (N.eq_dec c c_amp), (N.eq_dec c c_gt), (N.eq_dec c c_lt); tauto. Qed.

Lemma bool_iff a b : (a = true <-> b = true) -> a = b.
Proof. destruct a, b; intuition congruence. Qed.

Lemma escape_cdata s : cdata (droppable c_lt) is_datachar (py_escape s) (filter is_character s).
Proof.
  rewrite py_escape_map. apply cdata_escape. intros c _.
  destruct (char_dec c) as [->|[->|[->|(H1 & H2 & H3)]]].
  - right. split; [reflexivity|]. exists (lit "amp"). split; [reflexivity|constructor].
  - right. split; [reflexivity|]. exists (lit "gt"). split; [reflexivity|constructor].
  - right. split; [reflexivity|]. exists (lit "lt"). split; [reflexivity|constructor].
  - left. split; [apply esc1_char; auto|]. split; [|split; auto].
    apply bool_iff. rewrite datachar_iff. tauto.
Qed.

Lemma char_in_In c s : char_in c s = true <-> In c s.
Proof.
  unfold char_in. rewrite existsb_exists. split.
  - intros (x & H1 & H2). apply N.eqb_eq in H2. subst. exact H1.
  - intros H. exists c. split; auto. apply N.eqb_refl.
Qed.
Lemma char_in_not c s : char_in c s = false <-> ~ In c s.
Proof. rewrite <- char_in_In. destruct (char_in c s); intuition congruence. Qed.

Lemma value_escape q s (f : chr -> str) : is_quote q = true -> plain_value s ->
  (forall c, c <> q -> f c = esc2 c) -> (In q s -> q = c_dq /\ f q = lit "&quot;") ->
  cdata (droppable q) (value_char q) (flat_map f s) (filter is_character s).
Proof.
  intros Hq (Ht & Hn & Hr) Hf Hfq. apply cdata_escape. intros c Hc.
  destruct (N.eq_dec c q) as [->|Hcq].
  { destruct (Hfq Hc) as [-> Hl]. right. split; [reflexivity|]. exists (lit "quot"). split; [exact Hl|constructor]. }
  rewrite Hf by auto.
  assert (Hc1 : (c =? c_nl)%N = false) by (apply N.eqb_neq; intros ->; auto).
  assert (Hc2 : (c =? c_cr)%N = false) by (apply N.eqb_neq; intros ->; auto).
  assert (Hc3 : (c =? c_tab)%N = false) by (apply N.eqb_neq; intros ->; auto).
  unfold esc2. rewrite Hc1, Hc2, Hc3.
  destruct (char_dec c) as [->|[->|[->|(H1 & H2 & H3)]]].
  - right. split; [reflexivity|]. exists (lit "amp"). split; [reflexivity|constructor].
  - right. split; [reflexivity|]. exists (lit "gt"). split; [reflexivity|constructor].
  - right. split; [reflexivity|]. exists (lit "lt"). split; [reflexivity|constructor].
  - left. split; [apply esc1_char; auto|]. split; [|split; auto].
    apply N.eqb_neq in Hc1, Hc3. apply bool_iff. rewrite value_char_iff by auto. tauto.
Qed.

Lemma quoteattr_cdata v : plain_value v -> exists q raw, py_quoteattr v = q :: raw ++ [q] /\ is_quote q = true /\
  cdata (droppable q) (value_char q) raw (filter is_character v).
Proof.
  intros Hv. rewrite py_quoteattr_data. destruct (char_in c_dq v) eqn:E1; [destruct (char_in c_sq v) eqn:E2|].
  - exists c_dq, (flat_map (fun c => if (c =? c_dq)%N then lit "&quot;" else esc2 c) v). split; [reflexivity|]. split; [reflexivity|].
    apply value_escape; auto. intros c Hc. apply N.eqb_neq in Hc. rewrite Hc. reflexivity.
  - exists c_sq, (quote_data v). split; [reflexivity|]. split; [reflexivity|]. apply value_escape; auto.
    intros H. apply char_in_In in H. congruence.
  - exists c_dq, (quote_data v). split; [reflexivity|]. split; [reflexivity|]. apply value_escape; auto.
    intros H. apply char_in_In in H. congruence.
Qed.

(** ** Serialisations are lenient documents *)
Definition norm_attrs (a : dict str) : dict str := map (fun kv => (fst kv, filter is_character (snd kv))) a.

Lemma attrs_lenient a : (forall k v, In (k, v) a -> name k /\ plain_value v) -> NoDup (map fst a) ->
  forall d, (forall k, In k (map fst a) -> ~ In k (map fst d)) ->
  lattrs (concat (attr_bits a)) d (d ++ norm_attrs a).
Proof.
  induction a as [|[k v] a IH]; intros Ha Hn d Hd.
  - cbn. rewrite app_nil_r. constructor. intros c [].
  - unfold attr_bits in *. cbn [flat_map fst snd app concat norm_attrs map].
    cbn [map fst] in Hn. inversion Hn as [|x l Hx Hn']; subst.
    destruct (Ha k v (or_introl eq_refl)) as [Hk Hv].
    destruct (quoteattr_cdata v Hv) as (q & raw & -> & Hq & Hc).
    pose proof Hk as Hk'. destruct Hk' as (c & r & -> & Hc0 & Hr).
    cbn [app]. rewrite <- !app_assoc. cbn [app].
    replace (c_sp :: c :: r ++ c_eq :: q :: raw ++ q :: concat (flat_map (fun kv : str * str => [[c_sp]; fst kv; [c_eq]; py_quoteattr (snd kv)]) a))
      with ([c_sp] ++ (c :: r ++ [] ++ c_eq :: q :: raw ++ [q]) ++ concat (flat_map (fun kv : str * str => [[c_sp]; fst kv; [c_eq]; py_quoteattr (snd kv)]) a))
      by (cbn [app]; rewrite <- !app_assoc; cbn [app]; rewrite <- !app_assoc; reflexivity).
    eapply las_cons.
    + intros x [<-|[]]. reflexivity.
    + exists c. eexists. split; [reflexivity|exact Hc0].
    + eapply la_value; [exact Hr|intros x []|exact Hq|exact Hc].
    + rewrite dict_set_new by (apply Hd; left; auto).
      replace (d ++ (c :: r, filter is_character v) :: map (fun kv : str * list N => (fst kv, filter is_character (snd kv))) a)
        with ((d ++ [(c :: r, filter is_character v)]) ++ norm_attrs a) by (rewrite <- app_assoc; reflexivity).
      apply IH; auto.
      * intros k0 v0 Hi. apply Ha. right; auto.
      * intros k0 Hk0. rewrite map_app, in_app_iff. cbn. intros [Hi|[Hi|[]]].
        -- apply (Hd k0); auto. right; auto.
        -- subst k0. auto.
Qed.

Lemma attrs_head a : ~ head_is is_namechar (concat (attr_bits a)).
Proof. intros (c & r & H & Hc). destruct a as [|[k v] a]; cbn in H; inversion H; subst; discriminate. Qed.

Lemma text_node_app v v' : cons_text v (text_node v') = text_node (v ++ v').
Proof. destruct v as [|c v]; cbn; [reflexivity|]. destruct v'; cbn; [rewrite app_nil_r|]; reflexivity. Qed.
Lemma text_node_cons v v' e ks : (exists n a l, e = XE n a l) -> cons_text v (text_node v' ++ e :: ks) = text_node (v ++ v') ++ e :: ks.
Proof. intros (n & a & l & ->). destruct v as [|c v]; cbn; [reflexivity|]. destruct v'; cbn; [rewrite app_nil_r|]; reflexivity. Qed.

Lemma content_text raw v c ks : cdata (droppable c_lt) is_datachar raw v -> lenient_content c ks ->
  lenient_content (raw ++ c) (cons_text v ks).
Proof.
  intros Hr Hc. destruct Hc as [raw' v' Hc|raw' v' e t rest ks Hc He Hk].
  - rewrite text_node_app. constructor. apply cdata_app; auto.
  - rewrite text_node_cons by (inversion He; eauto). rewrite app_assoc. constructor; auto. apply cdata_app; auto.
Qed.
Lemma content_elem e t c ks : lenient_elem e t -> lenient_content c ks -> lenient_content (e ++ c) (t :: ks).
Proof. intros He Hc. apply (lc_elem [] [] e t c ks); auto. constructor. Qed.

Lemma flat_map_Forall {A B} (f g : A -> list B) l : Forall (fun x => f x = g x) l -> flat_map f l = flat_map g l.
Proof. induction 1 as [|x l H _ IH]; [reflexivity|]. cbn. rewrite H, IH. reflexivity. Qed.

Lemma encode_elem n a ks : xml_encode (XE n a ks) =
  (c_lt :: n ++ concat (attr_bits a) ++ [c_gt]) ++
  flat_map (fun k => match k with XE _ _ _ => xml_encode k | XT s => py_escape s end) ks ++
  (c_lt :: c_slash :: n ++ [c_gt]).
Proof.
  unfold xml_encode. cbn [element_encode indent_bits]. unfold py_join. rewrite !concat_app.
  assert (Hd : forall d t, element_encode [] d t = element_encode [] 0 t).
  { intros d t. revert d. induction t as [n0 a0 ks0 IH|s] using xtree_ind'; intros d; [|reflexivity]. cbn [element_encode indent_bits].
    rewrite (flat_map_Forall _ (fun k => match k with XE _ _ _ => [element_encode [] 1 k] | XT s => [py_escape s] end) ks0); [reflexivity|].
    eapply Forall_impl; [|exact IH]. intros k Hk. destruct k; [|reflexivity]. rewrite (Hk (S d)), (Hk 1). reflexivity. }
  assert (Hk : concat (flat_map (fun k => match k with XE _ _ _ => [element_encode [] 1 k] | XT s => [py_escape s] end) ks) =
     flat_map (fun k => match k with XE _ _ _ => element_encode [] 0 k | XT s => py_escape s end) ks).
  { induction ks as [|k ks IH]; [reflexivity|]. cbn [flat_map]. rewrite concat_app, IH. f_equal.
    destruct k; cbn [concat]; [|apply app_nil_r]. rewrite app_nil_r. apply Hd. }
  rewrite Hk. cbn [concat app lit]. rewrite !app_nil_r. rewrite <- !app_assoc. cbn [app]. reflexivity.
Qed.

Lemma encode_lenient t : writable t -> match t with XE _ _ _ => lenient_elem (xml_encode t) (normal t) | XT _ => True end.
Proof.
  induction t as [n a ks IH|s] using xtree_ind'; [|auto]. intros Hw. inversion Hw as [n' a' ks' Hn Hnd Ha Hk|]; subst.
  rewrite encode_elem. cbn [normal]. constructor.
  - replace (c_lt :: n ++ concat (attr_bits a) ++ [c_gt]) with (c_lt :: [] ++ n ++ concat (attr_bits a) ++ [c_gt]) by reflexivity.
    apply ls; auto.
    + intros x [].
    + right; auto.
    + apply (attrs_lenient a Ha Hnd []). auto.
    + apply attrs_head.
    + intros ->. destruct Hn as (c & r & H & _). discriminate.
  - clear - IH Hk. induction IH as [|k ks Hk1 _ IHks].
    + apply (lc_last [] []). constructor.
    + cbn [flat_map fold_right].
      assert (IH' := IHks (fun x Hx => Hk x (or_intror Hx))). specialize (Hk1 (Hk k (or_introl eq_refl))).
      destruct k as [n a l|s].
      * change (normal (XE n a l)) with (XE n (norm_attrs a) (fold_right (fun k acc => cons_node (normal k) acc) [] l)) in *.
        cbn [cons_node]. apply content_elem; auto.
      * cbn [normal cons_node]. apply content_text; auto. apply escape_cdata.
  - apply (le [] [] n []); try (intros x []). right; auto.
Qed.

Theorem encode_doc n a ks : writable (XE n a ks) -> lenient_doc (xml_encode (XE n a ks)) (normal (XE n a ks)).
Proof.
  intros H. exists [], (xml_encode (XE n a ks)), []. cbn [app]. rewrite app_nil_r. split; [reflexivity|].
  split; [intros x []|]. split; [intros x []|]. apply (encode_lenient _ H).
Qed.

(** ** Normalised trees *)
Lemma filter_all {A} (p : A -> bool) l : (forall x, In x l -> p x = true) -> filter p l = l.
Proof. induction l as [|x l IH]; intros H; cbn; [reflexivity|]. rewrite H by (left; auto). f_equal. apply IH. intros y Hy; apply H; right; auto. Qed.

Lemma normal_id t : normalised t -> normal t = t.
Proof.
  induction t as [n a ks IH|s] using xtree_ind'; intros H; inversion H as [n' a' ks' Ha Hs Hadj Hk|s' Hs]; subst.
  - cbn [normal]. f_equal.
    + clear - Ha. induction a as [|[k v] a IHa]; [reflexivity|]. cbn. f_equal; [|apply IHa; intros k0 v0 Hi; eapply Ha; right; eauto].
      f_equal. apply filter_all. eapply Ha. left; reflexivity.
    + clear - IH Hs Hadj Hk. induction IH as [|k ks Hk1 _ IHks]; [reflexivity|]. cbn [fold_right].
      rewrite IHks.
      * rewrite Hk1 by (apply Hk; left; auto). destruct k as [n0 a0 l|s]; [reflexivity|].
        assert (s <> []) by (apply Hs; left; auto). cbn [cons_node]. destruct s; [congruence|]. cbn [cons_text].
        destruct ks as [|[n1 a1 l1|s2] ks]; try reflexivity. destruct Hadj.
      * intros s Hi. apply Hs. right; auto.
      * destruct k; cbn in Hadj; [exact Hadj|]. destruct ks as [|[|]]; auto; try (cbn; auto; fail). destruct Hadj.
      * intros x Hx. apply Hk. right; auto.
  - cbn. f_equal. apply filter_all. exact Hs.
Qed.

Lemma cons_text_in s ks s' : (forall x, In (XT x) ks -> x <> []) -> In (XT s') (cons_text s ks) -> s' <> [].
Proof.
  intros Hk Hi. destruct s as [|c s]; cbn in Hi; [apply Hk; auto|].
  destruct ks as [|[n a l|s2] ks]; cbn in Hi.
  - destruct Hi as [Hi|[]]. inversion Hi. discriminate.
  - destruct Hi as [Hi|[Hi|Hi]]; try discriminate; [inversion Hi; discriminate|]. apply Hk. right; auto.
  - destruct Hi as [Hi|Hi]; [inversion Hi; discriminate|]. apply Hk. right; auto.
Qed.
Lemma cons_text_adj s ks : no_adjacent_text ks -> no_adjacent_text (cons_text s ks).
Proof.
  destruct s as [|c s]; cbn; auto. destruct ks as [|[n a l|s2] ks]; cbn; auto.
Qed.

Lemma normal_normalised t : normalised (normal t).
Proof.
  induction t as [n a ks IH|s] using xtree_ind'; cbn [normal].
  - set (K := fold_right (fun k acc => cons_node (normal k) acc) [] ks).
    assert (HK : (forall s, In (XT s) K -> s <> []) /\ no_adjacent_text K /\ (forall k, In k K -> normalised k)).
    { unfold K. clear K. induction IH as [|k ks Hk _ (IH1 & IH2 & IH3)]; [cbn; repeat split; intros; tauto|]. cbn [fold_right].
      destruct (normal k) as [n0 a0 l0|s0] eqn:E; cbn [cons_node].
      - split; [intros s [Hs|Hs]; [discriminate|auto]|]. split; [exact IH2|]. intros x [<-|Hx]; auto.
      - split; [intros s; apply cons_text_in; auto|]. split; [apply cons_text_adj; auto|].
        inversion Hk as [|s' Hl]; subst. intros x Hx. destruct s0 as [|c s0]; cbn [cons_text] in Hx; [auto|].
        destruct (fold_right (fun k acc => cons_node (normal k) acc) [] ks) as [|[n1 a1 l1|s1] K]; cbn in Hx.
        + destruct Hx as [<-|[]]. constructor; auto.
        + destruct Hx as [<-|[<-|Hx]]; [constructor; auto|apply IH3; left; auto|apply IH3; right; auto].
        + destruct Hx as [<-|Hx]; [|apply IH3; right; auto].
          assert (Hs1 : normalised (XT s1)) by (apply IH3; left; auto). inversion Hs1 as [|s2 Hl1]; subst.
          constructor. intros y Hy. apply in_app_or with (l := c :: s0) in Hy as [Hy|Hy]; auto. }
    destruct HK as (H1 & H2 & H3). constructor; auto.
    intros k v Hi. apply in_map_iff in Hi as ([k0 v0] & He & _). cbn in He. inversion He; subst.
    intros c Hc. apply filter_In in Hc. apply Hc.
  - constructor. intros c Hc. apply filter_In in Hc. apply Hc.
Qed.

(** ** Escaped data (C34) *)
Lemma refs_split (f : chr -> str) s :
  (forall c, In c s -> f c = [c] /\ c <> c_amp \/ exists b x, f c = c_amp :: b ++ [c_semi] /\ ~ In c_amp b /\ refers b x) ->
  forall a b, flat_map f s = a ++ c_amp :: b -> exists body rest x, b = body ++ c_semi :: rest /\ refers body x.
Proof.
  induction s as [|c s IH]; intros H a b He.
  - destruct a; discriminate.
  - cbn [flat_map] in He. assert (IH' := IH (fun x Hx => H x (or_intror Hx))).
    destruct (H c (or_introl eq_refl)) as [[Hf Hn]|(bd & x & Hf & Hn & Hr)]; rewrite Hf in He.
    + destruct a as [|a0 a]; cbn in He; inversion He; subst; [congruence|]. eapply IH'; eauto.
    + cbn [app] in He. rewrite <- app_assoc in He. cbn [app] in He. destruct a as [|a0 a]; cbn in He; inversion He; subst; [eauto|].
      assert (Hs : exists a', flat_map f s = a' ++ c_amp :: b).
      { clear - H2 Hn. revert a H2. induction bd as [|y bd IHb]; intros a H2; cbn in H2.
        - destruct a as [|a0 a]; inversion H2; subst. eauto.
        - destruct a as [|a0 a]; inversion H2; subst; [exfalso; apply Hn; left; auto|].
          eapply IHb; eauto. intros Hi; apply Hn; right; auto. }
      destruct Hs as (a' & Hs). eapply IH'; eauto.
Qed.

Lemma escape_clean s : ~ In c_lt (py_escape s) /\ ~ In c_gt (py_escape s) /\
  forall a b, py_escape s = a ++ c_amp :: b -> exists body rest x, b = body ++ c_semi :: rest /\ refers body x.
Proof.
  rewrite py_escape_map.
  assert (H : forall c y, In y (esc1 c) -> y <> c_lt /\ y <> c_gt).
  { intros c y. destruct (char_dec c) as [->|[->|[->|(H1 & H2 & H3)]]].
    - cbn. intros H; repeat destruct H as [<-|H]; try (split; discriminate); destruct H.
    - cbn. intros H; repeat destruct H as [<-|H]; try (split; discriminate); destruct H.
    - cbn. intros H; repeat destruct H as [<-|H]; try (split; discriminate); destruct H.
    - rewrite esc1_char by auto. intros [<-|[]]. auto. }
  split; [|split].
  - rewrite in_flat_map. intros (c & _ & Hc). apply H in Hc. tauto.
  - rewrite in_flat_map. intros (c & _ & Hc). apply H in Hc. tauto.
  - apply refs_split. intros c _. destruct (char_dec c) as [->|[->|[->|(H1 & H2 & H3)]]].
    + right. exists (lit "amp"), c_amp. split; [reflexivity|]. split; [|constructor]. cbn. intuition discriminate.
    + right. exists (lit "gt"), c_gt. split; [reflexivity|]. split; [|constructor]. cbn. intuition discriminate.
    + right. exists (lit "lt"), c_lt. split; [reflexivity|]. split; [|constructor]. cbn. intuition discriminate.
    + left. split; auto. apply esc1_char; auto.
Qed.

Lemma esc2_clean c y : In y (esc2 c) -> (y = c /\ esc2 c = [c] /\ c <> c_amp /\ c <> c_lt /\ c <> c_gt) \/ (y <> c_lt /\ y <> c_gt /\ y <> c_dq /\ y <> c_sq).
Proof.
  unfold esc2.
  destruct (c =? c_nl)%N; [cbn; intros H; right; repeat destruct H as [<-|H]; try (repeat split; discriminate); destruct H|].
  destruct (c =? c_cr)%N; [cbn; intros H; right; repeat destruct H as [<-|H]; try (repeat split; discriminate); destruct H|].
  destruct (c =? c_tab)%N; [cbn; intros H; right; repeat destruct H as [<-|H]; try (repeat split; discriminate); destruct H|].
  destruct (char_dec c) as [->|[->|[->|(H1 & H2 & H3)]]].
  - cbn. intros H; right; repeat destruct H as [<-|H]; try (repeat split; discriminate); destruct H.
  - cbn. intros H; right; repeat destruct H as [<-|H]; try (repeat split; discriminate); destruct H.
  - cbn. intros H; right; repeat destruct H as [<-|H]; try (repeat split; discriminate); destruct H.
  - rewrite esc1_char by auto. intros [<-|[]]. left; auto.
Qed.

Lemma quoteattr_clean v : exists q raw, py_quoteattr v = q :: raw ++ [q] /\ is_quote q = true /\
  ~ In q raw /\ ~ In c_lt raw /\ ~ In c_gt raw.
Proof.
  rewrite py_quoteattr_data. destruct (char_in c_dq v) eqn:E1; [destruct (char_in c_sq v) eqn:E2|].
  - exists c_dq. eexists. split; [reflexivity|]. split; [reflexivity|].
    assert (H : forall y, In y (flat_map (fun c => if (c =? c_dq)%N then lit "&quot;" else esc2 c) v) -> y <> c_dq /\ y <> c_lt /\ y <> c_gt).
    { intros y Hy. apply in_flat_map in Hy as (c & Hc & Hy). destruct (c =? c_dq)%N eqn:E.
      - cbn in Hy. repeat destruct Hy as [<-|Hy]; try (repeat split; discriminate); destruct Hy.
      - apply N.eqb_neq in E. apply esc2_clean in Hy as [(-> & _ & H)|H]; tauto. }
    repeat split; intros Hi; apply H in Hi; tauto.
  - exists c_sq. eexists. split; [reflexivity|]. split; [reflexivity|]. apply char_in_not in E2.
    assert (H : forall y, In y (quote_data v) -> y <> c_sq /\ y <> c_lt /\ y <> c_gt).
    { intros y Hy. apply in_flat_map in Hy as (c & Hc & Hy). apply esc2_clean in Hy as [(-> & _ & H)|H]; [|tauto].
      split; [|tauto]. intros ->. auto. }
    repeat split; intros Hi; apply H in Hi; tauto.
  - exists c_dq. eexists. split; [reflexivity|]. split; [reflexivity|]. apply char_in_not in E1.
    assert (H : forall y, In y (quote_data v) -> y <> c_dq /\ y <> c_lt /\ y <> c_gt).
    { intros y Hy. apply in_flat_map in Hy as (c & Hc & Hy). apply esc2_clean in Hy as [(-> & _ & H)|H]; [|tauto].
      split; [|tauto]. intros ->. auto. }
    repeat split; intros Hi; apply H in Hi; tauto.
Qed.
