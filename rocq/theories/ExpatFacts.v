(** Facts about the expat callbacks. *)
From Verif Require Import PyStr Parser XTree ParserSpec ParserInv TreeUtil TreeUtilFacts Expat ExpatSpec.
From Verif Require Import Heap Builder HeapSpec BuilderFacts HeapFacts BuilderMore.

(** ** Words *)
Lemma split_blank b s : (forall c, In c b -> py_isspace c = true) -> split_acc [] (b ++ s) = split_acc [] s.
Proof. induction b as [|c b IH]; intros H; [reflexivity|]. cbn [app split_acc]. rewrite (H c) by (left; auto). apply IH. intros; apply H; right; auto. Qed.
Lemma split_word x w s : (forall c, In c x -> py_isspace c = false) -> split_acc w (x ++ s) = split_acc (rev x ++ w) s.
Proof.
  revert w. induction x as [|c x IH]; intros w H; [reflexivity|]. cbn [app split_acc]. rewrite (H c) by (left; auto). rewrite IH by (intros; apply H; right; auto).
  cbn [rev]. rewrite <- app_assoc. reflexivity.
Qed.
Lemma rev_nonempty {A} (x : list A) : x <> [] -> exists a l, rev x = a :: l.
Proof. intros H. destruct (rev x) as [|a l] eqn:E; [|eauto]. exfalso. apply H. rewrite <- (rev_involutive x), E. reflexivity. Qed.
Theorem split_words s l : words s l -> py_split s = l.
Proof.
  unfold py_split. induction 1 as [s H|b x Hb [Hx1 Hx2]|b x c s l Hb [Hx1 Hx2] Hc H IH].
  - rewrite <- (app_nil_r s), split_blank by auto. reflexivity.
  - rewrite split_blank by auto. rewrite <- (app_nil_r x) at 1. rewrite split_word by auto. rewrite app_nil_r. cbn [split_acc]. destruct (rev_nonempty x Hx1) as (a & m & E). rewrite E, <- E, rev_involutive. reflexivity.
  - rewrite split_blank by auto. rewrite split_word by auto. rewrite app_nil_r. cbn [split_acc]. rewrite Hc. destruct (rev_nonempty x Hx1) as (a & m & E). rewrite E, <- E, rev_involutive, IH. reflexivity.
Qed.
Lemma words_app s l c : words s l -> py_isspace c = true -> forall x, unspaced x -> words (s ++ c :: x) (l ++ [x]).
Proof.
  induction 1 as [s H|b y Hb Hy|b y c' s l Hb Hy Hc' H IH]; intros Hc x Hx.
  - cbn [app]. replace (s ++ c :: x) with ((s ++ [c]) ++ x) by (rewrite <- app_assoc; reflexivity). apply wd_last; auto. intros d Hd. apply in_app_iff in Hd. destruct Hd as [Hd|[<-|[]]]; auto.
  - rewrite <- app_assoc. cbn [app]. apply wd_cons; auto. change (words ([] ++ x) [x]). apply wd_last; auto.
  - rewrite <- !app_assoc. cbn [app]. apply wd_cons; auto.
Qed.
Lemma words_one x : unspaced x -> words x [x].
Proof. intros H. change (words ([] ++ x) [x]). apply wd_last; auto. Qed.
Lemma words_total s : exists l, words s l.
Proof.
  assert (K : forall n s, length s <= n -> exists l, words s l).
  { induction n as [|n IH]; intros t Ht.
    - destruct t; [|cbn in Ht; lia]. exists []. constructor. intros ? [].
    - destruct t as [|c t]; [exists []; constructor; intros ? []|]. destruct (py_isspace c) eqn:E.
      + destruct (IH t) as (l & H); [cbn in Ht; lia|]. exists l. clear - H E. inversion H; subst.
        * constructor. intros x [<-|Hx]; auto.
        * apply (wd_last (c :: b)); auto. intros y [<-|Hy]; auto.
        * apply (wd_cons (c :: b)); auto. intros y [<-|Hy]; auto.
      + assert (K : forall u, exists x r, u = x ++ r /\ (forall y, In y x -> py_isspace y = false) /\ (r = [] \/ exists d r', r = d :: r' /\ py_isspace d = true)).
        { induction u as [|d u (x & r & -> & H1 & H2)]; [exists [], []; split; [reflexivity|]; split; [intros ? []|auto]|]. destruct (py_isspace d) eqn:Ed.
          - exists [], (d :: x ++ r). split; [reflexivity|]. split; [intros ? []|]. right. eauto.
          - exists (d :: x), r. split; [reflexivity|]. split; [intros y [<-|Hy]; auto|auto]. }
        destruct (K t) as (x & r & -> & H1 & [->|(d & r' & -> & Hd)]).
        * rewrite app_nil_r. exists [c :: x]. apply words_one. split; [discriminate|]. intros y [<-|Hy]; auto.
        * destruct (IH r') as (l & H); [cbn in Ht; rewrite app_length in Ht; cbn in Ht; lia|]. exists ((c :: x) :: l).
          apply (wd_cons [] (c :: x)); auto. split; [discriminate|]. intros y [<-|Hy]; auto. }
  apply (K (length s)). lia.
Qed.

(** ** Local names *)
Lemma last_item_snoc {A} (l : list A) x : last_item (l ++ [x]) = Some x.
Proof. unfold last_item. rewrite app_length. cbn [length]. replace (length l + 1 - 1) with (length l) by lia. rewrite nth_error_app2 by lia. rewrite Nat.sub_diag. reflexivity. Qed.
Lemma start_local_words ns l ws : words ns ws -> unspaced l -> start_local (expanded (Some ns, l)) = Some l.
Proof. intros H Hl. unfold start_local, expanded. cbn [fst snd app]. rewrite (split_words _ _ (words_app ns ws 32%N H eq_refl l Hl)). apply last_item_snoc. Qed.
Lemma has_space ns l : char_in c_space (ns ++ [32%N] ++ l) = true.
Proof. unfold char_in. apply existsb_exists. exists 32%N. split; [apply in_or_app; right; left; reflexivity|reflexivity]. Qed.
Lemma no_space x : unspaced x -> char_in c_space x = false.
Proof.
  intros [_ H]. unfold char_in. destruct (existsb (N.eqb c_space) x) eqn:E; [|reflexivity]. apply existsb_exists in E as (c & Hc & E). apply N.eqb_eq in E. subst c.
  apply H in Hc. discriminate.
Qed.
Lemma end_local_words ns l ws : words ns ws -> unspaced l -> end_local (expanded (Some ns, l)) = nth_error (ws ++ [l]) 1.
Proof. intros H Hl. unfold end_local, expanded. cbn [fst snd]. rewrite has_space. cbn [app]. rewrite (split_words _ _ (words_app ns ws 32%N H eq_refl l Hl)). reflexivity. Qed.
Lemma good_start q : good_name q -> start_local (expanded q) = Some (snd q).
Proof.
  destruct q as [[ns|] l]; intros [H1 H2]; cbn [fst snd] in *.
  - eapply start_local_words; [apply words_one; exact H2|exact H1].
  - unfold start_local, expanded. cbn [fst snd]. rewrite (split_words _ _ (words_one _ H1)). reflexivity.
Qed.
Lemma good_end q : good_name q -> end_local (expanded q) = Some (snd q).
Proof.
  destruct q as [[ns|] l]; intros [H1 H2]; cbn [fst snd] in *.
  - rewrite (end_local_words ns l [ns]); auto. apply words_one, H2.
  - unfold end_local, expanded. cbn [fst snd]. rewrite no_space by auto. reflexivity.
Qed.

(** ** Attributes *)
Lemma set_keys {A} (d : dict A) k v : map fst (dict_set d k v) = if existsb (str_eqb k) (map fst d) then map fst d else map fst d ++ [k].
Proof.
  induction d as [|[k' v'] d IH]; [reflexivity|]. cbn [dict_set map fst existsb]. destruct (str_eqb k' k) eqn:E.
  - apply str_eqb_eq in E. subst k'. rewrite (proj2 (str_eqb_eq k k) eq_refl). reflexivity.
  - cbn [map fst]. rewrite IH. destruct (str_eqb k k') eqn:E'; [apply str_eqb_eq in E'; subst; rewrite (proj2 (str_eqb_eq k' k') eq_refl) in E; discriminate|]. cbn [orb].
    destruct (existsb (str_eqb k) (map fst d)); reflexivity.
Qed.
Lemma set_in {A} (d : dict A) k v k' v' : NoDup (map fst d) -> (In (k', v') (dict_set d k v) <-> (k' = k /\ v' = v) \/ (k' <> k /\ In (k', v') d)).
Proof.
  induction d as [|[k0 v0] d IH]; intros Hn; cbn [dict_set].
  - split; [intros [E|[]]; inversion E; auto|]. intros [[-> ->]|[_ []]]. left. reflexivity.
  - cbn [map fst] in Hn. inversion Hn as [|? ? Hk Hn']; subst. destruct (str_eqb k0 k) eqn:E.
    + apply str_eqb_eq in E. subst k0. split.
      * intros [E|E]; [inversion E; auto|]. right. split; [|right; auto]. intros ->. apply Hk. apply in_map_iff. exists (k, v'). auto.
      * intros [[-> ->]|[E [E'|E']]]; [left; reflexivity|inversion E'; congruence|right; auto].
    + assert (k0 <> k) by (intros ->; rewrite (proj2 (str_eqb_eq k k) eq_refl) in E; discriminate). split.
      * intros [E'|E']; [inversion E'; subst; right; split; [auto|left; auto]|]. apply IH in E'; auto. destruct E' as [E'|[E' E'']]; [auto|right; split; [auto|right; auto]].
      * intros [[-> ->]|[E' [E''|E'']]]; [right; apply IH; auto|left; auto|right; apply IH; auto].
Qed.
Lemma firsts_in l l' : firsts l l' -> forall k, In k l' <-> In k l.
Proof.
  induction 1 as [|l l' k H IH Hk|l l' k H IH Hk]; intros x; [tauto| |].
  - rewrite in_app_iff, IH. cbn. split; [auto|]. intros [?|[<-|[]]]; auto.
  - rewrite !in_app_iff, IH. tauto.
Qed.
Lemma firsts_NoDup l l' : firsts l l' -> NoDup l'.
Proof.
  induction 1 as [|l l' k H IH Hk|l l' k H IH Hk]; [constructor|auto|]. apply NoDup_app_disjoint; [auto|repeat constructor; intros []|]. intros x Hx [<-|[]]. apply Hk. apply (firsts_in l l' H). auto.
Qed.
Lemma firsts_fun l l1 : firsts l l1 -> forall l2, firsts l l2 -> l1 = l2.
Proof.
  induction 1 as [|l l1 k H IH Hk|l l1 k H IH Hk]; intros l2 H2; inversion H2 as [E|m m' x G Gx E|m m' x G Gx E]; subst;
    try (destruct l; discriminate); try (destruct m; discriminate); try (apply app_inj_tail in E as [-> ->]); auto; try contradiction.
  f_equal; auto.
Qed.
Definition collapse (ats : list (qname * str)) : dict str := fold_left (fun d x => dict_set d (snd (fst x)) (snd x)) ats [].
Lemma collapse_ok ats : collapsed ats (collapse ats).
Proof.
  induction ats as [|[q v] ats [IH1 IH2]] using rev_ind.
  - split; [constructor|]. intros k v. split; [intros []|]. intros (l1 & q & l2 & E & _). destruct l1; discriminate.
  - replace (collapse (ats ++ [(q, v)])) with (dict_set (collapse ats) (snd q) v) by (unfold collapse; rewrite fold_left_app; reflexivity). split.
    + rewrite map_app, set_keys. cbn [map fst snd]. destruct (existsb (str_eqb (snd q)) (map fst (collapse ats))) eqn:E.
      * apply fi_old; auto. apply (firsts_in _ _ IH1). apply existsb_exists in E as (x & Hx & E). apply str_eqb_eq in E. subst x. auto.
      * apply fi_new; auto. rewrite <- (firsts_in _ _ IH1). intros K. assert (existsb (str_eqb (snd q)) (map fst (collapse ats)) = true); [|congruence].
        apply existsb_exists. exists (snd q). split; [auto|]. apply str_eqb_eq. reflexivity.
    + intros k w. rewrite set_in by (eapply firsts_NoDup; eauto). rewrite IH2. split.
      * intros [[-> ->]|[Hk (l1 & q1 & l2 & -> & Eq & Hl)]].
        -- exists ats, q, []. split; [reflexivity|]. split; [reflexivity|intros x []].
        -- exists l1, q1, (l2 ++ [(q, v)]). split; [rewrite <- app_assoc; reflexivity|]. split; [auto|]. intros x Hx. apply in_app_iff in Hx as [Hx|[<-|[]]]; auto.
      * intros (l1 & q1 & l2 & E & Eq & Hl). destruct l2 as [|x l2 _] using rev_ind.
        -- apply app_inj_tail in E as [-> E]. inversion E; subst. auto.
        -- rewrite app_comm_cons, app_assoc in E. apply app_inj_tail in E as [-> <-]. right. split.
           ++ intros ->. apply (Hl (q, v)); [apply in_or_app; right; left; reflexivity|reflexivity].
           ++ exists l1, q1, l2. split; [reflexivity|]. split; [auto|]. intros y Hy. apply Hl. apply in_or_app. auto.
Qed.
Lemma last_unique {A} (P : A -> Prop) (l1 l2 m1 m2 : list A) x y : l1 ++ x :: l2 = m1 ++ y :: m2 -> P x -> P y -> (forall z, In z l2 -> ~ P z) -> (forall z, In z m2 -> ~ P z) -> x = y.
Proof.
  revert m1. induction l1 as [|a l1 IH]; intros [|b m1] E Px Py H1 H2; cbn in E; inversion E; subst; auto.
  - exfalso. eapply H1; [|exact Py]. apply in_or_app. right. left. reflexivity.
  - exfalso. eapply H2; [|exact Px]. apply in_or_app. right. left. reflexivity.
  - eapply IH; eauto.
Qed.
Lemma collapsed_fun ats d d' : collapsed ats d -> collapsed ats d' -> d = d'.
Proof.
  intros [A1 A2] [B1 B2]. pose proof (firsts_fun _ _ A1 _ B1) as E.
  assert (V : forall k v v', In (k, v) d -> In (k, v') d' -> v = v').
  { intros k v v' H1 H2. apply A2 in H1 as (l1 & q & l2 & E1 & E2 & H). apply B2 in H2 as (m1 & r & m2 & F1 & F2 & G). rewrite E1 in F1.
    pose proof (last_unique (fun x : qname * str => snd (fst x) = k) _ _ _ _ _ _ F1 E2 F2 H G) as K. inversion K. reflexivity. }
  clear A1 A2 B1 B2. revert d' E V. induction d as [|[k v] d IH]; intros [|[k' v'] d'] E V; cbn in E; try discriminate; [reflexivity|]. inversion E; subst.
  f_equal; [f_equal; apply (V k'); left; reflexivity|]. apply IH; auto. intros x y z G1 G2. apply (V x); right; auto.
Qed.
Lemma new_attrs_collapse ats : Forall (fun x => good_name (fst x)) ats -> forall d, new_attrs d (reported ats) = Some (fold_left (fun d x => dict_set d (snd (fst x)) (snd x)) ats d).
Proof.
  induction 1 as [|[q v] ats H _ IH]; intros d; [reflexivity|]. cbn [reported map new_attrs fst snd fold_left]. cbn [fst] in H. rewrite good_start by auto. apply IH.
Qed.
Lemma new_attrs_collapsed ats d : Forall (fun x => good_name (fst x)) ats -> collapsed ats d -> new_attrs [] (reported ats) = Some d.
Proof. intros H C. rewrite new_attrs_collapse by auto. f_equal. eapply collapsed_fun; [apply collapse_ok|auto]. Qed.

(** ** Documents *)
Lemma callbacks_app cs1 : forall stk cs2, callbacks stk (cs1 ++ cs2) =
  match callbacks stk cs1 with (e1, Some stk') => (e1 ++ fst (callbacks stk' cs2), snd (callbacks stk' cs2)) | r => r end.
Proof.
  induction cs1 as [|c cs1 IH]; intros stk cs2; [cbn; destruct (callbacks stk cs2); reflexivity|]. cbn [app callbacks]. destruct (callback stk c) as [[e s]|]; [|reflexivity]. rewrite IH.
  destruct (callbacks s cs1) as [e1 [s1|]]; [|reflexivity]. rewrite app_assoc. reflexivity.
Qed.
Theorem report_events cs ks : report cs ks -> forall stk, callbacks stk cs = (forest_events stk ks, Some stk).
Proof.
  induction 1 as [|cs ks H IH|s cs ks H IH|q ats d cs0 ks0 cs ks Hq Ha Hc H0 IH0 H IH]; intros stk.
  - reflexivity.
  - cbn [callbacks callback]. rewrite IH. reflexivity.
  - cbn [callbacks callback]. rewrite IH. reflexivity.
  - cbn [callbacks callback]. rewrite good_start by auto. rewrite (new_attrs_collapsed ats d Ha Hc). rewrite callbacks_app, IH0. cbn [callbacks callback].
    rewrite good_end by auto. destruct (stk ++ [snd q]) as [|x l] eqn:E; [destruct stk; discriminate|]. rewrite <- E, removelast_last. rewrite IH. cbn [fst snd].
    unfold forest_events. cbn [flat_map tree_events app]. rewrite <- !app_assoc. reflexivity.
Qed.
Theorem report_document cs u : report cs [u] -> callbacks [] cs = (doc_events u, Some []).
Proof. intros H. rewrite (report_events _ _ H). unfold forest_events. cbn [flat_map]. rewrite app_nil_r. reflexivity. Qed.
Lemma nest_split e1 : forall a e2 b, nest a (e1 ++ e2) b -> exists c, nest a e1 c.
Proof.
  induction e1 as [|e e1 IH]; intros a e2 b H; [exists a; constructor|]. cbn [app] in H. inversion H; subst.
  - edestruct IH as (c & Hc); [eassumption|]. eexists. constructor; eauto.
  - edestruct IH as (c & Hc); [eassumption|]. eexists. constructor; eauto.
  - edestruct IH as (c & Hc); [eassumption|]. eexists. constructor; eauto.
Qed.
Lemma tree_nests u : forall open, open <> [] -> nest open (tree_events (rev open) u) open.
Proof.
  induction u as [n a ks IH|s] using xtree_ind'; intros open Ho; cbn [tree_events]; [|constructor; auto; constructor].
  constructor; auto. replace (rev open ++ [n]) with (rev (n :: open)) by reflexivity.
  assert (K : forall l, Forall (fun u => forall open, open <> [] -> nest open (tree_events (rev open) u) open) l -> nest (n :: open) (flat_map (tree_events (rev (n :: open))) l) (n :: open)).
  { induction 1 as [|k l Hk _ IHl]; [constructor|]. cbn [flat_map]. eapply nest_app; [apply Hk; discriminate|auto]. }
  eapply nest_app; [apply K, IH|]. constructor. constructor.
Qed.
Lemma doc_nests n a ks : document_events (doc_events (XE n a ks)) [].
Proof.
  exists n, a, (flat_map (tree_events [n]) ks ++ [EvEnd n []]). split; [reflexivity|].
  assert (K : forall l, nest [n] (flat_map (tree_events (rev [n])) l) [n]) by (induction l as [|k l IHl]; [constructor|]; cbn [flat_map]; eapply nest_app; [apply tree_nests; discriminate|auto]).
  eapply nest_app; [apply K|]. change (@nil str) with (rev (@nil str)) at 2. constructor. constructor.
Qed.
(** The calls for the beginning of a document *)
Theorem report_prefix cs1 cs2 n a ks : report (cs1 ++ cs2) [XE n a ks] -> exists evs stk rest,
  callbacks [] cs1 = (evs, Some stk) /\ doc_events (XE n a ks) = evs ++ rest /\ well_nested_prefix evs.
Proof.
  intros H. apply report_document in H. rewrite callbacks_app in H. destruct (callbacks [] cs1) as [evs [stk|]] eqn:E; [|discriminate]. exists evs, stk, (fst (callbacks stk cs2)).
  inversion H as [[H1 H2]]. split; [reflexivity|]. split; [congruence|]. destruct evs as [|e evs]; [left; reflexivity|]. right.
  destruct (doc_nests n a ks) as (m & b & evs' & E1 & N). rewrite <- H1 in E1. cbn [app] in E1. inversion E1; subst. apply nest_split in N as (c & N). exists c, m, b, evs. auto.
Qed.
(** The tree that xml.treebuilder builds *)
Theorem report_tree cs n a ks h s r : report cs [XE n a ks] -> allocated h -> xml_tree_parse (new_builder h) (fst (callbacks [] cs)) s r ->
  exists i, r = Some i /\ holds_tree (bheap s) i (XE n a ks).
Proof.
  intros H A P. rewrite (report_document _ _ H) in P. cbn [fst] in P.
  assert (exists s2 r2, xml_tree_parse s [] s2 r2) as (s2 & r2 & Q) by (eexists; eexists; constructor; apply runs_exec).
  destruct (xml_second_parse h (XE n a ks) s r [] s2 r2 ltac:(eauto) A P Q) as (i & E1 & _ & E2 & _). eauto.
Qed.

(** ** White space in namespace names *)
Theorem spaced_end ns ws l x stk : words ns ws -> unspaced l ->
  callback stk (CbStart (expanded (Some ns, l)) []) = Some ([EvStart l [] stk], stk ++ [l]) /\
  callback (stk ++ [x]) (CbEnd (expanded (Some ns, l))) =
    match ws with
    | [] => None
    | [_] => Some ([EvEnd l stk], stk)
    | _ :: w :: _ => Some ([EvEnd w stk], stk)
    end.
Proof.
  intros H Hl. cbn [callback]. rewrite (start_local_words ns l ws H Hl). split; [reflexivity|]. rewrite (end_local_words ns l ws H Hl).
  destruct ws as [|w1 [|w2 ws]]; cbn [app nth_error]; [reflexivity| |]; (destruct (stk ++ [x]) as [|y m] eqn:E; [destruct stk; discriminate|]); rewrite <- E, removelast_last; reflexivity.
Qed.
Lemma firsts_distinct l : NoDup l -> firsts l l.
Proof.
  induction l as [|x l IH] using rev_ind; intros H; [constructor|]. apply NoDup_remove in H. rewrite app_nil_r in H. apply fi_new; [apply IH|]; apply H.
Qed.
Theorem collapsed_distinct ats : NoDup (map (fun x => snd (fst x)) ats) -> collapsed ats (map (fun x : qname * str => (snd (fst x), snd x)) ats).
Proof.
  intros H. split; [rewrite map_map; apply firsts_distinct, H|]. intros k v. rewrite in_map_iff. split.
  - intros ([q w] & E & Hi). inversion E; subst. apply in_split in Hi as (l1 & l2 & ->). exists l1, q, l2. split; [reflexivity|]. split; [reflexivity|]. intros x Hx E'.
    rewrite map_app in H. cbn [map fst snd] in H. apply NoDup_remove_2 in H. apply H. apply in_or_app. right. rewrite <- E'. apply in_map_iff. exists x. auto.
  - intros (l1 & q & l2 & -> & <- & _). exists (q, v). split; [reflexivity|]. apply in_or_app. right. left. reflexivity.
Qed.
Theorem collapsed_one ats : exists d, collapsed ats d /\ forall d', collapsed ats d' -> d' = d.
Proof. exists (collapse ats). split; [apply collapse_ok|]. intros d' H. eapply collapsed_fun; [exact H|apply collapse_ok]. Qed.
Theorem words_unique s : exists ws, words s ws /\ forall ws', words s ws' -> ws' = ws.
Proof. destruct (words_total s) as (ws & H). exists ws. split; [exact H|]. intros ws' H'. rewrite <- (split_words _ _ H), <- (split_words _ _ H'). reflexivity. Qed.
Theorem start_event q ats d stk : good_name q -> Forall (fun x => good_name (fst x)) ats -> collapsed ats d ->
  callback stk (CbStart (expanded q) (reported ats)) = Some ([EvStart (snd q) d stk], stk ++ [snd q]).
Proof. intros H1 H2 H3. cbn [callback]. rewrite good_start, (new_attrs_collapsed ats d) by auto. reflexivity. Qed.
