(** Streaming with functions in the pattern agrees with selecting with functions. *)
From Verif Require Import PyStr Parser XTree ParserInv Heap Builder HeapSpec Path Nodes Pattern PatternSpec PatternFacts TreeIter PatternFun PatternFunSpec PatternFunMore SelectFun SelectFunSpec SelectFunFacts.
From Verif Require XPathFacts.

Lemma same_on_element t st g a n at_ ks anc : st <> FDeep -> same_stage t st g -> subtree t a = Some (XE n at_ ks) ->
  (fstage_ok st (EvStart n at_ anc) <-> gstage_ok g (a, XE n at_ ks)).
Proof.
  intros Hd Hs Ha. destruct st as [m| | |l], g as [m'| | |l']; try contradiction; cbn [fstage_ok gstage_ok fst snd].
  - cbn in Hs. subst m'. split; [intros (b & c & E); injection E as -> _ _; eauto|intros (b & c & E); injection E as -> _ _; repeat eexists].
  - split; auto. intros _. repeat eexists.
  - destruct Hs as [H _]. apply (H a n at_ ks anc Ha).
Qed.
Lemma same_on_text t st g a s : st <> FDeep -> same_stage t st g -> subtree t a = Some (XT s) -> ~ gstage_ok g (a, XT s).
Proof.
  intros Hd Hs Ha. destruct st as [m| | |l], g as [m'| | |l']; try contradiction; cbn [gstage_ok fst snd].
  - intros (b & c & E). discriminate.
  - intros (b & c & d & E). discriminate.
  - destruct Hs as [_ H]. intros (f & Hf & E). exact (H a s f Ha Hf E).
Qed.
Lemma fm_cons' st p e es : st <> FDeep -> fmatches (st :: p) (e :: es) <-> fstage_ok st e /\ fmatches p es.
Proof. intros Hd. split; [|intros (O & M); constructor; auto]. intros M. inversion M as [|st0 p0 x0 es0 O M'|]; subst; [auto|congruence]. Qed.
Lemma starts_cons abv n at_ ks b : starts abv (XE n at_ ks) b = EvStart n at_ abv :: tl (starts abv (XE n at_ ks) b).
Proof. destruct b; reflexivity. Qed.
Lemma same_below t : forall b u0 here abv n at_ ks p q u, u0 = XE n at_ ks -> subtree t here = Some u0 -> subtree u0 b = Some u -> Forall2 (same_stage t) p q -> no_fdeep p ->
  ((is_element u /\ fmatches p (tl (starts abv u0 b))) <-> gmatches q (line here u0 b)).
Proof.
  induction b as [|i b IH]; intros u0 here abv n at_ ks p q u -> Hh Hb F Hd.
  - cbn in Hb. injection Hb as <-. cbn. split.
    + intros (_ & M). inversion F as [|st g p' q' Hs F']; subst; [constructor|]. inversion M as [| |p0 l es0 M']; subst; [exfalso; apply Hd; left; auto].
    + intros M. split; [repeat eexists|]. inversion F as [|st g p' q' Hs F']; subst; [constructor|]. apply gm_nonempty in M; [destruct M; auto|discriminate].
  - cbn [subtree] in Hb. cbn [starts line tl]. destruct (nth_error ks i) as [k|] eqn:Ek; [|discriminate].
    assert (Hk : subtree t (here ++ [i]) = Some k) by (rewrite XPathFacts.subtree_app, Hh; cbn; rewrite Ek; reflexivity).
    inversion F as [|st g p' q' Hs F']; subst.
    + split; [|intros M; inversion M]. intros (Hu & M). assert (E : starts (abv ++ [n]) k b = []) by (inversion M; auto). destruct k as [m a' ks'|x]; [destruct b; discriminate|]. destruct b; [|discriminate]. cbn in Hb. injection Hb as <-. destruct Hu as (? & ? & ? & K). discriminate.
    + assert (Hst : st <> FDeep) by (intros ->; apply Hd; left; auto). assert (Hd' : no_fdeep p') by (intros K; apply Hd; right; auto).
      assert (Hg : g <> GDeep) by (destruct st, g; try contradiction; try discriminate; congruence). rewrite gm_cons by auto.
      destruct k as [m a' ks'|x].
      * specialize (IH _ (here ++ [i]) (abv ++ [n]) m a' ks' p' q' u eq_refl Hk Hb F' Hd'). rewrite starts_cons, fm_cons' by auto. rewrite (same_on_element t st g _ m a' ks' _ Hst Hs Hk). rewrite <- IH. tauto.
      * destruct b; [|discriminate]. cbn in Hb. injection Hb as <-. split; [intros ((? & ? & ? & K) & _); discriminate|]. intros (K & _). exfalso. exact (same_on_text t st g _ x Hst Hs Hk K).
Qed.
Lemma stream_select_fun r p q c s n a ks c' s' x : p <> [] -> no_fdeep (r :: p) -> safe (r :: p) -> Forall2 (same_stage (XE n a ks)) p q -> only_functions q -> gsafe q ->
  fserved [r :: p] c s -> fhandle (fstates [r :: p]) c (new_handler s) (doc_events (XE n a ks)) c' s' x ->
  x = None /\
  (fstage_ok r (EvStart n a []) -> sent_to s s' 0 (map snd (fst (select_fun (XE n a ks) q)))) /\
  (~ fstage_ok r (EvStart n a []) -> sent_to s s' 0 []).
Proof.
  intros Hp Hd Hs F Ho Hg Hf H. assert (Ht : is_element (XE n a ks)) by (repeat eexists).
  destruct (one_exact (r :: p) c s (XE n a ks) c' s' x Hd ltac:(discriminate) Hs Hf Ht H) as (-> & _ & _ & l & Hl & Hsent). split; auto.
  assert (Hr : r <> FDeep) by (intros ->; apply Hd; left; auto). assert (Hd' : no_fdeep p) by (intros K; apply Hd; right; auto).
  assert (Eq : forall b u, subtree (XE n a ks) b = Some u -> (is_element u /\ fmatches (r :: p) (starts [] (XE n a ks) b)) <-> (fstage_ok r (EvStart n a []) /\ gmatches q (line [] (XE n a ks) b))).
  { intros b u Hb. pose proof (same_below (XE n a ks) b _ [] [] n a ks p q u eq_refl eq_refl Hb F Hd') as K. rewrite starts_cons, fm_cons' by auto. rewrite <- K. tauto. }
  split; intros Hroot.
  - assert (Hq : no_gdeep q). { intros K. clear - F K Hd'. induction F as [|st g p q Hs F IH]; [destruct K|]. destruct K as [->|K]; [destruct st; try contradiction; apply Hd'; left; auto|]. apply IH; auto. intros K'. apply Hd'. right; auto. }
    destruct (select_fun_exact q (XE n a ks) Hq ltac:(intros ->; inversion F; subst; congruence) Ho Hg) as (l2 & E2 & L2). rewrite E2. cbn [fst].
    assert (l = l2) as <-; auto. refine (listing_unique _ _ _ _ _ L2). eapply PatternFacts.listing_ext; [|exact Hl]. intros b u Hb. cbn beta. rewrite (Eq b u Hb). tauto.
  - assert (l = []) as ->; auto. destruct l as [|[b u] l]; auto. exfalso. destruct Hl as [_ Hl]. destruct (proj1 (Hl b u) (or_introl eq_refl)) as [Hb K]. apply (Eq b u Hb) in K as [K _]. contradiction.
Qed.
