(** The selection with functions yields what the specification says. *)
From Verif Require Import PyStr XTree ParserInv Path Nodes Pattern PatternSpec PatternFacts SelectFun SelectFunSpec TreeUtil.

(** ** Children *)
Section Kids.
  Variable f : nat -> xtree -> list located * option gexn.
  Lemma gk_none ks : forall j, (forall i k, nth_error ks i = Some k -> snd (f (j + i) k) = None) -> snd (gkids f j ks) = None.
  Proof.
    induction ks as [|k ks IH]; intros j H; cbn [gkids]; auto. pose proof (H 0 k eq_refl) as H0. rewrite Nat.add_0_r in H0. destruct (f j k) as [l x]. cbn in H0. subst x.
    assert (K : snd (gkids f (S j) ks) = None) by (apply IH; intros i k' Hk; specialize (H (S i) k' Hk); rewrite Nat.add_succ_r in H; auto). destruct (gkids f (S j) ks) as [l2 x]. exact K.
  Qed.
  Lemma gk_sound ks : forall j b u, In (b, u) (fst (gkids f j ks)) -> exists i k c, nth_error ks i = Some k /\ b = (j + i) :: c /\ In (c, u) (fst (f (j + i) k)).
  Proof.
    induction ks as [|k ks IH]; intros j b u; cbn [gkids]; [intros []|]. destruct (f j k) as [l x] eqn:E.
    assert (K : In (b, u) (under j l) -> exists i k0 c, nth_error (k :: ks) i = Some k0 /\ b = (j + i) :: c /\ In (c, u) (fst (f (j + i) k0))).
    { intros H. apply under_in in H as (c & -> & H). exists 0, k, c. rewrite Nat.add_0_r, E. auto. }
    destruct x as [x|]; [exact K|]. specialize (IH (S j) b u). destruct (gkids f (S j) ks) as [l2 x]. cbn [fst] in *. intros H. apply in_app_or in H as [H|H]; auto.
    destruct (IH H) as (i & k' & c & H1 & -> & H2). exists (S i), k', c. rewrite Nat.add_succ_r. auto.
  Qed.
  Lemma gk_complete ks : forall j, snd (gkids f j ks) = None -> forall i k c u, nth_error ks i = Some k -> In (c, u) (fst (f (j + i) k)) -> In ((j + i) :: c, u) (fst (gkids f j ks)).
  Proof.
    induction ks as [|k ks IH]; intros j Hn i k0 c u Hi Hc; [destruct i; discriminate|]. cbn [gkids] in *. destruct (f j k) as [l [x|]] eqn:E; [discriminate|].
    destruct (gkids f (S j) ks) as [l2 x] eqn:E2. cbn [fst snd] in *. apply in_or_app. destruct i as [|i]; cbn in Hi.
    - injection Hi as <-. rewrite Nat.add_0_r in *. rewrite E in Hc. left. apply under_in. eauto.
    - right. specialize (IH (S j)). rewrite E2 in IH. rewrite Nat.add_succ_r in *. apply (IH Hn i k0 c u Hi Hc).
  Qed.
  Lemma gk_sorted ks : (forall i k, In k ks -> StronglySorted doc_before (map fst (fst (f i k)))) -> forall j, StronglySorted doc_before (map fst (fst (gkids f j ks))).
  Proof.
    induction ks as [|k ks IH]; intros H j; cbn [gkids]; [constructor|]. pose proof (H j k (or_introl eq_refl)) as H0. destruct (f j k) as [l x]. cbn [fst] in H0.
    destruct x as [x|]; [apply under_sorted; auto|]. pose proof (IH (fun i k' Hk => H i k' (or_intror Hk)) (S j)) as Hs. pose proof (gk_sound ks (S j)) as Ks.
    destruct (gkids f (S j) ks) as [l2 x]. cbn [fst] in *. rewrite map_app. apply sorted_app; auto; [apply under_sorted; auto|].
    intros y z Hy Hz. apply in_map_iff in Hy as ([y' u] & <- & Hy), Hz as ([z' v] & <- & Hz). cbn [fst]. apply under_in in Hy as (c & -> & _). apply Ks in Hz as (i & k' & c' & _ & -> & _). apply db_later. lia.
  Qed.
End Kids.
Lemma gselect_sorted t : forall here s, StronglySorted doc_before (map fst (fst (gselect here t s))).
Proof.
  induction t as [n a ks IH|x] using xtree_ind'; intros here s; cbn [gselect]; [|constructor]. apply gk_sorted. intros i k Hk. rewrite Forall_forall in IH.
  destruct (gstep s (here ++ [i]) k) as [x| |s']; [constructor|constructor|]. destruct s'; [repeat constructor|apply IH; auto..].
Qed.

(** ** Stages *)
Lemma functions_in l : (forall n, ~ In (GStr n) l) -> exists fs, functions l = Some fs /\ forall f, In f fs <-> In (GFun f) l.
Proof.
  induction l as [|[n|f] l IH]; intros H; cbn [functions].
  - exists []. split; auto. intros f. split; intros [].
  - destruct (H n). left; auto.
  - destruct IH as (fs & -> & Hf); [intros n K; apply (H n); right; auto|]. exists (f :: fs). split; auto. intros g. cbn. rewrite Hf. split; intros [K|K]; auto; [left; congruence|]. injection K as ->; auto.
Qed.
Lemma any_fun_ok l a : (forall f, In f l -> f a <> None) -> exists b, any_fun l a = Some b /\ (b = true <-> exists f, In f l /\ f a = Some true).
Proof.
  induction l as [|f l IH]; intros H; cbn [any_fun].
  - exists false. split; auto. split; [discriminate|]. intros (f & [] & _).
  - destruct IH as (b & Eb & Ib); [intros; apply H; right; auto|]. destruct (f a) as [[]|] eqn:E; [| |destruct (H f (or_introl eq_refl) E)].
    + exists true. split; auto. split; auto. intros _. exists f. split; [left|]; auto.
    + exists b. split; auto. rewrite Ib. split; intros (g & Hg & Eg); [exists g; split; [right|]; auto|]. destruct Hg as [->|Hg]; [congruence|eauto].
Qed.
Lemma any_fun_sound l a : any_fun l a = Some true -> exists f, In f l /\ f a = Some true.
Proof.
  induction l as [|f l IH]; cbn [any_fun]; [discriminate|]. destruct (f a) as [[]|] eqn:E; [|intros H; destruct (IH H) as (g & Hg & Eg); exists g; split; [right|]; auto|discriminate].
  intros _. exists f. split; [left|]; auto.
Qed.
Lemma only_cons st p : only_functions (st :: p) -> only_functions p. Proof. intros H l n Hl. apply (H l n). right; auto. Qed.
Lemma gsafe_cons st p : gsafe (st :: p) -> gsafe p. Proof. intros H l f a Hl. apply (H l f a). right; auto. Qed.
Lemma gprep_some p : only_functions p -> exists s, gprep p = Some s.
Proof.
  induction p as [|st p IH]; intros H; cbn [gprep]; [eauto|]. destruct (IH (only_cons _ _ H)) as (s & ->). destruct st as [n| | |l]; cbn; eauto.
  destruct (functions_in l) as (fs & -> & _); [intros n; apply (H l n); left; auto|]. cbn. eauto.
Qed.
Lemma gprep_names p l n : In (GTup l) p -> In (GStr n) l -> gprep p = None.
Proof.
  induction p as [|st p IH]; intros Hp Hl; [destruct Hp|]. cbn [gprep]. destruct Hp as [->|Hp]; [|rewrite (IH Hp Hl); auto]. destruct (gprep p); auto. cbn.
  assert (E : functions l = None) by (clear - Hl; induction l as [|[m|f] l IH]; [destruct Hl|reflexivity|]; destruct Hl as [Hl|Hl]; [discriminate|]; cbn; rewrite (IH Hl); auto). rewrite E. reflexivity.
Qed.
Lemma gprep_matched p : gprep p = Some GMatched -> p = [].
Proof.
  destruct p as [|st p]; auto. cbn [gprep]. destruct (gprep p); [|discriminate]. destruct st as [n| | |l]; cbn; try discriminate. destruct (functions l); discriminate.
Qed.
Lemma gstage_step st next s a t : st <> GDeep -> gprep_stage st next = Some s -> only_functions [st] -> gsafe [st] ->
  (gstage_ok st (a, t) /\ gstep s a t = GTo next) \/ (~ gstage_ok st (a, t) /\ gstep s a t = GNone).
Proof.
  intros Hd E Ho Hs. destruct st as [n| | |l]; cbn in E; [injection E as <-|injection E as <-|congruence|]; cbn [gstep gstage_ok fst snd].
  - destruct t as [m at_ ks|x]; [|right; split; auto; intros (? & ? & K); discriminate]. destruct (str_eqb m n) eqn:Em.
    + apply str_eqb_eq in Em as ->. left. eauto.
    + right. split; auto. intros (? & ? & K). injection K as -> _ _. rewrite str_eqb_refl in Em. discriminate.
  - destruct t as [m at_ ks|x]; [left; split; auto; repeat eexists|right; split; auto; intros (? & ? & ? & K); discriminate].
  - destruct (functions_in l) as (fs & Ef & If); [intros n; apply (Ho l n); left; auto|]. rewrite Ef in E. cbn in E. injection E as <-. cbn [gstep].
    destruct (any_fun_ok fs a) as (b & -> & Ib); [intros f Hf; apply (Hs l f); [left; auto|apply If; auto]|].
    assert (K : b = true <-> exists f, In (GFun f) l /\ f a = Some true) by (rewrite Ib; split; intros (f & Hf & Ff); exists f; split; auto; apply If; auto).
    destruct b; [left|right]; split; auto; rewrite <- K; congruence.
Qed.
Lemma gstep_sound p : forall s a t s', gprep p = Some s -> gstep s a t = GTo s' ->
  exists q, gprep q = Some s' /\ forall es, (gmatches q es -> gmatches p ((a, t) :: es)).
Proof.
  induction p as [|st p IH]; intros s a t s' Ep Es; cbn [gprep] in Ep; [injection Ep as <-; discriminate|]. destruct (gprep p) as [next|] eqn:En; [|discriminate].
  destruct st as [n| | |l]; cbn in Ep; [injection Ep as <-..|]; cbn [gstep] in Es.
  - destruct t as [m at_ ks|x]; [|discriminate]. destruct (str_eqb m n) eqn:Em; [|discriminate]. apply str_eqb_eq in Em as ->. injection Es as <-. exists p. split; auto. intros es M. constructor; auto. cbn. eauto.
  - destruct t as [m at_ ks|x]; [|discriminate]. injection Es as <-. exists p. split; auto. intros es M. constructor; auto. cbn. repeat eexists.
  - assert (Again : exists q, gprep q = Some (GUntil next) /\ forall es, gmatches q es -> gmatches (GDeep :: p) ((a, t) :: es)).
    { exists (GDeep :: p). split; [cbn; rewrite En; auto|]. intros es M. inversion M as [|st0 p0 x es0 O M'|p0 l x es0 He M']; subst; [destruct O|]. apply (gm_deep p ((a, t) :: l) x es0 He M'). }
    destruct t as [m at_ ks|x]; [|injection Es as <-; exact Again]. destruct (gstep next a (XE m at_ ks)) as [x| |s1] eqn:E1; [discriminate|injection Es as <-; exact Again|].
    injection Es as <-. destruct (IH _ _ _ _ eq_refl E1) as (q & Eq & Hq). exists q. split; auto. intros es M. apply (gm_deep p [] (a, XE m at_ ks) es); [repeat eexists|auto].
  - destruct (functions l) as [fs|] eqn:Ef; [|discriminate]. cbn in Ep. injection Ep as <-. cbn [gstep] in Es. destruct (any_fun fs a) as [[]|] eqn:Ea; try discriminate. injection Es as <-.
    exists p. split; auto. intros es M. constructor; auto. destruct (any_fun_sound _ _ Ea) as (f & Hf & Ff). exists f. split; auto. clear - Ef Hf.
    revert fs Ef Hf. induction l as [|[n|g] l IH]; intros fs Ef Hf; cbn in Ef; [injection Ef as <-; destruct Hf|discriminate|]. destruct (functions l) as [gs|]; [|discriminate]. injection Ef as <-.
    destruct Hf as [->|Hf]; [left; auto|right; eapply IH; eauto].
Qed.

(** ** Everything that is yielded is matched. *)
Lemma gselect_sound t : forall here p s b u, gprep p = Some s -> p <> [] -> In (b, u) (fst (gselect here t s)) -> subtree t b = Some u /\ gmatches p (line here t b).
Proof.
  induction t as [n at_ ks IH|x] using xtree_ind'; intros here p s b u Ep Hp; cbn [gselect]; [|intros []]. intros H. apply gk_sound in H as (i & k & c & Hk & -> & Hc). cbn [Nat.add] in *.
  cbn [subtree line]. rewrite Hk. destruct (gstep s (here ++ [i]) k) as [x| |s'] eqn:Es; [destruct Hc|destruct Hc|]. destruct (gstep_sound _ _ _ _ _ Ep Es) as (q & Eq & Hq).
  rewrite Forall_forall in IH. destruct q as [|st q].
  - cbn in Eq. injection Eq as <-. destruct Hc as [Hc|[]]. injection Hc as <- <-. split; [reflexivity|]. apply Hq. destruct k; constructor.
  - assert (K : In (c, u) (fst (gselect (here ++ [i]) k s'))) by (destruct s'; auto; apply gprep_matched in Eq; discriminate).
    destruct (IH k (nth_error_In _ _ Hk) (here ++ [i]) (st :: q) s' c u Eq ltac:(discriminate) K) as [K1 K2]. split; auto.
Qed.

(** ** Without '**' *)
Lemma gm_cons st p x es : st <> GDeep -> gmatches (st :: p) (x :: es) <-> gstage_ok st x /\ gmatches p es.
Proof. intros Hd. split; [|intros (O & M); constructor; auto]. intros M. inversion M as [|st0 p0 x0 es0 O M'|]; subst; [auto|congruence]. Qed.
Lemma gm_nonempty p es : p <> [] -> gmatches p es -> es <> [].
Proof. intros Hp M. inversion M; subst; try congruence; intros E; apply app_eq_nil in E as [_ E]; discriminate. Qed.
Lemma line_snd here t b u : subtree t b = Some u -> length (line here t b) = length b.
Proof.
  revert here b. induction t as [n at_ ks IH|x] using xtree_ind'; intros here [|i b] Hs; cbn [line length subtree] in *; auto; [|discriminate].
  destruct (nth_error ks i) as [k|] eqn:Ek; [|discriminate]. cbn. f_equal. rewrite Forall_forall in IH. eapply IH; eauto. eapply nth_error_In; eauto.
Qed.
Lemma gselect_exact t : forall here p s, p <> [] -> no_gdeep p -> only_functions p -> gsafe p -> gprep p = Some s ->
  snd (gselect here t s) = None /\ forall b u, In (b, u) (fst (gselect here t s)) <-> subtree t b = Some u /\ gmatches p (line here t b).
Proof.
  induction t as [n at_ ks IH|x] using xtree_ind'; intros here p s Hp Hd Ho Hs Ep.
  - destruct p as [|st p]; [congruence|]. assert (Hst : st <> GDeep) by (intros ->; apply Hd; left; auto). cbn [gprep] in Ep. destruct (gprep p) as [next|] eqn:En; [|discriminate].
    assert (Ho1 : only_functions [st]) by (intros l m [->|[]]; apply (Ho l m); left; auto). assert (Hs1 : gsafe [st]) by (intros l f a [->|[]]; apply (Hs l f a); left; auto).
    assert (St := fun i k => gstage_step st next s (here ++ [i]) k Hst Ep Ho1 Hs1).
    assert (Hd' : no_gdeep p) by (intros K; apply Hd; right; auto). rewrite Forall_forall in IH. cbn [gselect].
    set (f := fun i k => match gstep s (here ++ [i]) k with GExn x => ([], Some x) | GNone => ([], None) | GTo GMatched => ([([], k)], None) | GTo s' => gselect (here ++ [i]) k s' end).
    assert (Hf : forall i k, In k ks -> snd (f i k) = None /\ forall c u, In (c, u) (fst (f i k)) <-> subtree k c = Some u /\ gmatches (st :: p) ((here ++ [i], k) :: line (here ++ [i]) k c)).
    { intros i k Hk. unfold f. destruct (St i k) as [[O ->]|[O ->]].
      - destruct p as [|s2 p].
        + cbn in En. injection En as <-. cbn [snd fst]. split; auto. intros c u. rewrite gm_cons by auto. split.
          * intros [K|[]]. injection K as <- <-. split; [reflexivity|]. split; auto. destruct k; constructor.
          * intros (K1 & _ & K2). pose proof (line_snd (here ++ [i]) k c u K1) as Kl. assert (E : line (here ++ [i]) k c = []) by (inversion K2; auto). rewrite E in Kl. destruct c; [|discriminate]. cbn in K1. injection K1 as ->. left; auto.
        + destruct (IH k Hk (here ++ [i]) (s2 :: p) next ltac:(discriminate) Hd' (only_cons _ _ Ho) (gsafe_cons _ _ Hs) En) as [G1 G2].
          assert (E : match next with GMatched => ([([], k)], None) | _ => gselect (here ++ [i]) k next end = gselect (here ++ [i]) k next) by (destruct next; auto; apply gprep_matched in En; discriminate).
          rewrite E. split; auto. intros c u. rewrite G2, gm_cons by auto. tauto.
      - split; auto. intros c u. rewrite gm_cons by auto. split; [intros []|]. intros (_ & K & _). contradiction. }
    assert (Hn : snd (gkids f 0 ks) = None) by (apply gk_none; intros i k Hk; apply Hf; eapply nth_error_In; eauto).
    split; auto. intros b u. split.
    + intros H. apply gk_sound in H as (i & k & c & Hk & -> & Hc). cbn [Nat.add] in *. apply Hf in Hc as [K1 K2]; [|eapply nth_error_In; eauto]. cbn [subtree line]. rewrite Hk. auto.
    + destruct b as [|i c]; [intros (_ & K); apply gm_nonempty in K; [destruct K; auto|discriminate]|]. cbn [subtree line]. destruct (nth_error ks i) as [k|] eqn:Hk; [|intros (K & _); discriminate].
      intros (K1 & K2). apply (gk_complete f ks 0 Hn i k c u Hk). cbn [Nat.add]. apply Hf; [eapply nth_error_In; eauto|auto].
  - cbn. split; auto. intros b u. split; [intros []|]. intros (_ & K). destruct p; [congruence|]. apply gm_nonempty in K; [destruct K; destruct b; auto|discriminate].
Qed.

(** ** '**' before the last component *)
Lemma gm_last st es : st <> GDeep -> gmatches [GDeep; st] es <-> exists l x, es = l ++ [x] /\ is_element (snd x) /\ gstage_ok st x.
Proof.
  intros Hd. split.
  - intros M. inversion M as [|s0 p0 x es0 O M'|p0 l x es0 He M']; subst; [destruct O|]. apply gm_cons in M' as [O M']; auto. inversion M'; subst. eauto.
  - intros (l & x & -> & He & O). apply gm_deep; auto. constructor; auto. constructor.
Qed.
Lemma gselect_until t : forall here st next, st <> GDeep -> only_functions [st] -> gsafe [st] -> gprep [st] = Some next ->
  snd (gselect here t (GUntil next)) = None /\
  forall b u, In (b, u) (fst (gselect here t (GUntil next))) <-> subtree t b = Some u /\ gmatches [GDeep; st] (line here t b) /\ forall c, above c b -> ~ gmatches [GDeep; st] (line here t c).
Proof.
  induction t as [n at_ ks IH|x] using xtree_ind'; intros here st next Hst Ho Hs Ep.
  - rewrite Forall_forall in IH. cbn [gprep] in Ep.
    assert (St := fun i k => gstage_step st GMatched next (here ++ [i]) k Hst Ep Ho Hs). cbn [gselect].
    set (f := fun i k => match gstep (GUntil next) (here ++ [i]) k with GExn x => ([], Some x) | GNone => ([], None) | GTo GMatched => ([([], k)], None) | GTo s' => gselect (here ++ [i]) k s' end).
    assert (Gl : forall i k c, gmatches [GDeep; st] ((here ++ [i], k) :: line (here ++ [i]) k c) <->
               (line (here ++ [i]) k c = [] /\ is_element k /\ gstage_ok st (here ++ [i], k)) \/ gmatches [GDeep; st] (line (here ++ [i]) k c)).
    { intros i k c. rewrite !gm_last by auto. split.
      - intros (l & x & E & He & O). destruct l as [|y l]; cbn in E; [injection E as <- E; left; auto|injection E as _ E; right; eauto].
      - intros [(E & He & O)|(l & x & -> & He & O)]; [rewrite E; exists [], (here ++ [i], k); auto|exists ((here ++ [i], k) :: l), x; auto]. }
    assert (Hnil : ~ gmatches [GDeep; st] []) by (rewrite gm_last by auto; intros (l & x & E & _); destruct l; discriminate).
    assert (Hf : forall i k, In k ks -> snd (f i k) = None /\ forall c u, In (c, u) (fst (f i k)) <-> subtree k c = Some u /\
              gmatches [GDeep; st] ((here ++ [i], k) :: line (here ++ [i]) k c) /\ forall d, above d c -> ~ gmatches [GDeep; st] ((here ++ [i], k) :: line (here ++ [i]) k d)).
    { intros i k Hk. unfold f. cbn [gstep]. destruct k as [m a' ks'|x].
      - destruct (St i (XE m a' ks')) as [[O ->]|[O ->]].
        + cbn [snd fst]. split; auto. intros c u. split.
          * intros [K|[]]. injection K as <- <-. split; [reflexivity|]. split; [apply Gl; left; split; auto; split; auto; repeat eexists|]. intros d (j & r & E). destruct d; discriminate.
          * intros (K1 & _ & K3). destruct c as [|j c]; [cbn in K1; injection K1 as <-; left; auto|]. exfalso. apply (K3 []); [exists j, c; auto|]. apply Gl. left. split; auto. split; auto. repeat eexists.
        + destruct (IH _ Hk (here ++ [i]) st next Hst Ho Hs Ep) as [G1 G2]. split; auto. intros c u. rewrite G2.
          assert (Gd : forall d, gmatches [GDeep; st] ((here ++ [i], XE m a' ks') :: line (here ++ [i]) (XE m a' ks') d) <-> gmatches [GDeep; st] (line (here ++ [i]) (XE m a' ks') d)) by (intros d; rewrite Gl; tauto).
          split; intros (K1 & K2 & K3); (split; [auto|]); (split; [apply Gd; auto|]); intros d Hd K; apply (K3 d Hd), Gd; auto.
      - destruct (IH _ Hk (here ++ [i]) st next Hst Ho Hs Ep) as [G1 G2]. split; auto. intros c u. cbn [gselect fst]. split; [intros []|]. intros (K1 & K2 & _). destruct c; [|discriminate].
        apply Gl in K2 as [(_ & (? & ? & ? & K) & _)|K]; [discriminate|]. cbn in K. contradiction. }
    assert (Hn : snd (gkids f 0 ks) = None) by (apply gk_none; intros i k Hk; apply Hf; eapply nth_error_In; eauto).
    split; auto. intros b u. split.
    + intros H. apply gk_sound in H as (i & k & c & Hk & -> & Hc). cbn [Nat.add] in *. apply Hf in Hc as (K1 & K2 & K3); [|eapply nth_error_In; eauto]. cbn [subtree line]. rewrite Hk. split; auto. split; auto.
      intros d (j & r & E). destruct d as [|j' d]; [exact Hnil|]. cbn in E. injection E as <- E. cbn [line]. rewrite Hk. apply K3. exists j, r. auto.
    + destruct b as [|i c]; [intros (_ & K & _); contradiction|]. cbn [subtree line]. destruct (nth_error ks i) as [k|] eqn:Hk; [|intros (K & _); discriminate].
      intros (K1 & K2 & K3). apply (gk_complete f ks 0 Hn i k c u Hk). cbn [Nat.add]. apply Hf; [eapply nth_error_In; eauto|]. split; auto. split; auto.
      intros d (j & r & E). specialize (K3 (i :: d)). cbn [line] in K3. rewrite Hk in K3. apply K3. exists j, r. rewrite E. reflexivity.
  - cbn. split; auto. intros b u. split; [intros []|]. intros (_ & K & _). apply gm_nonempty in K; [destruct K; destruct b; auto|discriminate].
Qed.
Lemma gselect_deep t : forall here pre st s, st <> GDeep -> no_gdeep pre -> only_functions (pre ++ [GDeep; st]) -> gsafe (pre ++ [GDeep; st]) -> gprep (pre ++ [GDeep; st]) = Some s ->
  snd (gselect here t s) = None /\
  forall b u, In (b, u) (fst (gselect here t s)) <-> subtree t b = Some u /\ gmatches (pre ++ [GDeep; st]) (line here t b) /\ forall c, above c b -> ~ gmatches (pre ++ [GDeep; st]) (line here t c).
Proof.
  induction t as [n at_ ks IH|x] using xtree_ind'; intros here pre st s Hst Hd Ho Hs Ep.
  - destruct pre as [|s0 pre].
    + cbn [app gprep] in Ep. destruct (gprep_stage st GMatched) as [next|] eqn:En; [|discriminate]. cbn in Ep. injection Ep as <-. cbn [app]. apply gselect_until; auto; [apply (only_cons _ _ Ho)|apply (gsafe_cons _ _ Hs)].
    + cbn [app] in *. assert (H0 : s0 <> GDeep) by (intros ->; apply Hd; left; auto). cbn [gprep] in Ep. destruct (gprep (pre ++ [GDeep; st])) as [next|] eqn:En; [|discriminate].
      assert (Ho1 : only_functions [s0]) by (intros l m [->|[]]; apply (Ho l m); left; auto). assert (Hs1 : gsafe [s0]) by (intros l f a [->|[]]; apply (Hs l f a); left; auto).
      assert (St := fun i k => gstage_step s0 next s (here ++ [i]) k H0 Ep Ho1 Hs1).
      assert (Hd' : no_gdeep pre) by (intros K; apply Hd; right; auto). rewrite Forall_forall in IH. cbn [gselect]. set (q := pre ++ [GDeep; st]) in *.
      assert (Hq : q <> []) by (unfold q; destruct pre; discriminate).
      set (f := fun i k => match gstep s (here ++ [i]) k with GExn x => ([], Some x) | GNone => ([], None) | GTo GMatched => ([([], k)], None) | GTo s' => gselect (here ++ [i]) k s' end).
      assert (Hf : forall i k, In k ks -> snd (f i k) = None /\ forall c u, In (c, u) (fst (f i k)) <-> subtree k c = Some u /\
                gmatches (s0 :: q) ((here ++ [i], k) :: line (here ++ [i]) k c) /\ forall d, above d c -> ~ gmatches (s0 :: q) ((here ++ [i], k) :: line (here ++ [i]) k d)).
      { intros i k Hk. unfold f. destruct (St i k) as [[O ->]|[O ->]].
        - destruct (IH k Hk (here ++ [i]) pre st next Hst Hd' (only_cons _ _ Ho) (gsafe_cons _ _ Hs) En) as [G1 G2]. fold q in G2.
          assert (E : match next with GMatched => ([([], k)], None) | _ => gselect (here ++ [i]) k next end = gselect (here ++ [i]) k next) by (destruct next; auto; apply gprep_matched in En; congruence).
          rewrite E. split; auto. intros c u. rewrite G2. split; intros (K1 & K2 & K3); (split; [auto|]); (split; [apply gm_cons in K2 || apply gm_cons; tauto|]);
            intros d Hdc K; apply (K3 d Hdc); apply gm_cons in K || apply gm_cons; tauto.
        - split; auto. intros c u. split; [intros []|]. intros (_ & K & _). apply gm_cons in K as [K _]; auto; contradiction. }
      assert (Hn : snd (gkids f 0 ks) = None) by (apply gk_none; intros i k Hk; apply Hf; eapply nth_error_In; eauto).
      split; auto. intros b u. split.
      * intros H. apply gk_sound in H as (i & k & c & Hk & -> & Hc). cbn [Nat.add] in *. apply Hf in Hc as (K1 & K2 & K3); [|eapply nth_error_In; eauto]. cbn [subtree line]. rewrite Hk. split; auto. split; auto.
        intros d (j & r & E). destruct d as [|j' d]; [intros K; apply gm_nonempty in K; [destruct K; auto|discriminate]|]. cbn in E. injection E as <- E. cbn [line]. rewrite Hk. apply K3. exists j, r. auto.
      * destruct b as [|i c]; [intros (_ & K & _); apply gm_nonempty in K; [destruct K; auto|discriminate]|]. cbn [subtree line]. destruct (nth_error ks i) as [k|] eqn:Hk; [|intros (K & _); discriminate].
        intros (K1 & K2 & K3). apply (gk_complete f ks 0 Hn i k c u Hk). cbn [Nat.add]. apply Hf; [eapply nth_error_In; eauto|]. split; auto. split; auto.
        intros d (j & r & E). specialize (K3 (i :: d)). cbn [line] in K3. rewrite Hk in K3. apply K3. exists j, r. rewrite E. reflexivity.
  - cbn. split; auto. intros b u. split; [intros []|]. intros (_ & K & _). apply gm_nonempty in K; [destruct K; destruct b; auto|destruct pre; discriminate].
Qed.

(** ** The theorems *)
Lemma select_fun_exact p t : no_gdeep p -> p <> [] -> only_functions p -> gsafe p ->
  exists l, select_fun t p = (l, None) /\ listing t (fun a _ => gmatches p (line [] t a)) l.
Proof.
  intros Hd Hp Ho Hs. unfold select_fun. destruct (gprep_some p Ho) as (s & Es). rewrite Es. destruct (gselect_exact t [] p s Hp Hd Ho Hs Es) as [H1 H2].
  pose proof (gselect_sorted t [] s) as H3. destruct (gselect [] t s) as [l x]. cbn [fst snd] in *. subst x. exists l. split; auto. split; auto.
Qed.
Lemma select_fun_deep pre st t : no_gdeep pre -> st <> GDeep -> only_functions (pre ++ [GDeep; st]) -> gsafe (pre ++ [GDeep; st]) ->
  exists l, select_fun t (pre ++ [GDeep; st]) = (l, None) /\
    listing t (fun a _ => gmatches (pre ++ [GDeep; st]) (line [] t a) /\ forall b, above b a -> ~ gmatches (pre ++ [GDeep; st]) (line [] t b)) l.
Proof.
  intros Hd Hst Ho Hs. unfold select_fun. destruct (gprep_some _ Ho) as (s & Es). rewrite Es. destruct (gselect_deep t [] pre st s Hst Hd Ho Hs Es) as [H1 H2].
  pose proof (gselect_sorted t [] s) as H3. destruct (gselect [] t s) as [l x]. cbn [fst snd] in *. subst x. exists l. split; auto. split; auto.
Qed.
Lemma select_fun_sound p t : p <> [] -> StronglySorted doc_before (map fst (fst (select_fun t p))) /\
  forall b u, In (b, u) (fst (select_fun t p)) -> subtree t b = Some u /\ gmatches p (line [] t b).
Proof.
  intros Hp. unfold select_fun. destruct (gprep p) as [s|] eqn:Es; [|split; [constructor|intros b u []]]. split; [apply gselect_sorted|]. intros b u. apply gselect_sound; auto.
Qed.
Lemma select_fun_names p l n t : In (GTup l) p -> In (GStr n) l -> select_fun t p = ([], Some GTypeErr).
Proof. intros Hp Hl. unfold select_fun. rewrite (gprep_names _ _ _ Hp Hl). reflexivity. Qed.

(** Patterns without tuples: the model of TreeUtil.v *)
Definition in_stage (st : stage) : gstage := match st with StName n => GName n | StAny => GAny | StDeep => GDeep | StAlt ns => GTup (map GStr ns) end.
Fixpoint in_gst (s : pst) : gst :=
  match s with
  | PMatched => GMatched
  | POnly n next => GOnly n (in_gst next)
  | PAnyName next => GElem (in_gst next)
  | PUntil next => GUntil (in_gst next)
  | PAlt ns next => GOneOf [] (in_gst next)
  end.
Definition in_gres (r : sres) : gres := match r with SType => GExn GTypeErr | SNone => GNone | SState s => GTo (in_gst s) end.
Fixpoint plain (s : pst) : Prop :=
  match s with PMatched => True | POnly _ s | PAnyName s | PUntil s => plain s | PAlt ns s => ns = [] /\ plain s end.
Lemma gstep_plain s a t : plain s -> gstep (in_gst s) a t = in_gres (node_step s t).
Proof.
  destruct t as [n at_ ks|x]; cbn [node_step].
  - induction s as [|m s IH|s IH|s IH|ns s IH]; intros P; cbn [in_gst gstep pst_step in_gres plain] in *; auto.
    + destruct (str_eqb n m); reflexivity.
    + rewrite (IH P). destruct (pst_step s n); reflexivity.
    + destruct P as [-> P]. reflexivity.
  - destruct s; intros P; cbn in *; auto.
Qed.
Lemma plain_step s t s' : plain s -> node_step s t = SState s' -> plain s'.
Proof.
  destruct t as [n at_ ks|x]; cbn [node_step].
  - revert s'. induction s as [|m s IH|s IH|s IH|ns s IH]; intros s' P E; cbn [pst_step plain] in *; [discriminate| | | |].
    + destruct (str_eqb n m); [injection E as <-; auto|discriminate].
    + injection E as <-; auto.
    + destruct (pst_step s n) as [| |s1] eqn:E1; [discriminate|injection E as <-; exact P|]. injection E as <-. exact (IH _ P eq_refl).
    + destruct P as [-> P]. cbn in E. discriminate.
  - destruct s; intros P E; try discriminate. injection E as <-. exact P.
Qed.
Definition in_result (r : list located * bool) : list located * option gexn := (fst r, if snd r then Some GTypeErr else None).
Lemma gkids_ext f g ks : (forall i k, In k ks -> f i k = in_result (g k)) -> forall j, gkids f j ks = in_result (sel_kids g j ks).
Proof.
  induction ks as [|k ks IH]; intros H j; cbn [gkids sel_kids]; auto. rewrite (H j k (or_introl eq_refl)). rewrite (IH (fun i k' Hk => H i k' (or_intror Hk))).
  destruct (g k) as [l []]; cbn; auto. destruct (sel_kids g (S j) ks) as [l2 e]. reflexivity.
Qed.
Lemma gselect_plain t : forall here s, plain s -> gselect here t (in_gst s) = in_result (select_state t s).
Proof.
  induction t as [n a ks IH|x] using xtree_ind'; intros here s P; cbn [gselect select_state]; auto. apply gkids_ext. intros i k Hk. rewrite gstep_plain by auto. rewrite Forall_forall in IH.
  destruct (node_step s k) as [| |s'] eqn:E; cbn [in_gres]; auto. pose proof (plain_step _ _ _ P E) as P'. destruct s' eqn:Es; [reflexivity|rewrite <- Es in *..]; rewrite (Es) at 1; cbn [in_gst];
  match goal with |- gselect ?h ?k _ = _ => exact (IH k Hk h _ P') || (subst s'; exact (IH k Hk h _ P')) end.
Qed.
Lemma select_fun_plain t p : select_fun t (map in_stage p) = in_result (select_pattern t p).
Proof.
  unfold select_fun, select_pattern. destruct (existsb bad_stage p) eqn:E.
  - apply existsb_exists in E as (st & Hi & Hb). destruct st as [| | |[|n ns]]; try discriminate. rewrite (gprep_names _ (map GStr (n :: ns)) n); [reflexivity| |left; auto].
    apply in_map_iff. exists (StAlt (n :: ns)). auto.
  - assert (K : gprep (map in_stage p) = Some (in_gst (prep_from PMatched p)) /\ plain (prep_from PMatched p)).
    { induction p as [|st p IH]; [split; auto; exact I|]. cbn [existsb] in E. apply orb_false_iff in E as [E1 E2]. destruct (IH E2) as [K1 K2]. cbn [map gprep]. rewrite K1.
      unfold prep_from in *. cbn [fold_right]. destruct st as [| | |[|n ns]]; cbn; auto. discriminate. }
    destruct K as [-> K]. apply gselect_plain. auto.
Qed.
