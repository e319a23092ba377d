(** Sinks that edit: the sender still sends the right trees if they stay loose, and doubles
    them if they are appended somewhere. *)
From Verif Require Import PyStr Parser ParserM XTree Grammar ParserSpec ParserInv ParserMore Heap Builder HeapSpec BuilderFacts HeapFacts BuilderMore.
From Verif Require Import Path Nodes Pattern PatternSpec PatternFacts TreeUtil TreeUtilSpec TreeUtilFacts.
From Verif Require Import TreeIter TreeIterSpec TreeIterFacts TreeIterMore TreeSink TreeSinkSpec.

(** ** Statements of the handler itself *)
Definition no_send (l : list tstmt) : Prop := forall ix, ~ In (TSend ix) l.
Lemma wruns_own sink l : forall s s', no_send l -> wruns sink s l s' -> truns s l s'.
Proof.
  induction l as [|st l IH]; intros s s' Hn H; inversion H as [u v C|u s1 s2 st0 l0 v C X R]; subst; [constructor; auto|].
  econstructor; [exact C| |apply IH; [|exact R]].
  - inversion X; subst; auto. exfalso. apply (Hn ix). left; auto.
  - intros ix Hi. apply (Hn ix). right; auto.
Qed.
Ltac nosend := intros ?; cbn; intuition discriminate.
Definition nothing : nat -> xtree -> Prop := fun _ _ => False.
Lemma kinv_nothing lo s : kinv lo nothing s. Proof. intros i t []. Qed.

(** ** Loose elements *)
Lemma loose_gc h h' roots i : gc roots h h' -> xml_parent h i = None -> xml_parent h' i = None.
Proof.
  intros (_ & Hg) H. unfold xml_parent in *. destruct (hp h' i) as [o|] eqn:E; [|reflexivity].
  destruct (Hg i) as [G|[G _]]; [|congruence]. rewrite G in E. rewrite E in H. destruct (oparent o) as [p|]; [|reflexivity].
  destruct (hp h p) eqn:Ep; [discriminate|]. destruct (Hg p) as [G2|[G2 _]]; [rewrite G2, Ep|rewrite G2]; reflexivity.
Qed.

Lemma end_outer_with sink b stack n a ks s s' stack' : leaves_loose sink ->
  tinv false b stack (ABuild (n, a, ks) []) nothing s ->
  wruns sink s [TLoad 0; TSend 0; TUp 0] s' ->
  tinv false (nxt (theap s')) stack' AIdle nothing (set_ctl s' (mkC stack' [0])) /\
  exists h, tsent s' = tsent s ++ [(0, Some b, h)] /\ placed h None b (XE n a ks).
Proof.
  intros Hl Hi Hr. inversion Hr as [|u s1 s2 st0 l0 v C0 X0 R0]; subst. clear Hr. destruct (tinv_collect _ _ _ _ _ _ _ Hi C0) as [Hi1 Hs1]. clear Hi.
  inversion R0 as [|u0 s3 s4 st1 l1 v0 C1 X1 R1]; subst. clear R0.
  inversion R1 as [|u1 s5 s6 st2 l2 v1 C2 X2 R2]; subst. clear R1.
  inversion R2 as [u3 v3 C3|]; subst. clear R2.
  inversion X0 as [st s0 s0' Hn X0'|]; subst. inversion X0'; subst. clear X0 X0' Hn.
  assert (Hi2 : tinv false b stack (ABuild (n, a, ks) []) nothing s3 /\ tsent s3 = tsent s1).
  { cut (tinv false b stack (ABuild (n, a, ks) []) nothing (mkT (theap s1) (troots s1) (tpars s1) (tctl s1) (nth 0 (tpars s1) None) (telem s1) (ttext s1) (tkept s1) (tsent s1)));
      [intros Hcut; exact (tinv_collect _ _ _ _ _ _ _ Hcut C1)|].
    replace (nth 0 (tpars s1) None) with (tpar s1) by (destruct Hi1 as [_ -> _ _ _]; reflexivity). destruct Hi1 as [H1 H2 H3 H4 H5 H6]. destruct s1; constructor; auto. }
  destruct Hi2 as [[H1 H2 H3 H4 H5 H6] Hs3].
  assert (Hp1 : tpar s3 = Some b) by (destruct H4 as (_ & G & _); exact G).
  assert (Hpl : placed (theap s3) None b (XE n a ks)) by (destruct H4 as (_ & _ & _ & G); exact (spine_placed _ _ [] n a ks G)).
  inversion X1 as [st s0 s0' Hn _|ix s0 h' kept Hsk Hnx]; subst; [exfalso; apply (Hn 0); auto|]. clear X1.
  rewrite Hp1 in *. apply Hl in Hsk.
  pose proof C2 as (K2 & G2 & A1 & A2 & A3 & A4 & A5 & A6 & A7). cbn [theap troots tpars tctl tpar telem ttext tkept tsent] in *.
  inversion X2 as [st s0 s0' Hn X2'|]; subst. inversion X2'; subst. clear X2 X2' Hn. rewrite A4 in C3.
  pose proof (loose_gc _ _ _ _ G2 Hsk) as Hq. rewrite Hq in C3.
  pose proof C3 as (K3 & (Kn3 & _) & B1 & B2 & B3 & B4 & B5 & B6 & B7). cbn [theap troots tpars tctl tpar telem ttext tkept tsent] in *.
  split; [constructor|].
  - reflexivity.
  - cbn. rewrite B2, B4, A2, H2. reflexivity.
  - cbn. rewrite B1, A1. exact H3.
  - cbn. rewrite B4. auto.
  - apply kinv_nothing.
  - discriminate.
  - exists (theap s3). split; [|exact Hpl]. rewrite B7, A7. congruence.
Qed.

Lemma step_with sink st b stack m s e stmts c x s1 stack' m' out : leaves_loose sink ->
  tinv false b stack m nothing s -> ctl_all [st] 0 (tctl s) e = (stmts, c, x) -> wruns sink s stmts s1 ->
  astep st stack m e = Some (stack', m', out) ->
  x = None /\ exists lst b', tsent s1 = tsent s ++ lst /\ same_trees lst out /\ tinv false b' stack' m' nothing (set_ctl s1 c).
Proof.
  intros Hl Hi Hc Hr Ha.
  assert (Hown : no_send stmts -> x = None /\ exists lst b', tsent s1 = tsent s ++ lst /\ same_trees lst out /\ tinv false b' stack' m' nothing (set_ctl s1 c)).
  { intros Hn. apply (wruns_own _ _ _ _ Hn) in Hr. destruct (step_ok _ _ _ _ _ _ _ _ _ _ _ _ _ _ _ Hi Hc Hr Ha) as (H1 & lst & H2 & H3 & H4).
    split; auto. exists lst, (b + total_size out). split; auto. split; auto. eapply tinv_weaken; [|exact H4]. intros i t []. }
  pose proof (ti_ctl _ _ _ _ _ _ Hi) as Ht. rewrite Ht in Hc. cbn [ctl_all] in Hc.
  destruct e as [n a anc|n anc|t]; cbn [ctl_one cdepths cstack] in Hc.
  - destruct m as [|f fs]; cbn [depth_of nth Nat.eqb] in Hc.
    + destruct (match_state st (stack ++ [n])) as [[]|]; cbn [app] in Hc; inversion Hc; subst; apply Hown; nosend.
    + cbn [app] in Hc. inversion Hc; subst. apply Hown; nosend.
  - cbn [astep] in Ha. destruct stack as [|s0 stk] eqn:Es; [discriminate|]. rewrite <- Es in *. destruct m as [|[[n0 a0] ks0] fs]; cbn [depth_of nth Nat.eqb] in Hc.
    + cbn [app] in Hc. inversion Hc; subst. apply Hown; nosend.
    + destruct fs as [|[[n1 a1] ks1] fs]; cbn [length Nat.eqb app Nat.sub set_nth] in Hc; inversion Hc; subst stmts c x; [|apply Hown; nosend].
      inversion Ha; subst stack' m' out. eapply end_outer_with in Hi; [|exact Hl|exact Hr]. destruct Hi as (Hi & h & Hs & Hp). split; auto.
      exists [(0, Some b, h)], (nxt (theap s1)). split; auto. split; [|exact Hi]. constructor; [|constructor]. exists b, h. split; auto. apply placed_tree; auto.
  - destruct m as [|[[n0 a0] ks0] fs]; cbn [depth_of nth Nat.eqb app] in Hc; inversion Hc; subst stmts c x; apply Hown; nosend.
Qed.

Lemma run_with sink st evs : leaves_loose sink -> forall b stack m s s' x stack' m' out,
  tinv false b stack m nothing s -> whandle sink [st] s evs s' x -> arun st stack m evs = Some (stack', m', out) ->
  x = None /\ exists lst b', tsent s' = tsent s ++ lst /\ same_trees lst out /\ tinv false b' stack' m' nothing s'.
Proof.
  intros Hl. induction evs as [|e evs IH]; intros b stack m s s' x stack' m' out Hi Hh Ha; cbn [arun] in Ha.
  - inversion Ha; subst. inversion Hh; subst. split; auto. exists [], b. destruct (tinv_collect _ _ _ _ _ _ _ Hi H) as [H1 H2]. rewrite app_nil_r.
    split; auto. split; [constructor|auto].
  - destruct (astep st stack m e) as [[[stk1 m1] o1]|] eqn:Es; [|discriminate].
    destruct (arun st stk1 m1 evs) as [[[stk2 m2] o2]|] eqn:Er; [|discriminate]. inversion Ha; subst.
    inversion Hh as [|u e0 evs0 stm c s1 v x0 Hc Hr Hh1|u e0 evs0 stm c s1 x0 Hc Hr]; subst.
    + destruct (step_with _ _ _ _ _ _ _ _ _ _ _ _ _ _ Hl Hi Hc Hr Es) as (_ & l1 & b1 & H1 & H2 & H3).
      destruct (IH _ _ _ _ _ _ _ _ _ H3 Hh1 Er) as (-> & l2 & b2 & G1 & G2 & G3). split; auto. exists (l1 ++ l2), b2.
      cbn [set_ctl tsent] in G1. split; [rewrite G1, H1, app_assoc; reflexivity|]. split; [apply Forall2_app; auto|auto].
    + destruct (step_with _ _ _ _ _ _ _ _ _ _ _ _ _ _ Hl Hi Hc Hr Es) as (? & _). discriminate.
Qed.

Lemma idle_again b s : tinv false b [] AIdle nothing s -> tinv false b [] AIdle nothing (new_handler s).
Proof.
  intros [H1 H2 H3 [H4 H4'] H5 H6]. constructor.
  - exact H1.
  - cbn. rewrite H2, H4. reflexivity.
  - exact H3.
  - cbn. auto.
  - apply kinv_nothing.
  - discriminate.
Qed.
Lemma served_idle sink p s : leaves_loose sink -> p <> [] -> (forall names, fails (prep p) names = false) -> served_with sink p s ->
  exists b, tinv false b [] AIdle nothing s.
Proof.
  intros Hl Hp Hf H. induction H as [h k|s t s' Hs IH Ht Hh].
  - exists (nxt h). constructor; try reflexivity; [split; reflexivity|apply kinv_nothing|discriminate].
  - destruct IH as (b & Hi). apply idle_again in Hi. pose proof (arun_idle (prep p) t Hf (prep_not_matched p Hp) [] (nil_hits _)) as Ha.
    destruct (run_with _ _ _ Hl _ _ _ _ _ _ _ _ _ Hi Hh Ha) as (_ & lst & b' & _ & _ & G). exists b'. exact G.
Qed.
Lemma document_with sink p s t s' x : leaves_loose sink -> p <> [] -> (forall names, fails (prep p) names = false) ->
  served_with sink p s -> whandle sink (stateses [p]) (new_handler s) (doc_events t) s' x ->
  x = None /\ sent_since s s' 0 (map snd (found (hits (prep p)) [] t)).
Proof.
  intros Hl Hp Hf Hs Hh. destruct (served_idle _ _ _ Hl Hp Hf Hs) as (b & Hi). apply idle_again in Hi.
  pose proof (arun_idle (prep p) t Hf (prep_not_matched p Hp) [] (nil_hits _)) as Ha.
  destruct (run_with _ _ _ Hl _ _ _ _ _ _ _ _ _ Hi Hh Ha) as (-> & lst & b' & G1 & G2 & _). split; auto. exists lst. auto.
Qed.

(** What is found, for the patterns of C39 and C40. *)
Lemma found_exact p t : no_deep p -> p <> [] -> is_element t ->
  listing t (fun a u => is_element u /\ matches p (path_names t a)) (found (hits (prep p)) [] t).
Proof.
  intros Hd Hp Ht. eapply listing_ext; [|apply found_listing]. intros a u Hu. cbn. rewrite hits_exact by auto. split; [tauto|].
  intros [H4 H5]. split; auto. split; auto. intros b Hb. destruct (hits (prep p) (path_names t b)) eqn:E; [|reflexivity]. exfalso.
  apply hits_exact in E; auto. destruct (path_names_above t a b u Hu H4 Hb) as (y & Ey & Hy). apply matches_len in E; auto. apply matches_len in H5; auto.
  rewrite Ey, app_length in H5. destruct y; [congruence|]. cbn in H5. lia.
Qed.
Lemma loose_found sink p s t s' x : leaves_loose sink -> ~ ends_deep p -> p <> [] -> served_with sink p s -> is_element t ->
  whandle sink (stateses [p]) (new_handler s) (doc_events t) s' x ->
  x = None /\ served_with sink p s' /\ sent_since s s' 0 (map snd (found (hits (prep p)) [] t)).
Proof.
  intros Hl Hd Hp Hs Ht Hh. assert (Hf : forall names, fails (prep p) names = false) by (intros; apply fails_never; auto).
  destruct (document_with _ _ _ _ _ _ Hl Hp Hf Hs Hh) as (-> & H). split; auto. split; [econstructor; eauto|]. exact H.
Qed.
Theorem loose_exact sink p s t s' x : leaves_loose sink -> no_deep p -> p <> [] -> served_with sink p s -> is_element t ->
  whandle sink (stateses [p]) (new_handler s) (doc_events t) s' x ->
  x = None /\ served_with sink p s' /\
  exists l, listing t (fun a u => is_element u /\ matches p (path_names t a)) l /\ sent_since s s' 0 (map snd l).
Proof.
  intros Hl Hd Hp Hs Ht Hh. destruct (loose_found _ _ _ _ _ _ Hl (no_deep_ends _ Hd) Hp Hs Ht Hh) as (-> & Hs' & H). split; auto. split; auto.
  exists (found (hits (prep p)) [] t). split; auto. apply found_exact; auto.
Qed.

(** ** Appending to a collector *)
(** The objects from [b] on, with the parent of [b] itself cut off. *)
Definition view (b : nat) (h : heap) : heap :=
  mkH (fun j => if Nat.ltb j b then None else if Nat.eqb j b then option_map (fun o => set_parent o None) (hp h j) else hp h j) (nxt h).
Definition P (b : nat) (r p : option ref) (s : tstate) : bstate := mkB (view b (theap s)) r p (telem s) (ttext s).
Definition eqv (E F : bstate) : Prop :=
  nxt (bheap E) = nxt (bheap F) /\ (forall j, hp (bheap E) j = hp (bheap F) j) /\ broot E = broot F /\ bpar E = bpar F /\ belem E = belem F /\ btext E = btext F.
Lemma view_low b h j : j < b -> hp (view b h) j = None.
Proof. intros H. unfold view; cbn [hp]. apply Nat.ltb_lt in H. rewrite H. reflexivity. Qed.
Lemma view_at b h : hp (view b h) b = option_map (fun o => set_parent o None) (hp h b).
Proof. unfold view; cbn [hp]. rewrite Nat.ltb_irrefl, Nat.eqb_refl. reflexivity. Qed.
Lemma view_high b h j : b < j -> hp (view b h) j = hp h j.
Proof. intros H. unfold view; cbn [hp]. destruct (Nat.ltb_spec j b); [lia|]. destruct (Nat.eqb_spec j b); [lia|]. reflexivity. Qed.
Lemma reach_eqv h1 h2 r i : (forall j, hp h1 j = hp h2 j) -> reach h1 r i -> reach h2 r i.
Proof. intros He H. induction H as [i H|i j o _ IH Ho Hj]; [apply re_root; auto|]. eapply re_kid; [exact IH|rewrite <- He; exact Ho|exact Hj]. Qed.
Lemma collect_eqv E F G : eqv E F -> collect F G -> collect E G.
Proof.
  intros (H1 & H2 & H3 & H4 & H5 & H6) ((Hn & Hg) & G1 & G2 & G3 & G4). split; [|repeat split; congruence]. split; [congruence|].
  intros i. destruct (Hg i) as [K|[K1 K2]]; [left; rewrite H2; exact K|right; split; auto]. intros K. apply K2. unfold broots in *. rewrite <- H3, <- H4, <- H5, <- H6.
  eapply reach_eqv; [exact H2|exact K].
Qed.
Lemma reach_view b h r i : reach (view b h) r i -> reach h r i.
Proof.
  intros H. induction H as [i H|i j o _ IH Ho Hj]; [apply re_root; auto|].
  destruct (Nat.lt_trichotomy i b) as [L|[->|L]].
  - rewrite view_low in Ho by auto. discriminate.
  - rewrite view_at in Ho. destruct (hp h b) as [o'|] eqn:E; [|discriminate]. cbn in Ho. injection Ho as <-. eapply re_kid; [exact IH|exact E|].
    destruct o'; exact Hj.
  - rewrite view_high in Ho by auto. eapply re_kid; eauto.
Qed.
Lemma collect_view b r p s s' : tcollect s s' -> (r = None \/ r = nth 0 (troots s) None) -> (p = None \/ p = tpar s) ->
  collect (P b r p s) (P b r p s').
Proof.
  intros (_ & (Hn & Hg) & H1 & _ & _ & H2 & H3 & H4 & _) Hr Hp. split; [|cbn; rewrite H3, H4; auto]. split; [exact Hn|].
  intros i. cbn [P bheap]. destruct (Nat.lt_trichotomy i b) as [L|[->|L]].
  - left. rewrite !view_low by auto. reflexivity.
  - rewrite !view_at. destruct (Hg b) as [G|[G1 G2]]; [left; rewrite G; reflexivity|right; rewrite G1; split; [reflexivity|]]. intros K. apply G2. apply reach_view in K.
    eapply reach_mono; [|exact K]. intros j Hj. revert Hj. unfold broots, tlive. cbn [P broot bpar belem btext]. rewrite !in_app_iff.
    intros [J|[J|[J|J]]]; auto 8; [destruct Hr as [-> | ->]; [destruct J|]|destruct Hp as [-> | ->]; [destruct J|auto]].
    left. apply in_flat_map. destruct (troots s) as [|o rr]; cbn in J; [destruct J|]. exists o. split; [left; auto|auto].
  - rewrite !view_high by auto. destruct (Hg i) as [G|[G1 G2]]; [left; exact G|right; split; auto]. intros K. apply G2. apply reach_view in K.
    eapply reach_mono; [|exact K]. intros j Hj. revert Hj. unfold broots, tlive. cbn [P broot bpar belem btext]. rewrite !in_app_iff.
    intros [J|[J|[J|J]]]; auto 8; [destruct Hr as [-> | ->]; [destruct J|]|destruct Hp as [-> | ->]; [destruct J|auto]].
    left. apply in_flat_map. destruct (troots s) as [|o rr]; cbn in J; [destruct J|]. exists o. split; [left; auto|auto].
Qed.

(** The heap operations seen in the view. *)
Lemma view_alloc b h o : b < nxt h -> forall j, hp (fst (alloc (view b h) o)) j = hp (view b (fst (alloc h o))) j.
Proof.
  intros Hb j. rewrite hp_alloc. cbn [nxt view]. destruct (Nat.eqb_spec j (nxt h)) as [->|Hn].
  - rewrite view_high by auto. cbn. rewrite Nat.eqb_refl. reflexivity.
  - unfold view, alloc; cbn [hp fst]. destruct (Nat.eqb_spec j (nxt h)); [lia|]. reflexivity.
Qed.
Lemma view_alloc_first h n a p j : hp (fst (alloc (view (nxt h) h) (OElem n a [] None))) j = hp (view (nxt h) (fst (alloc h (OElem n a [] p)))) j.
Proof.
  rewrite hp_alloc. cbn [nxt view]. destruct (Nat.eqb_spec j (nxt h)) as [->|Hn].
  - rewrite view_at. cbn. rewrite Nat.eqb_refl. reflexivity.
  - unfold view, alloc; cbn [hp fst]. destruct (Nat.eqb_spec j (nxt h)); [lia|]. reflexivity.
Qed.
Lemma hp_append h p i j : hp (append_kid h p i) j =
  if Nat.eqb j p then match hp h p with Some (OElem n a ks q) => Some (OElem n a (ks ++ [i]) q) | o => o end else hp h j.
Proof.
  unfold append_kid. destruct (hp h p) as [[n a ks q|x q]|] eqn:E.
  - rewrite hp_upd. reflexivity.
  - destruct (Nat.eqb_spec j p) as [->|]; [exact E|reflexivity].
  - destruct (Nat.eqb_spec j p) as [->|]; [exact E|reflexivity].
Qed.
Lemma view_append b h p i : b <= p -> forall j, hp (append_kid (view b h) p i) j = hp (view b (append_kid h p i)) j.
Proof.
  intros Hp j. rewrite hp_append. destruct (Nat.lt_trichotomy j b) as [L|[->|L]].
  - destruct (Nat.eqb_spec j p); [lia|]. rewrite !view_low by auto. reflexivity.
  - rewrite (view_at b (append_kid h p i)), hp_append. destruct (Nat.eqb_spec b p) as [<-|]; rewrite view_at; [|reflexivity]. destruct (hp h b) as [[]|]; reflexivity.
  - rewrite (view_high b (append_kid h p i) j L), hp_append. destruct (Nat.eqb_spec j p) as [->|]; rewrite view_high by auto; reflexivity.
Qed.
Lemma view_append_low b h p i : p < b -> forall j, hp (view b (append_kid h p i)) j = hp (view b h) j.
Proof.
  intros Hp j. destruct (Nat.lt_trichotomy j b) as [L|[->|L]];
    [rewrite !view_low by auto; reflexivity|rewrite !view_at, hp_append|rewrite (view_high _ _ _ L), (view_high _ _ _ L), hp_append].
  - destruct (Nat.eqb_spec b p); [lia|reflexivity].
  - destruct (Nat.eqb_spec j p); [lia|reflexivity].
Qed.

(** * A sink that edits nothing *)
Lemma looks_on_exec st s s' : wexec looks_on st s s' <-> texec st s s'.
Proof.
  split.
  - intros H. destruct H as [st s s' _ H|ix s h' kept [-> H] _]; [exact H|]. apply te_send. exact H.
  - intros H. destruct st as [ix|n a| |ix|ix|t| |ix|ix].
    all: try (apply we_own; [discriminate|exact H]).
    inversion H; subst. apply we_send; [split; [reflexivity|assumption]|lia].
Qed.
Lemma looks_on_runs l : forall s s', wruns looks_on s l s' <-> truns s l s'.
Proof.
  induction l as [|st l IH]; intros s s'; split; intros H; inversion H; subst.
  - constructor. assumption.
  - constructor. assumption.
  - econstructor; [eassumption|apply looks_on_exec; eassumption|apply IH; assumption].
  - econstructor; [eassumption|apply looks_on_exec; eassumption|apply IH; assumption].
Qed.
Lemma looks_on_handle ss evs : forall s s' x, whandle looks_on ss s evs s' x <-> thandle ss s evs s' x.
Proof.
  induction evs as [|e evs IH]; intros s s' x; split; intros H; inversion H; subst.
  - constructor. assumption.
  - constructor. assumption.
  - eapply th_step; [eassumption|apply looks_on_runs; eassumption|apply IH; assumption].
  - eapply th_exn; [eassumption|apply looks_on_runs; eassumption].
  - eapply wh_step; [eassumption|apply looks_on_runs; eassumption|apply IH; assumption].
  - eapply wh_exn; [eassumption|apply looks_on_runs; eassumption].
Qed.
