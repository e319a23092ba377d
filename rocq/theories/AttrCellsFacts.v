From Verif Require Import PyStr Parser ParserInv XTree Heap Builder HeapSpec BuilderFacts Pattern TreeIter TreeIterMore AttrCells AttrCellsSpec.

Lemma cell_eqb_eq c d : cell_eqb c d = true <-> c = d.
Proof.
  destruct c, d; cbn; try (split; discriminate); rewrite Nat.eqb_eq; split; intros E; try (injection E as E); subst; auto.
Qed.
Lemma hp_change cs h r f q : hp (change cs h r f) q =
  match hp h q with
  | Some (OElem n a ks p) => if cell_eqb (cs q) (cs r) then Some (OElem n (f a) ks p) else hp h q
  | o => o
  end.
Proof. reflexivity. Qed.
Lemma apart cs h r q : cs q <> cs r -> kept_apart cs h r q.
Proof.
  intros H f. rewrite hp_change. destruct (hp h q) as [[n a ks p|t p]|]; auto.
  destruct (cell_eqb (cs q) (cs r)) eqn:E; auto. apply cell_eqb_eq in E. contradiction.
Qed.
Lemma own_change cs h r f n a ks p : hp h r = Some (OElem n a ks p) -> hp (change cs h r f) r = Some (OElem n (f a) ks p).
Proof. intros H. rewrite hp_change, H. rewrite (proj2 (cell_eqb_eq _ _) eq_refl). reflexivity. Qed.

(** ** The heap: children and parents are made for the same pattern *)
Section Maker.
  Variable m : nat -> nat.
  Definition family (h : heap) : Prop :=
    forall r o, hp h r = Some o -> r < nxt h /\ (forall j, In j (okids o) -> j < nxt h /\ m j = m r) /\
      (forall q, oparent o = Some q -> q < nxt h /\ m q = m r).

  (** Heaps with fewer objects, whose objects have the same links. *)
  Lemma family_like h h' : nxt h' = nxt h ->
    (forall r o', hp h' r = Some o' -> exists o, hp h r = Some o /\ okids o' = okids o /\ oparent o' = oparent o) -> family h -> family h'.
  Proof.
    intros En Hl F r o E. destruct (Hl _ _ E) as (o0 & E0 & -> & ->). rewrite En. exact (F _ _ E0).
  Qed.
  Lemma family_gc roots h h' : gc roots h h' -> family h -> family h'.
  Proof.
    intros [En G]. apply family_like; [exact En|]. intros r o' E. destruct (G r) as [K|[K _]]; [|congruence].
    exists o'. split; [congruence|split; reflexivity].
  Qed.
  Lemma family_change cs h r f : family h -> family (change cs h r f).
  Proof.
    apply family_like; [reflexivity|]. intros q o' E. rewrite hp_change in E. destruct (hp h q) as [[n a ks p|t p]|] eqn:Eq; [| |discriminate].
    - destruct (cell_eqb (cs q) (cs r)); injection E as <-; eexists; (split; [reflexivity|split; reflexivity]).
    - injection E as <-. eexists. split; [reflexivity|split; reflexivity].
  Qed.
  Lemma family_append h p i : family h -> m i = m p -> i < nxt h -> family (append_kid h p i).
  Proof.
    intros F Hm Hi r o. rewrite append_nxt. unfold append_kid. destruct (hp h p) as [[n a ks q|t q]|] eqn:E; [|apply F..].
    rewrite hp_upd. destruct (Nat.eqb_spec r p) as [->|]; [|apply F]. intros K. injection K as <-. destruct (F _ _ E) as (F1 & F2 & F3).
    split; [exact F1|]. split; [|exact F3]. cbn [okids]. intros j Hj. apply in_app_or in Hj as [Hj|[<-|[]]]; [apply F2; exact Hj|]. split; assumption.
  Qed.
  Lemma family_parent h r q : family h -> xml_parent h r = Some q -> q < nxt h /\ m q = m r.
  Proof.
    unfold xml_parent. intros F. destruct (hp h r) as [o|] eqn:E; [|discriminate]. destruct (oparent o) as [p|] eqn:Ep; [|discriminate].
    destruct (hp h p); [|discriminate]. intros K. injection K as <-. exact (proj2 (proj2 (F _ _ E)) _ Ep).
  Qed.
  Lemma family_below h r q : family h -> below h r q -> m q = m r.
  Proof.
    intros F H. induction H as [|p j i H IH (o & E & Hi)]; [reflexivity|]. rewrite <- IH. exact (proj2 (proj1 (proj2 (F _ _ E)) _ Hi)).
  Qed.
End Maker.

(** A new object. *)
Definition made_for (m : nat -> nat) (i ix : nat) : nat -> nat := fun r => if Nat.eqb r i then ix else m r.
Lemma made_old m i ix r : r <> i -> made_for m i ix r = m r.
Proof. intros H. unfold made_for. destruct (Nat.eqb_spec r i); [contradiction|reflexivity]. Qed.
Lemma made_new m i ix : made_for m i ix i = ix.
Proof. unfold made_for. rewrite Nat.eqb_refl. reflexivity. Qed.
Lemma hp_alloc h o r : hp (fst (alloc h o)) r = if Nat.eqb r (nxt h) then Some o else hp h r.
Proof. reflexivity. Qed.
Lemma family_alloc m h o ix : family m h -> okids o = [] -> (forall p, oparent o = Some p -> p < nxt h /\ m p = ix) ->
  family (made_for m (nxt h) ix) (fst (alloc h o)).
Proof.
  intros F Hk Hp r o' E. rewrite hp_alloc in E. cbn [alloc fst nxt]. destruct (Nat.eqb_spec r (nxt h)) as [->|Hr].
  - injection E as <-. split; [lia|]. rewrite made_new. split; [rewrite Hk; intros j []|]. intros q Hq. destruct (Hp q Hq) as [L1 L2]. rewrite made_old by lia. split; [lia|exact L2].
  - destruct (F _ _ E) as (F1 & F2 & F3). rewrite (made_old m _ _ r Hr). split; [lia|]. split; intros j Hj.
    + destruct (F2 j Hj). rewrite made_old by lia. split; [lia|assumption].
    + destruct (F3 j Hj). rewrite made_old by lia. split; [lia|assumption].
Qed.

(** ** The cells *)
Section Cells.
Variable np : nat. (* the number of patterns *)

(** After [k] events; during event [k] with dictionary [a] ([None]: no dictionary), elements have been made for the patterns below [b]. *)
Definition owned (m : nat -> nat) (cs : nat -> cell) (h : heap) (k b : nat) (start : option (dict str)) : Prop :=
  (forall r x, cs r = OfElem x -> x = r) /\
  (forall r j, cs r = OfEvent j -> r < nxt h /\ j <= k /\ m r < np) /\
  (forall r, cs r = OfEvent k -> m r < b) /\
  (forall r q, cs r = cs q -> m r = m q -> r = q) /\
  (forall r q n a ks p n' a' ks' p', hp h r = Some (OElem n a ks p) -> hp h q = Some (OElem n' a' ks' p') -> cs r = cs q -> a = a') /\
  (forall r n a ks p, hp h r = Some (OElem n a ks p) -> cs r = OfEvent k -> start = Some a) /\
  (start = None -> forall r, cs r <> OfEvent k).

Lemma owned_next m cs h k b st : owned m cs h k b st -> owned m cs h (S k) 0 None.
Proof.
  intros (O1 & O2 & O3 & O4 & O5 & O6 & O7).
  assert (N : forall r, cs r <> OfEvent (S k)) by (intros r E; apply O2 in E; lia).
  split; [exact O1|]. split; [intros r j E; apply O2 in E; lia|]. split; [intros r E; destruct (N r E)|]. split; [exact O4|]. split; [exact O5|].
  split; [intros r n a ks p _ E; destruct (N r E)|]. intros _. exact N.
Qed.
(** The event with its dictionary. *)
Lemma owned_start m cs h k st : owned m cs h k 0 None -> owned m cs h k 0 st.
Proof.
  intros (O1 & O2 & O3 & O4 & O5 & O6 & O7). specialize (O7 eq_refl).
  split; [exact O1|]. split; [exact O2|]. split; [exact O3|]. split; [exact O4|]. split; [exact O5|].
  split; [intros r n a ks p _ E; destruct (O7 r E)|]. intros _. exact O7.
Qed.
Lemma owned_up m cs h k b st : owned m cs h k b st -> owned m cs h k (S b) st.
Proof. intros (O1 & O2 & O3 & O4 & O5 & O6 & O7). split; [exact O1|]. split; [exact O2|]. split; [intros r E; apply O3 in E; lia|]. auto. Qed.

Lemma owned_like m cs h h' k b st : nxt h' = nxt h ->
  (forall r n a ks p, hp h' r = Some (OElem n a ks p) -> exists ks0, hp h r = Some (OElem n a ks0 p)) -> owned m cs h k b st -> owned m cs h' k b st.
Proof.
  intros En Hl (O1 & O2 & O3 & O4 & O5 & O6 & O7). split; [exact O1|]. split; [rewrite En; exact O2|]. split; [exact O3|]. split; [exact O4|]. split; [|split].
  - intros r q n a ks p n' a' ks' p' E E' Ec. apply Hl in E as (k1 & E). apply Hl in E' as (k2 & E'). eapply O5; eauto.
  - intros r n a ks p E Ec. apply Hl in E as (k1 & E). eapply O6; eauto.
  - exact O7.
Qed.
Lemma owned_gc m cs roots h h' k b st : gc roots h h' -> owned m cs h k b st -> owned m cs h' k b st.
Proof. intros [En G]. apply owned_like; [exact En|]. intros r n a ks p E. destruct (G r) as [K|[K _]]; [|congruence]. exists ks. congruence. Qed.
Lemma owned_append m cs h p i k b st : owned m cs h k b st -> owned m cs (append_kid h p i) k b st.
Proof.
  apply owned_like; [apply append_nxt|]. intros r n a ks q. unfold append_kid. destruct (hp h p) as [[n0 a0 ks0 q0|t q0]|] eqn:E; eauto.
  rewrite hp_upd. destruct (Nat.eqb_spec r p) as [->|]; eauto. intros K. injection K as <- <- <- <-. eauto.
Qed.
Lemma owned_change m cs h r f k b : owned m cs h k b None -> owned m cs (change cs h r f) k b None.
Proof.
  intros (O1 & O2 & O3 & O4 & O5 & O6 & O7). split; [exact O1|]. split; [exact O2|]. split; [exact O3|]. split; [exact O4|]. split; [|split; [|exact O7]].
  - intros x y n a ks p n' a' ks' p' E E' Ec. rewrite hp_change in E, E'.
    destruct (hp h x) as [[nx ax kx px|tx px]|] eqn:Ex; try discriminate. destruct (hp h y) as [[ny ay ky py|ty py]|] eqn:Ey; try discriminate.
    pose proof (O5 _ _ _ _ _ _ _ _ _ _ Ex Ey Ec) as Ea. rewrite Ec in E.
    destruct (cell_eqb (cs y) (cs r)); injection E as <- <- <- <-; injection E' as <- <- <- <-; congruence.
  - intros x n a ks p _ E. destruct (O7 eq_refl x E).
Qed.
Lemma owned_text m cs h t p k b st ix : owned m cs h k b st ->
  owned (made_for m (nxt h) ix) cs (fst (alloc h (OText t p))) k b st.
Proof.
  intros (O1 & O2 & O3 & O4 & O5 & O6 & O7).
  assert (Hn : cs (nxt h) = OfElem (nxt h)). { destruct (cs (nxt h)) as [j|x] eqn:E; [apply O2 in E; lia|]. f_equal. apply (O1 _ _ E). }
  split; [exact O1|]. split; [intros r j E; apply O2 in E; rewrite made_old by lia; cbn; lia|]. split; [|split; [|split; [|split]]].
  - intros r E. pose proof (O2 _ _ E). rewrite made_old by lia. apply O3. exact E.
  - intros r q E Em. destruct (cs r) as [j|x] eqn:Er.
    + symmetry in E. pose proof (O2 _ _ Er). pose proof (O2 _ _ E). rewrite !made_old in Em by lia. apply O4; [congruence|exact Em].
    + pose proof (O1 _ _ Er). symmetry in E. pose proof (O1 _ _ E). congruence.
  - intros r q n a ks q1 n' a' ks' q2 E E'. rewrite hp_alloc in E, E'. destruct (Nat.eqb r (nxt h)); [discriminate|]. destruct (Nat.eqb q (nxt h)); [discriminate|]. eapply O5; eauto.
  - intros r n a ks q1 E. rewrite hp_alloc in E. destruct (Nat.eqb r (nxt h)); [discriminate|]. eapply O6; eauto.
  - exact O7.
Qed.
Lemma owned_elem m cs h n a p k ix : ix < np -> owned m cs h k ix (Some a) ->
  owned (made_for m (nxt h) ix) (set_cell cs (nxt h) (new_cell k a (nxt h))) (fst (alloc h (OElem n a [] p))) k (S ix) (Some a).
Proof.
  intros HN (O1 & O2 & O3 & O4 & O5 & O6 & O7). set (i := nxt h) in *. set (cs' := set_cell cs i (new_cell k a i)).
  assert (Hn : cs' i = new_cell k a i) by (unfold cs', set_cell; rewrite Nat.eqb_refl; reflexivity).
  assert (Ho : forall r, r <> i -> cs' r = cs r) by (intros r Hr; unfold cs', set_cell; destruct (Nat.eqb_spec r i); [contradiction|reflexivity]).
  assert (Hc : forall x, new_cell k a i = OfElem x -> x = i) by (unfold new_cell; destruct a; intros x E; [injection E as <-; reflexivity|discriminate]).
  assert (Hk : forall j, new_cell k a i = OfEvent j -> j = k) by (unfold new_cell; destruct a; intros x E; [discriminate|injection E as <-; reflexivity]).
  assert (Hd : forall r, r <> i -> cs r = new_cell k a i -> made_for m i ix r < ix).
  { intros r Hr E. rewrite made_old by exact Hr. unfold new_cell in E. destruct a; [apply O1 in E; congruence|]. apply O3. exact E. }
  split; [|split; [|split; [|split; [|split; [|split]]]]].
  - intros r x E. destruct (Nat.eq_dec r i) as [->|Hr]; [rewrite Hn in E; apply Hc; exact E|]. rewrite Ho in E by exact Hr. apply O1. exact E.
  - intros r j E. cbn [alloc fst nxt]. destruct (Nat.eq_dec r i) as [->|Hr]; [rewrite Hn in E; apply Hk in E; subst j; rewrite made_new; fold i; lia|]. rewrite Ho in E by exact Hr. apply O2 in E. rewrite made_old by exact Hr. fold i. lia.
  - intros r E. destruct (Nat.eq_dec r i) as [->|Hr]; [rewrite made_new; lia|]. rewrite Ho in E by exact Hr. rewrite made_old by exact Hr. apply O3 in E. lia.
  - intros r q E Em. destruct (Nat.eq_dec r i) as [->|Hr], (Nat.eq_dec q i) as [->|Hq]; [reflexivity| | |].
    + rewrite Hn, (Ho q Hq) in E. symmetry in E. pose proof (Hd q Hq E). rewrite made_new in Em. lia.
    + rewrite Hn, (Ho r Hr) in E. pose proof (Hd r Hr E). rewrite made_new in Em. lia.
    + rewrite (Ho r Hr), (Ho q Hq) in E. rewrite !made_old in Em by assumption. apply O4; assumption.
  - intros r q n1 a1 k1 p1 n2 a2 k2 p2 E E' Ec. rewrite hp_alloc in E, E'. fold i in E, E'.
    assert (Hs : forall r n0 a0 k0 p0, r <> i -> hp h r = Some (OElem n0 a0 k0 p0) -> cs r = new_cell k a i -> a0 = a).
    { intros r0 n0 a0 k0 p0 Hr0 E0 Ec0. unfold new_cell in Ec0. destruct a as [|kv a]; [apply O1 in Ec0; congruence|]. apply O6 in E0; [|exact Ec0]. injection E0 as <-. reflexivity. }
    destruct (Nat.eqb_spec r i) as [->|Hr], (Nat.eqb_spec q i) as [->|Hq].
    + congruence.
    + injection E as <- <- <- <-. rewrite Hn, (Ho q Hq) in Ec. symmetry. eapply Hs; eauto.
    + injection E' as <- <- <- <-. rewrite Hn, (Ho r Hr) in Ec. eapply Hs; eauto.
    + rewrite (Ho r Hr), (Ho q Hq) in Ec. eapply O5; eauto.
  - intros r n1 a1 k1 p1 E Ec. rewrite hp_alloc in E. fold i in E. destruct (Nat.eqb_spec r i) as [->|Hr].
    + injection E as <- <- <- <-. reflexivity.
    + rewrite (Ho r Hr) in Ec. eapply O6; eauto.
  - discriminate.
Qed.

(** ** A sender *)
Definition told (m : nat -> nat) (h : heap) (o : option nat) (ix : nat) : Prop := forall r, o = Some r -> r < nxt h /\ m r = ix.
(** During event [k], for pattern [ix]; [made]: the element has been made, [texts]: the text has. *)
Definition inv (m : nat -> nat) (s : tstate) (cs : nat -> cell) (k ix : nat) (loaded made texts : bool) (start : option (dict str)) : Prop :=
  family m (theap s) /\ owned m cs (theap s) k (if made then S ix else ix) start /\
  (forall j, told m (theap s) (nth j (tpars s) None) j) /\
  (loaded = true -> told m (theap s) (tpar s) ix) /\ (made = true -> told m (theap s) (telem s) ix) /\ (texts = true -> told m (theap s) (ttext s) ix).

Fixpoint fits (ix : nat) (loaded made texts : bool) (start : option (dict str)) (l : list tstmt) : Prop :=
  match l with
  | [] => True
  | TLoad j :: l => j = ix /\ fits ix true made texts start l
  | TNewElem _ a :: l => loaded = true /\ made = false /\ start = Some a /\ fits ix loaded true texts start l
  | TAppendElem :: l => loaded = true /\ made = true /\ fits ix loaded made texts start l
  | TDown j :: l => j = ix /\ made = true /\ fits ix loaded made texts start l
  | TRoot _ :: l => fits ix loaded made texts start l
  | TNewText _ :: l => loaded = true /\ fits ix loaded made true start l
  | TAppendText :: l => loaded = true /\ texts = true /\ fits ix loaded made texts start l
  | TSend _ :: l => start = None /\ fits ix loaded made texts start l
  | TUp j :: l => j = ix /\ loaded = true /\ fits ix loaded made texts start l
  end.

Lemma told_mono m h h' o ix : nxt h <= nxt h' -> told m h o ix -> told m h' o ix.
Proof. intros L H r E. destruct (H r E). split; [lia|assumption]. Qed.
Lemma told_made m h o ix jx x : told m h o jx -> told (made_for m (nxt h) ix) (fst (alloc h x)) o jx.
Proof. intros H r E. destruct (H r E). cbn [alloc fst nxt]. rewrite made_old by lia. split; [lia|assumption]. Qed.

Lemma inv_collect m s s1 cs k ix l md t st : tcollect s s1 -> inv m s cs k ix l md t st -> inv m s1 cs k ix l md t st.
Proof.
  intros (_ & G & _ & E2 & _ & E4 & E5 & E6 & _) (F & O & P & L & M & T). pose proof (proj1 G) as En. unfold inv. rewrite E2, E4, E5, E6.
  split; [eapply family_gc; eauto|]. split; [eapply owned_gc; eauto|].
  assert (U : forall o j, told m (theap s) o j -> told m (theap s1) o j) by (intros o j; apply told_mono; rewrite En; lia).
  split; [intros j; apply U; auto|]. split; [|split]; intros E; apply U; auto.
Qed.
Lemma inv_changed m s s1 cs k ix l md t : changed cs s s1 -> inv m s cs k ix l md t None -> inv m s1 cs k ix l md t None.
Proof.
  intros H. induction H as [|s r f s' H IH]; [auto|]. intros (F & O & P & L & M & T). apply IH.
  split; [apply family_change; exact F|]. split; [apply owned_change; exact O|]. split; [exact P|]. split; [exact L|]. split; [exact M|exact T].
Qed.

Lemma told_set m h (tp : list (option nat)) ix o : told m h o ix -> (forall j, told m h (nth j tp None) j) -> forall j, told m h (nth j (set_nth ix o tp) None) j.
Proof.
  intros H P j. destruct (Nat.eq_dec j ix) as [->|Hj]; [|rewrite set_nth_other by exact Hj; apply P].
  intros r E. destruct (Nat.lt_ge_cases ix (length tp)) as [L|L].
  - assert (K : nth ix (set_nth ix o tp) None = o). { clear -L. revert ix L. induction tp as [|x tp IH]; intros ix L; [cbn in L; lia|]. destruct ix; [reflexivity|]. cbn in *. apply IH. lia. }
    rewrite K in E. apply H. exact E.
  - assert (K : set_nth ix o tp = tp). { clear -L. revert ix L. induction tp as [|x tp IH]; intros ix L; [destruct ix; reflexivity|]. destruct ix; [cbn in L; lia|]. cbn in *. rewrite IH; [reflexivity|lia]. }
    rewrite K in E. apply (P ix). exact E.
Qed.

(** One statement *)
Lemma inv_exec m s s1 cs k ix l md t start stm rest : ix < np -> inv m s cs k ix l md t start -> fits ix l md t start (stm :: rest) ->
  texec stm s s1 -> exists m' l' md' t', inv m' s1 (cells_after k stm s cs) k ix l' md' t' start /\ fits ix l' md' t' start rest.
Proof.
  intros HN (F & O & P & L & M & T) Hf H. destruct H; cbn [fits] in Hf; cbn [cells_after].
  - destruct Hf as [-> Hf]. exists m, true, md, t. split; [|exact Hf]. split; [exact F|]. split; [exact O|]. split; [exact P|]. split; [intros _; apply P|]. split; [exact M|exact T].
  - destruct Hf as (-> & -> & -> & Hf). exists (made_for m (nxt (theap s)) ix), true, true, t. split; [|exact Hf].
    split; [apply family_alloc; [exact F|reflexivity|intros p E; apply (L eq_refl); exact E]|]. split; [apply owned_elem; assumption|]. cbn [theap tpars tpar telem ttext].
    split; [intros j; apply told_made; apply P|]. split; [intros _; apply told_made; auto|]. split; [|intros E; apply told_made; auto].
    intros _ r E. injection E as <-. rewrite made_new. cbn [alloc fst nxt]. split; [lia|reflexivity].
  - destruct Hf as (-> & -> & Hf). exists m, true, true, t. split; [|exact Hf]. cbn [theap tpars tpar telem ttext]. specialize (L eq_refl). specialize (M eq_refl).
    destruct (tpar s) as [p|] eqn:Ep, (telem s) as [i|] eqn:Ei; unfold inv; cbn [theap tpars tpar telem ttext]; try (repeat (split; [assumption||(intros; assumption)|]); assumption).
    destruct (L p eq_refl) as [Lp Mp]. destruct (M i eq_refl) as [Li Mi].
    assert (U : forall o j, told m (theap s) o j -> told m (append_kid (theap s) p i) o j) by (intros o j; apply told_mono; rewrite append_nxt; lia).
    split; [apply family_append; [exact F|congruence|exact Li]|]. split; [apply owned_append; exact O|]. split; [intros j; apply U, P|]. split; [intros _; apply U; exact L|]. split; [intros _; apply U; exact M|intros E; apply U, T; exact E].
  - destruct Hf as (-> & -> & Hf). exists m, l, true, t. split; [|exact Hf]. unfold inv. cbn [theap tpars tpar telem ttext]. split; [exact F|]. split; [exact O|].
    split; [apply told_set; auto|]. split; [intros _; auto|]. split; [exact M|exact T].
  - exists m, l, md, t. split; [|exact Hf]. split; [exact F|]. split; [exact O|]. split; [exact P|]. split; [exact L|]. split; [exact M|exact T].
  - destruct Hf as (-> & Hf). exists (made_for m (nxt (theap s)) ix), true, md, true. split; [|exact Hf].
    split; [apply family_alloc; [exact F|reflexivity|intros p E; apply (L eq_refl); exact E]|]. split; [apply owned_text; exact O|]. cbn [theap tpars tpar telem ttext].
    split; [intros j; apply told_made; apply P|]. split; [intros _; apply told_made; auto|]. split; [intros E; apply told_made; auto|].
    intros _ r E. injection E as <-. rewrite made_new. cbn [alloc fst nxt]. split; [lia|reflexivity].
  - destruct Hf as (-> & -> & Hf). exists m, true, md, true. split; [|exact Hf]. cbn [theap tpars tpar telem ttext]. specialize (L eq_refl). specialize (T eq_refl).
    destruct (tpar s) as [p|] eqn:Ep, (ttext s) as [i|] eqn:Ei; unfold inv; cbn [theap tpars tpar telem ttext]; try (repeat (split; [assumption||(intros; assumption)|]); (assumption||(intros; assumption))).
    destruct (L p eq_refl) as [Lp Mp]. destruct (T i eq_refl) as [Li Mi].
    assert (U : forall o j, told m (theap s) o j -> told m (append_kid (theap s) p i) o j) by (intros o j; apply told_mono; rewrite append_nxt; lia).
    split; [apply family_append; [exact F|congruence|exact Li]|]. split; [apply owned_append; exact O|]. split; [intros j; apply U, P|]. split; [intros _; apply U; exact L|]. split; [intros E; apply U, M; exact E|intros _; apply U; exact T].
  - destruct Hf as (-> & Hf). exists m, l, md, t. split; [|exact Hf]. split; [exact F|]. split; [exact O|]. split; [exact P|]. split; [exact L|]. split; [exact M|exact T].
  - destruct Hf as (-> & -> & Hf). exists m, true, md, t. split; [|exact Hf]. specialize (L eq_refl). destruct (tpar s) as [p|] eqn:Ep.
    + unfold inv. cbn [theap tpars tpar telem ttext]. destruct (L p eq_refl) as [Lp Mp].
      assert (Q : told m (theap s) (xml_parent (theap s) p) ix). { intros q E. destruct (family_parent m _ _ _ F E). split; [assumption|congruence]. }
      split; [exact F|]. split; [exact O|]. split; [apply told_set; auto|]. split; [intros _; exact Q|]. split; [exact M|exact T].
    + unfold inv. rewrite Ep. split; [exact F|]. split; [exact O|]. split; [exact P|]. split; [intros _; exact L|]. split; [exact M|exact T].
Qed.

Lemma inv_runs k s cs l s' cs' : cruns k s cs l s' cs' -> forall m ix ld md t start, ix < np -> inv m s cs k ix ld md t start -> fits ix ld md t start l ->
  exists m' ld' md' t', inv m' s' cs' k ix ld' md' t' start.
Proof.
  intros H. induction H as [s cs s' G|s cs s1 st s2 l s' cs' Hn G E H IH|s cs s1 ix0 s2 s3 l s' cs' G E C H IH]; intros m ix ld md t start HN I Hf.
  - exists m, ld, md, t. eapply inv_collect; eauto.
  - destruct (inv_exec m s1 s2 cs k ix ld md t start st l HN (inv_collect _ _ _ _ _ _ _ _ _ _ G I) Hf E) as (m' & l' & md' & t' & I' & Hf'). eapply IH; eauto.
  - destruct (inv_exec m s1 s2 cs k ix ld md t start _ l HN (inv_collect _ _ _ _ _ _ _ _ _ _ G I) Hf E) as (m' & l' & md' & t' & I' & Hf'). cbn [cells_after] in I'.
    cbn [fits] in Hf. destruct Hf as [-> Hf]. exact (IH _ _ _ _ _ _ HN (inv_changed _ _ _ _ _ _ _ _ _ C I') Hf').
Qed.

Lemma cruns_app k s cs l1 l2 s' cs' : cruns k s cs (l1 ++ l2) s' cs' -> exists s1 cs1, cruns k s cs l1 s1 cs1 /\ cruns k s1 cs1 l2 s' cs'.
Proof.
  revert s cs. induction l1 as [|st l1 IH]; intros s cs H; [exists s, cs; split; [constructor; apply tcollect_refl|exact H]|].
  cbn [app] in H. inversion H; subst.
  - match goal with K : cruns _ _ _ (_ ++ _) _ _ |- _ => destruct (IH _ _ K) as (s0 & cs0 & K1 & K2) end. exists s0, cs0. split; [eapply cr_own; eauto|exact K2].
  - match goal with K : cruns _ _ _ (_ ++ _) _ _ |- _ => destruct (IH _ _ K) as (s0 & cs0 & K1 & K2) end. exists s0, cs0. split; [eapply cr_send; eauto|exact K2].
Qed.

Definition dict_of (e : event) : option (dict str) := match e with EvStart _ a _ => Some a | _ => None end.
Lemma fits_one st ix c e l c' x : ctl_one st ix c e = (l, c', x) -> fits ix false false false (dict_of e) l.
Proof.
  unfold ctl_one. destruct e as [n a anc|n anc|t]; cbn [dict_of].
  - destruct (Nat.eqb (nth ix (cdepths c) 0) 0); [destruct (match_state st (cstack c ++ [n])) as [[]|]|]; intros E; injection E as <- <- <-; cbn [fits]; repeat split; auto.
  - destruct (cstack c); [intros E; injection E as <- <- <-; cbn [fits]; auto|].
    destruct (Nat.eqb (nth ix (cdepths c) 0) 0); [intros E; injection E as <- <- <-; cbn [fits]; auto|].
    destruct (Nat.eqb (nth ix (cdepths c) 0) 1); intros E; injection E as <- <- <-; cbn [fits app]; repeat split; auto.
  - destruct (Nat.eqb (nth ix (cdepths c) 0) 0); intros E; injection E as <- <- <-; cbn [fits]; repeat split; auto.
Qed.
(** Between patterns *)
Definition inv0 (m : nat -> nat) (s : tstate) (cs : nat -> cell) (k b : nat) (start : option (dict str)) : Prop := inv m s cs k b false false false start.
Lemma inv_end m s cs k ix l md t st : inv m s cs k ix l md t st -> inv0 m s cs k (S ix) st.
Proof.
  intros (F & O & P & _). split; [exact F|]. split; [destruct md; [exact O|apply owned_up; exact O]|]. split; [exact P|]. split; [discriminate|split; discriminate].
Qed.
Lemma inv_all k e s' cs' : forall ss ix c l c' x m s cs, length ss + ix <= np -> ctl_all ss ix c e = (l, c', x) -> inv0 m s cs k ix (dict_of e) -> cruns k s cs l s' cs' ->
  exists m' b, inv0 m' s' cs' k b (dict_of e) /\ b <= length ss + ix.
Proof.
  induction ss as [|st ss IH]; intros ix c l c' x m s cs HN Hc I H; cbn [ctl_all] in Hc; cbn [length] in HN.
  - injection Hc as <- <- <-. exists m, ix. split; [|cbn; lia].
    inversion H; subst. eapply inv_collect; eassumption.
  - destruct (ctl_one st ix c e) as [[l1 c1] [x1|]] eqn:E1.
    + injection Hc as <- <- <-. destruct (inv_runs _ _ _ _ _ _ H _ ix false false false _ ltac:(lia) I (fits_one _ _ _ _ _ _ _ E1)) as (m' & ld & md & t & I').
      exists m', (S ix). split; [eapply inv_end; exact I'|cbn; lia].
    + destruct (ctl_all ss (S ix) c1 e) as [[l2 c2] x2] eqn:E2. injection Hc as <- <- <-. apply cruns_app in H as (s1 & cs1 & H1 & H2).
      destruct (inv_runs _ _ _ _ _ _ H1 _ ix false false false _ ltac:(lia) I (fits_one _ _ _ _ _ _ _ E1)) as (m' & ld & md & t & I').
      destruct (IH (S ix) _ _ _ _ _ _ _ ltac:(lia) E2 (inv_end _ _ _ _ _ _ _ _ _ I') H2) as (m2 & b & I2 & Hb). exists m2, b. split; [exact I2|cbn; lia].
Qed.

Lemma inv_served h ps k s cs : well_linked h -> length ps = np -> served h ps k s cs -> exists m, inv0 m s cs k 0 None.
Proof.
  intros (Ha & Hl & _) HN H. induction H as [|k s cs e l c x s1 cs1 H (m & I) Hc Hr|k s cs H (m & I)|k s cs s' H (m & I) Hc|k s cs s' H (m & I) Hc].
  - exists (fun _ => np). unfold new_sender. split; [|split].
    + intros r o E. cbn [theap] in *. split; [exact (Ha _ _ E)|]. split.
      * intros j Hj. destruct (proj1 (Hl r j)) as (o' & E' & _); [exists o; auto|]. split; [exact (Ha _ _ E')|reflexivity].
      * intros q Hq. destruct (proj2 (Hl q r)) as (o' & E' & _); [exists o; auto|]. split; [exact (Ha _ _ E')|reflexivity].
    + cbn [theap]. split; [intros r x E; injection E as E; auto|]. split; [discriminate|]. split; [discriminate|]. split; [intros r q E _; injection E as E; exact E|].
      split; [|split; [discriminate|intros _ r; discriminate]]. intros r q n a ks p n' a' ks' p' E E' Ec. injection Ec as ->. congruence.
    + cbn [tpars tpar telem ttext]. split; [|split; [discriminate|split; discriminate]]. intros j r E. exfalso.
      assert (K : nth j (repeat (@None nat) (length ps)) None = None) by (apply nth_repeat). congruence.
  - assert (I1 : inv0 m s cs k 0 (dict_of e)). { destruct I as (F & O & P & _). split; [exact F|]. split; [apply owned_start; exact O|]. split; [exact P|]. split; [discriminate|split; discriminate]. }
    destruct (inv_all k e s1 cs1 (stateses ps) 0 _ _ _ _ _ _ _ ltac:(rewrite stateses_len; lia) Hc I1 Hr) as (m' & b & (F & O & P & _) & _).
    exists m'. split; [exact F|]. split; [eapply owned_next; exact O|]. split; [exact P|]. split; [discriminate|split; discriminate].
  - exists m. destruct I as (F & O & P & _). split; [exact F|]. split; [exact O|]. split; [exact P|]. split; [discriminate|split; discriminate].
  - exists m. eapply inv_collect; eauto.
  - exists m. eapply inv_changed; eauto.
Qed.
End Cells.

(** Two elements have dictionaries of their own, or the same one with the same items. *)
Lemma either np m h cs k b st r q : owned np m cs h k b st -> r <> q -> (exists a, has_attributes h r a) -> (exists a, has_attributes h q a) ->
  kept_apart cs h r q \/ tied cs h r q.
Proof.
  intros (O1 & O2 & O3 & O4 & O5 & O6 & O7) Hne (a & n & ks & p & E) (a' & n' & ks' & p' & E').
  destruct (cell_eqb (cs q) (cs r)) eqn:Ec; [right|left; apply apart; intros K; apply cell_eqb_eq in K; congruence]. apply cell_eqb_eq in Ec.
  pose proof (O5 _ _ _ _ _ _ _ _ _ _ E' E Ec) as ->. split; [exact Hne|]. exists a. split; [exists n, ks, p; exact E|]. split; [exists n', ks', p'; exact E'|].
  assert (T : forall x, cell_eqb x x = true) by (intros x; apply cell_eqb_eq; reflexivity).
  intros f. unfold has_attributes. rewrite !hp_change, E, E', !Ec, !T. repeat split; eauto.
Qed.

Lemma c118_tree h ps k s cs top r q : well_linked h -> served h ps k s cs -> below (theap s) top r -> below (theap s) top q -> r <> q -> kept_apart cs (theap s) r q.
Proof.
  intros Hw H Hr Hq Hne. destruct (inv_served (length ps) h ps k s cs Hw eq_refl H) as (m & F & (_ & _ & _ & O4 & _) & _).
  apply apart. intros E. apply Hne. symmetry. apply O4; [exact E|]. rewrite (family_below _ _ _ _ F Hr), (family_below _ _ _ _ F Hq). reflexivity.
Qed.
Lemma c118_one h p k s cs r q : well_linked h -> served h [p] k s cs -> r <> q -> kept_apart cs (theap s) r q.
Proof.
  intros Hw H Hne. destruct (inv_served 1 h [p] k s cs Hw eq_refl H) as (m & F & (O1 & O2 & _ & O4 & _) & _).
  apply apart. intros E. apply Hne. symmetry. destruct (cs r) as [j|x] eqn:Er.
  - apply O4; [congruence|]. destruct (O2 _ _ E) as (_ & _ & L1), (O2 _ _ Er) as (_ & _ & L2). lia.
  - rewrite <- (O1 _ _ Er), <- (O1 _ _ E). reflexivity.
Qed.
Lemma c118_either h ps k s cs r q : well_linked h -> served h ps k s cs -> r <> q ->
  (exists a, has_attributes (theap s) r a) -> (exists a, has_attributes (theap s) q a) -> kept_apart cs (theap s) r q \/ tied cs (theap s) r q.
Proof.
  intros Hw H. destruct (inv_served (length ps) h ps k s cs Hw eq_refl H) as (m & F & O & _). eapply either. exact O.
Qed.
Lemma c118_own cs h r f a : has_attributes h r a -> has_attributes (change cs h r f) r (f a).
Proof. intros (n & ks & p & E). exists n, ks, p. apply own_change. exact E. Qed.

(** ** The builders *)
Definition binv (k : nat) (s : bstate) (cs : nat -> cell) : Prop :=
  (forall r x, cs r = OfElem x -> x = r) /\ (forall r j, cs r = OfEvent j -> r < nxt (bheap s) /\ j < k) /\ (forall r q, cs r = cs q -> r = q).
Lemma binv_mono k k' s s' cs : k <= k' -> nxt (bheap s) <= nxt (bheap s') -> binv k s cs -> binv k' s' cs.
Proof. intros L1 L2 (B1 & B2 & B3). split; [exact B1|]. split; [|exact B3]. intros r j E. apply B2 in E. lia. Qed.
Lemma exec_nxt st s : nxt (bheap s) <= nxt (bheap (exec st s)).
Proof.
  destruct st; cbn [exec alloc fst snd]; try destruct (bpar s); try destruct (belem s); try destruct (btext s); try destruct (broot s); cbn [bheap nxt]; rewrite ?append_nxt; lia.
Qed.
Lemma binv_rest k s cs l s' cs' : bruns k s cs l s' cs' -> (forall n a, ~ In (SNewElem n a) l) -> binv (S k) s cs -> binv (S k) s' cs'.
Proof.
  intros H. induction H as [s cs s' G|s cs s1 st l s' cs' G H IH]; intros Hn B.
  - eapply binv_mono; [apply le_n| |exact B]. rewrite (proj1 (proj1 G)). lia.
  - apply IH; [intros n a K; apply (Hn n a); right; exact K|].
    assert (E : bcells_after k st s1 cs = cs). { destruct st; try reflexivity. destruct (Hn n a). left. reflexivity. }
    rewrite E. eapply binv_mono; [apply le_n| |exact B]. pose proof (exec_nxt st s1). rewrite <- (proj1 (proj1 G)). exact H0.
Qed.
Lemma binv_event k s cs e s1 cs1 : binv k s cs -> bruns k s cs (handler_stmts e) s1 cs1 -> binv (S k) s1 cs1.
Proof.
  intros B H. destruct e as [n a anc|n anc|t]; cbn [handler_stmts] in H.
  - inversion H; subst. eapply binv_rest; [eassumption|intros n0 a0 [K|[K|[K|[]]]]; discriminate|].
    match goal with K : collect s ?x |- _ => rename x into s2; pose proof (proj1 (proj1 K)) as En end.
    destruct B as (B1 & B2 & B3). rewrite <- En in B2. cbn [bcells_after exec alloc]. set (i := nxt (bheap s2)) in *.
    set (cs' := set_cell cs i (new_cell k a i)).
    assert (Hn : cs' i = new_cell k a i) by (unfold cs', set_cell; rewrite Nat.eqb_refl; reflexivity).
    assert (Ho : forall r, r <> i -> cs' r = cs r) by (intros r Hr; unfold cs', set_cell; destruct (Nat.eqb_spec r i); [contradiction|reflexivity]).
    assert (Hd : forall r, r <> i -> cs r <> new_cell k a i). { intros r Hr E. unfold new_cell in E. destruct a; [apply B1 in E; congruence|apply B2 in E; lia]. }
    split; [|split].
    + intros r x E. destruct (Nat.eq_dec r i) as [->|Hr]; [rewrite Hn in E; unfold new_cell in E; destruct a; congruence|]. rewrite Ho in E by exact Hr. apply B1. exact E.
    + intros r j E. cbn [bheap nxt]. destruct (Nat.eq_dec r i) as [->|Hr].
      * rewrite Hn in E. unfold new_cell in E. destruct a; [discriminate|]. injection E as <-. fold i. lia.
      * rewrite Ho in E by exact Hr. apply B2 in E. fold i. lia.
    + intros r q E. destruct (Nat.eq_dec r i) as [->|Hr], (Nat.eq_dec q i) as [->|Hq]; [reflexivity| | |].
      * rewrite Hn, (Ho q Hq) in E. destruct (Hd q Hq). congruence.
      * rewrite Hn, (Ho r Hr) in E. destruct (Hd r Hr). congruence.
      * rewrite (Ho r Hr), (Ho q Hq) in E. apply B3. exact E.
  - eapply binv_rest; [exact H|intros n0 a0 [K|[]]; discriminate|]. eapply binv_mono; [| |exact B]; lia.
  - eapply binv_rest; [exact H|intros n0 a0 [K|[K|[]]]; discriminate|]. eapply binv_mono; [| |exact B]; lia.
Qed.
Lemma binv_built h k s cs : built h k s cs -> binv k s cs.
Proof.
  intros H. induction H as [|k s cs e s1 cs1 H IH Hr|k s cs s' H IH Hs|k s cs s' H IH Hs|k s cs r f H IH].
  - split; [intros r x E; injection E as E; auto|]. split; [discriminate|]. intros r q E. injection E as E. exact E.
  - eapply binv_event; eauto.
  - eapply binv_mono; [apply le_n| |exact IH]. destruct Hs as [-> | ->]; apply le_n.
  - eapply binv_mono; [apply le_n| |exact IH]. rewrite (proj1 (proj1 Hs)). apply le_n.
  - eapply binv_mono; [apply le_n| |exact IH]. apply le_n.
Qed.
Lemma c118_builder h k s cs r q : built h k s cs -> r <> q -> kept_apart cs (bheap s) r q.
Proof. intros H Hne. apply apart. intros E. apply Hne. symmetry. exact (proj2 (proj2 (binv_built _ _ _ _ H)) _ _ E). Qed.

(** ** Every run of the other models is one here *)
Lemma cruns_of k s l s' : truns s l s' -> forall cs, exists cs', cruns k s cs l s' cs'.
Proof.
  intros H. induction H as [s s' G|s s1 s2 st l s' G E H IH]; intros cs; [exists cs; constructor; exact G|].
  assert (D : (exists ix, st = TSend ix) \/ (forall ix, st <> TSend ix)) by (destruct st; try (right; intros; discriminate); left; eauto).
  destruct D as [(ix & ->)|D].
  - destruct (IH cs) as (cs' & H'). exists cs'. eapply cr_send; eauto. constructor.
  - destruct (IH (cells_after k st s1 cs)) as (cs' & H'). exists cs'. eapply cr_own; eauto.
Qed.
Lemma served_handle h ps ss s evs s' x : ss = stateses ps -> thandle ss s evs s' x -> forall k cs, served h ps k s cs -> exists k' cs', served h ps k' s' cs'.
Proof.
  intros -> H. induction H as [s s' G|s e evs l c s1 s' x Hc Hr H IH|s e evs l c s1 x Hc Hr]; intros k cs Hs.
  - exists k, cs. eapply sv_collect; eauto.
  - destruct (cruns_of k _ _ _ Hr cs) as (cs1 & H1). eapply (IH (S k) cs1). eapply sv_event; eauto.
  - destruct (cruns_of k _ _ _ Hr cs) as (cs1 & H1). exists (S k), cs1. eapply sv_event; eauto.
Qed.
Lemma c118_parses h ps k s cs doc s' x : served h ps k s cs -> send_parse ps s doc s' x -> exists k' cs', served h ps k' s' cs'.
Proof. intros H Hp. destruct Hp as [s doc evs g s' x _ Hh]. eapply served_handle; [reflexivity|exact Hh|]. apply sv_parse. exact H. Qed.
Lemma runs_split l1 l2 : forall s s', runs s (l1 ++ l2) s' -> exists s1, runs s l1 s1 /\ runs s1 l2 s'.
Proof.
  induction l1 as [|st l1 IH]; intros s s' H; [exists s; split; [constructor; apply collect_refl|exact H]|]. cbn [app] in H. inversion H; subst.
  match goal with K : runs _ (_ ++ _) _ |- _ => destruct (IH _ _ K) as (s0 & K1 & K2) end. exists s0. split; [econstructor; eauto|exact K2].
Qed.
Lemma bruns_of k s l s' : runs s l s' -> forall cs, exists cs', bruns k s cs l s' cs'.
Proof.
  intros H. induction H as [s s' G|s s1 st l s' G H IH]; intros cs; [exists cs; constructor; exact G|].
  destruct (IH (bcells_after k st s1 cs)) as (cs' & H'). exists cs'. econstructor; eauto.
Qed.
Lemma built_events h evs : forall k s cs s', built h k s cs -> run_events s evs s' -> exists k' cs', built h k' s' cs'.
Proof.
  unfold run_events. induction evs as [|e evs IH]; intros k s cs s' B H; cbn [flat_map] in H.
  - inversion H; subst. exists k, cs. eapply bu_collect; eauto.
  - apply runs_split in H as (s1 & H1 & H2). destruct (bruns_of k _ _ _ H1 cs) as (cs1 & K). eapply (IH (S k) s1 cs1); [|exact H2]. eapply bu_event; eauto.
Qed.
Lemma c118_builds h k s cs : built h k s cs ->
  (forall doc s' r, tree_parse s doc s' r -> exists k' cs', built h k' s' cs') /\
  (forall evs s' r, xml_tree_parse s evs s' r -> exists k' cs', built h k' s' cs').
Proof.
  intros B. split; intros d s' r H.
  - destruct H as [s doc evs g s' _ H]. eapply built_events; [|exact H]. eapply bu_parse; [exact B|left; reflexivity].
  - destruct H as [s evs s' H]. eapply built_events; [|exact H]. eapply bu_parse; [exact B|right; reflexivity].
Qed.

(** ** Two patterns that match one element *)

(** A run without collections; the sink of pattern [ix] keeps what it gets and does [sink ix] to attributes. *)
Definition step_of (st : tstmt) (s : tstate) : tstate :=
  match st with
  | TLoad ix => mkT (theap s) (troots s) (tpars s) (tctl s) (nth ix (tpars s) None) (telem s) (ttext s) (tkept s) (tsent s)
  | TNewElem n a => mkT (fst (alloc (theap s) (OElem n a [] (tpar s)))) (troots s) (tpars s) (tctl s) (tpar s) (Some (nxt (theap s))) (ttext s) (tkept s) (tsent s)
  | TAppendElem => mkT (match tpar s, telem s with Some p, Some i => append_kid (theap s) p i | _, _ => theap s end)
                     (troots s) (tpars s) (tctl s) (tpar s) (telem s) (ttext s) (tkept s) (tsent s)
  | TDown ix => mkT (theap s) (troots s) (set_nth ix (telem s) (tpars s)) (tctl s) (telem s) (telem s) (ttext s) (tkept s) (tsent s)
  | TRoot ix => mkT (theap s) (set_nth ix (telem s) (troots s)) (tpars s) (tctl s) (tpar s) (telem s) (ttext s) (tkept s) (tsent s)
  | TNewText t => mkT (fst (alloc (theap s) (OText t (tpar s)))) (troots s) (tpars s) (tctl s) (tpar s) (telem s) (Some (nxt (theap s))) (tkept s) (tsent s)
  | TAppendText => mkT (match tpar s, ttext s with Some p, Some i => append_kid (theap s) p i | _, _ => theap s end)
                     (troots s) (tpars s) (tctl s) (tpar s) (telem s) (ttext s) (tkept s) (tsent s)
  | TSend ix => mkT (theap s) (troots s) (tpars s) (tctl s) (tpar s) (telem s) (ttext s) (opt_list (tpar s) ++ tkept s) (tsent s ++ [(ix, tpar s, theap s)])
  | TUp ix => match tpar s with
              | Some p => let q := xml_parent (theap s) p in mkT (theap s) (troots s) (set_nth ix q (tpars s)) (tctl s) q (telem s) (ttext s) (tkept s) (tsent s)
              | None => s
              end
  end.
Lemma step_of_texec st s : texec st s (step_of st s).
Proof. destruct st; cbn [step_of]; constructor. right. reflexivity. Qed.
Fixpoint go (k : nat) (sink : nat -> option (nat * (dict str -> dict str))) (l : list tstmt) (s : tstate) (cs : nat -> cell) : tstate * (nat -> cell) :=
  match l with
  | [] => (s, cs)
  | st :: l => let s1 := step_of st s in
      let s2 := match st with TSend ix => match sink ix with Some (r, f) => set_heap s1 (change cs (theap s1) r f) | None => s1 end | _ => s1 end in
      go k sink l s2 (cells_after k st s cs)
  end.
Lemma go_cruns k sink l : forall s cs, cruns k s cs l (fst (go k sink l s cs)) (snd (go k sink l s cs)).
Proof.
  induction l as [|st l IH]; intros s cs; cbn [go]; [constructor; apply tcollect_refl|].
  assert (D : (exists ix, st = TSend ix) \/ (forall ix, st <> TSend ix)) by (destruct st; try (right; intros; discriminate); left; eauto).
  destruct D as [(ix & ->)|D].
  - eapply cr_send; [apply tcollect_refl|apply step_of_texec| |apply IH]. destruct (sink ix) as [[r f]|]; [eapply ch_more; apply ch_none|apply ch_none].
  - eapply cr_own; [exact D|apply tcollect_refl|apply step_of_texec|]. destruct st; try apply IH. destruct (D ix eq_refl).
Qed.

Lemma c118_leak n a f : a <> [] -> exists k s cs h0 h1,
  served empty_heap [[StName n]; [StName n]] k s cs /\ tsent s = [(0, Some 0, h0); (1, Some 1, h1)] /\
  has_attributes h0 0 a /\ has_attributes h0 1 a /\ tied cs h0 0 1 /\ has_attributes h1 1 (f a).
Proof.
  intros Ha. set (ps := [[StName n]; [StName n]]).
  set (l1 := [TLoad 0; TNewElem n a; TAppendElem; TDown 0; TRoot 0; TLoad 1; TNewElem n a; TAppendElem; TDown 1; TRoot 1]).
  set (l2 := [TLoad 0; TSend 0; TUp 0; TLoad 1; TSend 1; TUp 1]).
  assert (E1 : ctl_all (stateses ps) 0 (mkC [] [0; 0]) (EvStart n a []) = (l1, mkC [n; n] [1; 1], None)).
  { do 4 (cbn; rewrite ?str_eqb_refl). reflexivity. }
  assert (E2 : ctl_all (stateses ps) 0 (mkC [n; n] [1; 1]) (EvEnd n []) = (l2, mkC [] [0; 0], None)) by reflexivity.
  destruct a as [|kv a]; [contradiction|].
  set (g1 := go 0 (fun _ => None) l1 (new_sender empty_heap ps) OfElem).
  set (s1 := set_ctl (fst g1) (mkC [n; n] [1; 1])).
  set (g2 := go 1 (fun ix => match ix with 0 => Some (0, f) | _ => None end) l2 s1 (snd g1)).
  set (s2 := set_ctl (fst g2) (mkC [] [0; 0])).
  exists 2, s2, (snd g2), (theap s1), (change (snd g1) (theap s1) 0 f). split; [|split].
  - apply (sv_event _ _ 1 s1 (snd g1) (EvEnd n []) l2 _ None); [|exact E2|apply go_cruns].
    apply (sv_event _ _ 0 (new_sender empty_heap ps) OfElem (EvStart n (kv :: a) []) l1 _ None); [apply sv_new|exact E1|apply go_cruns].
  - reflexivity.
  - split; [exists n, [], None; reflexivity|]. split; [exists n, [], None; reflexivity|]. split; [|exists n, [], None; reflexivity].
    split; [discriminate|]. exists (kv :: a). split; [exists n, [], None; reflexivity|]. split; [exists n, [], None; reflexivity|].
    intros g. repeat split; exists n, [], None; reflexivity.
Qed.
