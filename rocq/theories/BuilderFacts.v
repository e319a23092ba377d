(** The tree builder builds the document, whatever is garbage collected. *)
From Verif Require Import PyStr CharClass Parser ParserM XTree Grammar ParserSpec ParserFrag ParserInv ParserMore ParserVal Heap Builder HeapSpec.

(** ** Consecutive layout: the builder allocates nodes in document order *)
Definition size_all (ks : list xtree) : nat := fold_right (fun k n => tree_size k + n) 0 ks.
Fixpoint offsets (i : ref) (ks : list xtree) : list ref :=
  match ks with [] => [] | k :: r => i :: offsets (i + tree_size k) r end.

Inductive placed (h : heap) : option ref -> ref -> xtree -> Prop :=
| pl_elem p i n a ks : hp h i = Some (OElem n a (offsets (S i) ks) p) -> placed_all h i (S i) ks -> placed h p i (XE n a ks)
| pl_text p i s : hp h i = Some (OText s p) -> placed h p i (XT s)
with placed_all (h : heap) : ref -> ref -> list xtree -> Prop :=
| pa_nil q i : placed_all h q i []
| pa_cons q i k ks : placed h (Some q) i k -> placed_all h q (i + tree_size k) ks -> placed_all h q i (k :: ks).
Scheme placed_mut := Minimality for placed Sort Prop
  with placed_all_mut := Minimality for placed_all Sort Prop.
Combined Scheme placed_both from placed_mut, placed_all_mut.

Definition same_on (h h' : heap) (lo hi : ref) : Prop := forall i, lo <= i < hi -> hp h' i = hp h i.
Lemma same_sub h h' lo hi lo' hi' : same_on h h' lo hi -> lo <= lo' -> hi' <= hi -> same_on h h' lo' hi'.
Proof. intros H H1 H2 i Hi. apply H. lia. Qed.
Lemma size_pos t : 1 <= tree_size t. Proof. destruct t; cbn; lia. Qed.
Lemma size_all_app a b : size_all (a ++ b) = size_all a + size_all b.
Proof. unfold size_all. induction a as [|k a IH]; cbn; [reflexivity|]. rewrite IH. lia. Qed.
Lemma offsets_app i a b : offsets i (a ++ b) = offsets i a ++ offsets (i + size_all a) b.
Proof.
  revert i. induction a as [|k a IH]; intros i; cbn.
  - f_equal. lia.
  - rewrite IH. do 2 f_equal. fold (size_all a). f_equal. lia.
Qed.

Lemma placed_same h h' :
  (forall p i t, placed h p i t -> same_on h h' i (i + tree_size t) -> placed h' p i t) /\
  (forall q i ks, placed_all h q i ks -> same_on h h' i (i + size_all ks) -> placed_all h' q i ks).
Proof.
  apply placed_both.
  - intros p i n a ks Hi _ IH Hs. constructor.
    + rewrite Hs; auto. cbn. lia.
    + apply IH. eapply same_sub; [exact Hs|lia|]. cbn. unfold size_all. lia.
  - intros p i s Hi Hs. constructor. rewrite Hs; auto. cbn. lia.
  - intros; constructor.
  - intros q i k ks _ IH1 _ IH2 Hs. cbn in Hs. fold (size_all ks) in Hs. constructor.
    + apply IH1. eapply same_sub; [exact Hs|lia|lia].
    + apply IH2. eapply same_sub; [exact Hs| |lia]. lia.
Qed.

Lemma placed_app h q i a b : placed_all h q i a -> placed_all h q (i + size_all a) b -> placed_all h q i (a ++ b).
Proof.
  revert i. induction a as [|k a IH]; intros i Ha Hb; cbn in *.
  - rewrite Nat.add_0_r in Hb. exact Hb.
  - inversion Ha; subst. constructor; auto. apply IH; auto. fold (size_all a) in Hb.
    replace (i + tree_size k + size_all a) with (i + (tree_size k + size_all a)) by lia. exact Hb.
Qed.

Lemma placed_holds h :
  (forall p i t, placed h p i t -> holds h p i t (seq i (tree_size t))) /\
  (forall q i ks, placed_all h q i ks -> holds_all h q (offsets i ks) ks (seq i (size_all ks))).
Proof.
  apply placed_both.
  - intros p i n a ks Hi _ IH. cbn [tree_size seq]. econstructor; eauto.
  - intros p i s Hi. cbn. constructor; auto.
  - intros; constructor.
  - intros q i k ks _ IH1 _ IH2. cbn [offsets size_all fold_right]. fold (size_all ks). rewrite seq_app. constructor; auto.
Qed.

Lemma placed_reach h roots :
  (forall p i t, placed h p i t -> reach h roots i -> forall j, i <= j < i + tree_size t -> reach h roots j) /\
  (forall q i ks, placed_all h q i ks -> (forall j, In j (offsets i ks) -> reach h roots j) ->
     forall j, i <= j < i + size_all ks -> reach h roots j).
Proof.
  apply placed_both.
  - intros p i n a ks Hi _ IH Hr j Hj. destruct (Nat.eq_dec j i) as [->|Hn]; [auto|].
    apply IH.
    + intros x Hx. eapply re_kid; eauto.
    + cbn in Hj. fold (size_all ks) in Hj. lia.
  - intros p i s _ Hr j Hj. cbn in Hj. replace j with i by lia. auto.
  - intros q i _ j Hj. cbn in Hj. lia.
  - intros q i k ks _ IH1 _ IH2 Hr j Hj. cbn in Hj. fold (size_all ks) in Hj.
    destruct (Nat.lt_ge_cases j (i + tree_size k)).
    + apply IH1; [apply Hr; left; auto|lia].
    + apply IH2; [intros x Hx; apply Hr; right; auto|lia].
Qed.

(** ** The open elements, innermost first: name, attributes, finished children *)
Notation frame := (list N * dict (list N) * list xtree)%type.
Definition fkids (f : frame) : list xtree := snd f.
Fixpoint fid (b : ref) (fs : list frame) : ref :=
  match fs with
  | [] => b
  | _ :: r => match r with [] => b | g :: _ => S (fid b r) + size_all (fkids g) end
  end.
Definition fend (b : ref) (fs : list frame) : ref :=
  match fs with [] => b | f :: _ => S (fid b fs) + size_all (fkids f) end.
Lemma fid_cons b f g r : fid b (f :: g :: r) = fend b (g :: r). Proof. reflexivity. Qed.
Lemma fid_low b fs : b <= fid b fs.
Proof.
  induction fs as [|f r IH]; [cbn; lia|]. destruct r as [|g r]; [cbn; lia|]. rewrite fid_cons. unfold fend. lia.
Qed.
Definition fparent (b : ref) (r : list frame) : option ref := match r with [] => None | _ => Some (fid b r) end.

Fixpoint spine (h : heap) (b : ref) (fs : list frame) (child : list ref) : Prop :=
  match fs with
  | [] => True
  | (n, a, ks) :: r =>
      hp h (fid b fs) = Some (OElem n a (offsets (S (fid b fs)) ks ++ child) (fparent b r)) /\
      placed_all h (fid b fs) (S (fid b fs)) ks /\ spine h b r [fid b fs]
  end.

Lemma spine_same h h' b fs : forall child, spine h b fs child -> same_on h h' b (fend b fs) -> spine h' b fs child.
Proof.
  induction fs as [|[[n a] ks] r IH]; intros child Hs Hm; [exact I|]. cbn [spine] in *.
  set (i := fid b ((n, a, ks) :: r)) in *. destruct Hs as (H1 & H2 & H3).
  assert (Hl : b <= i) by apply fid_low.
  assert (He : fend b ((n, a, ks) :: r) = S i + size_all ks) by reflexivity. rewrite He in Hm.
  split; [rewrite Hm; [exact H1|lia]|]. split.
  - eapply (proj2 (placed_same h h')); [exact H2|]. eapply same_sub; [exact Hm|lia|lia].
  - apply IH; auto. eapply same_sub; [exact Hm|lia|]. destruct r as [|g r]; [cbn; lia|]. unfold i. rewrite fid_cons. lia.
Qed.

Lemma spine_reach h b roots fs : forall child, fs <> [] -> spine h b fs child -> reach h roots b ->
  forall j, b <= j < fend b fs -> reach h roots j.
Proof.
  induction fs as [|[[n a] ks] r IH]; intros child Hne Hs Hb; [congruence|]. cbn [spine] in *.
  set (i := fid b ((n, a, ks) :: r)) in *. destruct Hs as (H1 & H2 & H3).
  assert (He : fend b ((n, a, ks) :: r) = S i + size_all ks) by reflexivity. rewrite He.
  assert (Hi : reach h roots i /\ forall j, b <= j < i -> reach h roots j).
  { destruct r as [|g r]; [unfold i; cbn; split; [exact Hb|intros; lia]|].
    assert (Hr : forall j, b <= j < fend b (g :: r) -> reach h roots j) by (eapply IH; eauto; discriminate).
    split; [|exact Hr]. destruct g as [[n' a'] ks']. cbn [spine] in H3. destruct H3 as (G1 & _ & _).
    eapply re_kid; [apply (Hr (fid b ((n', a', ks') :: r)))|exact G1|apply in_or_app; right; left; reflexivity].
    pose proof (fid_low b ((n', a', ks') :: r)). unfold fend. lia. }
  destruct Hi as [Hi Hlow]. intros j Hj. destruct (Nat.lt_ge_cases j i); [apply Hlow; lia|].
  destruct (Nat.eq_dec j i) as [->|Hn]; [exact Hi|].
  eapply (proj2 (placed_reach h roots)); [exact H2| |lia]. intros x Hx. eapply re_kid; [exact Hi|exact H1|]. apply in_or_app; auto.
Qed.

(** ** Spine updates *)
Lemma hp_upd h i o j : hp (upd h i o) j = if Nat.eqb j i then Some o else hp h j.
Proof. reflexivity. Qed.
Lemma append_same h p i : same_on h (append_kid h p i) 0 p.
Proof.
  intros j Hj. unfold append_kid. destruct (hp h p) as [[n a ks q|s q]|]; auto. rewrite hp_upd.
  replace (j =? p)%nat with false by (symmetry; apply Nat.eqb_neq; lia). reflexivity.
Qed.
Lemma append_same' h p i hi : same_on h (append_kid h p i) (S p) hi.
Proof.
  intros j Hj. unfold append_kid. destruct (hp h p) as [[n a ks q|s q]|]; auto. rewrite hp_upd.
  replace (j =? p)%nat with false by (symmetry; apply Nat.eqb_neq; lia). reflexivity.
Qed.
Lemma append_nxt h p i : nxt (append_kid h p i) = nxt h.
Proof. unfold append_kid. destruct (hp h p) as [[n a ks q|s q]|]; reflexivity. Qed.

Lemma spine_append h b n a ks r i : spine h b ((n, a, ks) :: r) [] ->
  spine (append_kid h (fid b ((n, a, ks) :: r)) i) b ((n, a, ks) :: r) [i].
Proof.
  cbn [spine]. set (p := fid b ((n, a, ks) :: r)). intros (H1 & H2 & H3). rewrite app_nil_r in H1.
  split; [|split].
  - unfold append_kid. rewrite H1, hp_upd, Nat.eqb_refl. reflexivity.
  - eapply (proj2 (placed_same h _)); [exact H2|]. apply append_same'.
  - eapply spine_same; [exact H3|]. eapply same_sub; [apply append_same|lia|].
    destruct r as [|g r]; [cbn; lia|]. unfold p. rewrite fid_cons. lia.
Qed.

Lemma spine_text h b n a ks r s : spine h b ((n, a, ks) :: r) [fend b ((n, a, ks) :: r)] ->
  hp h (fend b ((n, a, ks) :: r)) = Some (OText s (Some (fid b ((n, a, ks) :: r)))) ->
  spine h b ((n, a, ks ++ [XT s]) :: r) [].
Proof.
  cbn [spine]. change (fid b ((n, a, ks ++ [XT s]) :: r)) with (fid b ((n, a, ks) :: r)).
  change (fend b ((n, a, ks) :: r)) with (S (fid b ((n, a, ks) :: r)) + size_all ks).
  set (p := fid b ((n, a, ks) :: r)). intros (H1 & H2 & H3) Ht. rewrite app_nil_r, offsets_app. cbn [offsets].
  split; [exact H1|]. split; [|exact H3]. apply placed_app; auto. constructor; [constructor; exact Ht|constructor].
Qed.

Lemma spine_close h b n a ks n' a' ks' r : spine h b ((n, a, ks) :: (n', a', ks') :: r) [] ->
  spine h b ((n', a', ks' ++ [XE n a ks]) :: r) [].
Proof.
  cbn [spine]. change (fid b ((n', a', ks' ++ [XE n a ks]) :: r)) with (fid b ((n', a', ks') :: r)).
  change (fid b ((n, a, ks) :: (n', a', ks') :: r)) with (S (fid b ((n', a', ks') :: r)) + size_all ks').
  set (p := fid b ((n', a', ks') :: r)). intros (H1 & H2 & G1 & G2 & G3). rewrite app_nil_r, offsets_app in *. cbn [offsets].
  split; [exact G1|]. split; [|exact G3]. apply placed_app; auto. constructor; [|constructor].
  constructor; [exact H1|exact H2].
Qed.
Lemma fend_close b n a ks n' a' ks' r : fend b ((n', a', ks' ++ [XE n a ks]) :: r) = fend b ((n, a, ks) :: (n', a', ks') :: r).
Proof.
  unfold fend, fkids. cbn [snd]. change (fid b ((n', a', ks' ++ [XE n a ks]) :: r)) with (fid b ((n', a', ks') :: r)).
  change (fid b ((n, a, ks) :: (n', a', ks') :: r)) with (S (fid b ((n', a', ks') :: r)) + size_all ks').
  rewrite size_all_app. cbn. unfold size_all. lia.
Qed.

(** ** Abstract states and the invariant *)
Inductive zst := ZNone | ZOpen (f : frame) (fs : list frame) | ZDone (t : xtree).
Definition zup (n : str) (a : dict str) (ks : list xtree) (fs : list frame) : zst :=
  match fs with
  | [] => ZDone (XE n a ks)
  | (n', a', ks') :: fs => ZOpen (n', a', ks' ++ [XE n a ks]) fs
  end.
Definition zstep (z : zst) (e : event) : option zst :=
  match e with
  | EvStart n a _ => match z with
                     | ZNone => Some (ZOpen (n, a, []) [])
                     | ZOpen f fs => Some (ZOpen (n, a, []) (f :: fs))
                     | ZDone _ => None end
  | EvChars t => match z with ZOpen (n, a, ks) fs => Some (ZOpen (n, a, ks ++ [XT t]) fs) | _ => None end
  | EvEnd _ _ => match z with ZOpen (n, a, ks) fs => Some (zup n a ks fs) | _ => None end
  end.
Fixpoint zrun (z : zst) (evs : list event) : option zst :=
  match evs with
  | [] => Some z
  | e :: r => match zstep z e with Some z' => zrun z' r | None => None end
  end.

Definition binv (b : ref) (z : zst) (s : bstate) : Prop :=
  match z with
  | ZNone => broot s = None /\ bpar s = None /\ nxt (bheap s) = b
  | ZOpen f fs => broot s = Some b /\ bpar s = Some (fid b (f :: fs)) /\ nxt (bheap s) = fend b (f :: fs) /\
                  spine (bheap s) b (f :: fs) []
  | ZDone t => broot s = Some b /\ bpar s = None /\ nxt (bheap s) = b + tree_size t /\ placed (bheap s) None b t
  end.

Lemma collect_same s s' lo hi : collect s s' -> (forall j, lo <= j < hi -> reach (bheap s) (broots s) j) ->
  same_on (bheap s) (bheap s') lo hi.
Proof. intros ((_ & Hg) & _) H j Hj. destruct (Hg j) as [He|[_ Hn]]; [exact He|]. exfalso. apply Hn, H, Hj. Qed.
Lemma in_roots_root s b : broot s = Some b -> In b (broots s).
Proof. unfold broots. intros ->. left; reflexivity. Qed.
Lemma in_roots_elem s b : belem s = Some b -> In b (broots s).
Proof. unfold broots. intros ->. rewrite !in_app_iff. right; right; left; left; reflexivity. Qed.
Lemma in_roots_text s b : btext s = Some b -> In b (broots s).
Proof. unfold broots. intros ->. rewrite !in_app_iff. right; right; right; left; reflexivity. Qed.

Lemma collect_binv b z s s' : binv b z s -> collect s s' -> binv b z s'.
Proof.
  intros Hb Hc. pose proof Hc as ((Hn & _) & Hr & Hp & He & Ht). destruct z as [|f fs|t]; cbn [binv] in *; rewrite Hr, Hp, Hn.
  - exact Hb.
  - destruct Hb as (H1 & H2 & H3 & H4). do 3 (split; [solve [auto]|]). eapply spine_same; [exact H4|]. apply collect_same; auto.
    eapply spine_reach; [discriminate|exact H4|]. apply re_root, in_roots_root, H1.
  - destruct Hb as (H1 & H2 & H3 & H4). repeat split; auto. eapply (proj1 (placed_same _ _)); [exact H4|]. apply collect_same; auto.
    eapply (proj1 (placed_reach _ _)); [exact H4|]. apply re_root, in_roots_root, H1.
Qed.

Lemma hp_alloc h o j : hp (fst (alloc h o)) j = if Nat.eqb j (nxt h) then Some o else hp h j.
Proof. reflexivity. Qed.
Lemma alloc_same h o lo : same_on h (fst (alloc h o)) lo (nxt h).
Proof. intros j Hj. rewrite hp_alloc. replace (j =? nxt h)%nat with false by (symmetry; apply Nat.eqb_neq; lia). reflexivity. Qed.

(** One event. *)
Lemma step_start_open b f fs n a anc s rest s' : binv b (ZOpen f fs) s ->
  runs s (handler_stmts (EvStart n a anc) ++ rest) s' ->
  exists s1, binv b (ZOpen (n, a, []) (f :: fs)) s1 /\ runs s1 rest s'.
Proof.
  intros Hb Hr. cbn [handler_stmts app] in Hr.
  inversion Hr as [|u1 s1 st1 l1 u1' C1 R1]; subst. clear Hr. apply (collect_binv b (ZOpen f fs)) in C1; [|exact Hb]. clear Hb s.
  inversion R1 as [|u2 s3 st2 l2 u2' C2 R2]; subst. clear R1.
  inversion R2 as [|u3 s5 st3 l3 u3' C3 R3]; subst. clear R2.
  inversion R3 as [|u4 s7 st4 l4 u4' C4 R4]; subst. clear R3.
  eexists. split; [|exact R4]. clear R4.
  destruct f as [[n0 a0] ks0]. set (fs0 := (n0, a0, ks0) :: fs) in *.
  destruct C1 as (Hroot & Hpar & Hn & Hsp). fold fs0 in Hpar, Hn, Hsp.
  assert (Hlow : b <= fid b fs0) by apply fid_low.
  assert (Hlt : fid b fs0 < fend b fs0) by (unfold fend, fs0; lia).
  remember (exec (SNewElem n a) s1) as s2 eqn:E2. cbn [exec alloc] in E2.
  set (i := fend b fs0) in *.
  assert (F2 : broot s2 = Some b /\ bpar s2 = Some (fid b fs0) /\ belem s2 = Some i /\ nxt (bheap s2) = S i /\
     spine (bheap s2) b fs0 [] /\ hp (bheap s2) i = Some (OElem n a [] (Some (fid b fs0)))).
  { subst s2. cbn [broot bpar belem bheap nxt hp]. rewrite Hn, Hpar, Nat.eqb_refl. do 4 (split; [solve [auto]|]). split; [|reflexivity].
    eapply spine_same; [exact Hsp|]. intros j Hj. cbn [hp]. replace (j =? i)%nat with false by (symmetry; apply Nat.eqb_neq; unfold i; lia). reflexivity. }
  clear E2 Hroot Hpar Hn Hsp. destruct F2 as (Hroot & Hpar & Hel & Hn & Hsp & Hi).
  assert (F3 : broot s3 = Some b /\ bpar s3 = Some (fid b fs0) /\ belem s3 = Some i /\ nxt (bheap s3) = S i /\
     spine (bheap s3) b fs0 [] /\ hp (bheap s3) i = Some (OElem n a [] (Some (fid b fs0)))).
  { assert (Hs : same_on (bheap s2) (bheap s3) b (S i)).
    { apply collect_same; auto. intros j Hj. destruct (Nat.eq_dec j i) as [->|Hne].
      - apply re_root, in_roots_elem, Hel.
      - eapply spine_reach; [| exact Hsp|apply re_root, in_roots_root, Hroot|unfold i in *; lia]. discriminate. }
    destruct C2 as ((Hn' & _) & Hr' & Hp' & He' & _). rewrite Hr', Hp', He', Hn'. do 4 (split; [solve [auto]|]). split.
    - eapply spine_same; [exact Hsp|]. eapply same_sub; [exact Hs|lia|]. unfold i; lia.
    - rewrite Hs by lia. exact Hi. }
  clear C2 Hroot Hpar Hn Hsp Hel Hi s2. destruct F3 as (Hroot & Hpar & Hel & Hn & Hsp & Hi).
  remember (exec SAppendElem s3) as s4 eqn:E4. cbn [exec] in E4. rewrite Hpar, Hel in E4.
  assert (F4 : broot s4 = Some b /\ bpar s4 = Some (fid b fs0) /\ belem s4 = Some i /\ nxt (bheap s4) = S i /\
     spine (bheap s4) b ((n, a, []) :: fs0) []).
  { subst s4. cbn [broot bpar belem bheap]. rewrite append_nxt. do 4 (split; [solve [auto]|]). cbn [spine]. split; [|split].
    - cbn [offsets app]. change (fparent b fs0) with (Some (fid b fs0)). rewrite <- Hi. apply (append_same' (bheap s3) (fid b fs0) i (S i)). change (fid b ((n, a, []) :: fs0)) with i. lia.
    - constructor.
    - change (fid b ((n, a, []) :: fs0)) with i. apply (spine_append (bheap s3) b n0 a0 ks0 fs i Hsp). }
  clear E4 Hroot Hpar Hn Hsp Hel Hi. destruct F4 as (Hroot & Hpar & Hel & Hn & Hsp).
  assert (He : fend b ((n, a, []) :: fs0) = S i) by (unfold fend; cbn [fkids snd size_all fold_right]; change (fid b ((n, a, []) :: fs0)) with i; lia).
  assert (K : forall u v, collect u v -> broot u = Some b -> spine (bheap u) b ((n, a, []) :: fs0) [] -> 
     broot v = Some b /\ belem v = belem u /\ nxt (bheap v) = nxt (bheap u) /\ spine (bheap v) b ((n, a, []) :: fs0) []).
  { intros u v Huv Hu Hsu. assert (Hs : same_on (bheap u) (bheap v) b (S i)).
    { apply collect_same; auto. rewrite <- He. eapply spine_reach; [discriminate|exact Hsu|apply re_root, in_roots_root, Hu]. }
    destruct Huv as ((Hn' & _) & Hr' & Hp' & He' & _). rewrite Hr', He', Hn'. do 3 (split; [solve [auto]|]).
    eapply spine_same; [exact Hsu|]. rewrite He; exact Hs. }
  destruct (K _ _ C3 Hroot Hsp) as (G1 & G2 & G3 & G4). clear C3.
  assert (C4' := C4). destruct C4 as (_ & _ & P4 & _ & _). cbn [exec bpar] in P4.
  destruct (K _ _ C4' G1 G4) as (I1 & I2 & I3 & I4). cbn [exec bheap belem] in I2, I3.
  cbn [exec]. rewrite I1. cbn [binv]. split; [exact I1|]. split; [|split; [|exact I4]].
  - rewrite P4, G2, Hel. reflexivity.
  - rewrite I3, G3, Hn, He. reflexivity.
Qed.

Lemma step_start_first b n a anc s rest s' : binv b ZNone s ->
  runs s (handler_stmts (EvStart n a anc) ++ rest) s' ->
  exists s1, binv b (ZOpen (n, a, []) []) s1 /\ runs s1 rest s'.
Proof.
  intros Hb Hr. cbn [handler_stmts app] in Hr.
  inversion Hr as [|u1 s1 st1 l1 u1' C1 R1]; subst. clear Hr. apply (collect_binv b ZNone) in C1; [|exact Hb]. clear Hb s.
  inversion R1 as [|u2 s3 st2 l2 u2' C2 R2]; subst. clear R1.
  inversion R2 as [|u3 s5 st3 l3 u3' C3 R3]; subst. clear R2.
  inversion R3 as [|u4 s7 st4 l4 u4' C4 R4]; subst. clear R3.
  eexists. split; [|exact R4]. clear R4. destruct C1 as (Hroot & Hpar & Hn).
  assert (K : forall u v, collect u v -> belem u = Some b -> hp (bheap u) b = Some (OElem n a [] None) ->
     belem v = Some b /\ hp (bheap v) b = Some (OElem n a [] None) /\ broot v = broot u /\ bpar v = bpar u /\ nxt (bheap v) = nxt (bheap u)).
  { intros u v Huv He Hh. assert (Hs : same_on (bheap u) (bheap v) b (S b)).
    { apply collect_same; auto. intros j Hj. replace j with b by lia. apply re_root, in_roots_elem, He. }
    destruct Huv as ((Hn' & _) & Hr' & Hp' & He' & _). rewrite (Hs b) by lia. repeat split; congruence. }
  remember (exec (SNewElem n a) s1) as s2 eqn:E2. cbn [exec alloc] in E2.
  destruct (K s2 s3 C2) as (A1 & A2 & A3 & A4 & A5).
  { subst s2. cbn. congruence. }
  { subst s2. cbn. rewrite Hn, Nat.eqb_refl, Hpar. reflexivity. }
  assert (E4 : exec SAppendElem s3 = s3).
  { cbn [exec]. rewrite A4. subst s2; cbn. rewrite Hpar. reflexivity. }
  rewrite E4 in C3. destruct (K s3 s5 C3 A1 A2) as (B1 & B2 & B3 & B4 & B5).
  destruct (K _ s7 C4) as (D1 & D2 & D3 & D4 & D5); cbn [exec belem bheap broot bpar] in *; auto.
  assert (Hr7 : broot s7 = None) by (rewrite D3, B3, A3; subst s2; cbn; exact Hroot).
  rewrite Hr7. cbn [binv broot bpar bheap spine fid fparent offsets app]. split; [exact D1|].
  split; [rewrite D4; exact B1|]. split.
  - rewrite D5, B5, A5. subst s2. cbn. lia.
  - repeat split; auto. constructor.
Qed.

Lemma step_chars b n a ks fs t s rest s' : binv b (ZOpen (n, a, ks) fs) s ->
  runs s (handler_stmts (EvChars t) ++ rest) s' ->
  exists s1, binv b (ZOpen (n, a, ks ++ [XT t]) fs) s1 /\ runs s1 rest s'.
Proof.
  intros Hb Hr. cbn [handler_stmts app] in Hr.
  inversion Hr as [|u1 s1 st1 l1 u1' C1 R1]; subst. clear Hr. apply (collect_binv b (ZOpen (n, a, ks) fs)) in C1; [|exact Hb]. clear Hb s.
  inversion R1 as [|u2 s3 st2 l2 u2' C2 R2]; subst. clear R1.
  eexists. split; [|exact R2]. clear R2.
  set (fs0 := (n, a, ks) :: fs) in *.
  destruct C1 as (Hroot & Hpar & Hn & Hsp). fold fs0 in Hpar, Hn, Hsp.
  assert (Hlow : b <= fid b fs0) by apply fid_low.
  assert (Hlt : fid b fs0 < fend b fs0) by (unfold fend, fs0; lia).
  remember (exec (SNewText t) s1) as s2 eqn:E2. cbn [exec alloc] in E2.
  set (i := fend b fs0) in *.
  assert (F2 : broot s2 = Some b /\ bpar s2 = Some (fid b fs0) /\ btext s2 = Some i /\ nxt (bheap s2) = S i /\
     spine (bheap s2) b fs0 [] /\ hp (bheap s2) i = Some (OText t (Some (fid b fs0)))).
  { subst s2. cbn [broot bpar btext bheap nxt hp]. rewrite Hn, Hpar, Nat.eqb_refl. do 4 (split; [solve [auto]|]). split; [|reflexivity].
    eapply spine_same; [exact Hsp|]. intros j Hj. cbn [hp]. replace (j =? i)%nat with false by (symmetry; apply Nat.eqb_neq; unfold i; lia). reflexivity. }
  clear E2 Hroot Hpar Hn Hsp. destruct F2 as (Hroot & Hpar & Hel & Hn & Hsp & Hi).
  assert (F3 : broot s3 = Some b /\ bpar s3 = Some (fid b fs0) /\ btext s3 = Some i /\ nxt (bheap s3) = S i /\
     spine (bheap s3) b fs0 [] /\ hp (bheap s3) i = Some (OText t (Some (fid b fs0)))).
  { assert (Hs : same_on (bheap s2) (bheap s3) b (S i)).
    { apply collect_same; auto. intros j Hj. destruct (Nat.eq_dec j i) as [->|Hne].
      - apply re_root, in_roots_text, Hel.
      - eapply spine_reach; [| exact Hsp|apply re_root, in_roots_root, Hroot|unfold i in *; lia]. discriminate. }
    destruct C2 as ((Hn' & _) & Hr' & Hp' & He' & Ht'). rewrite Hr', Hp', Ht', Hn'. do 4 (split; [solve [auto]|]). split.
    - eapply spine_same; [exact Hsp|]. eapply same_sub; [exact Hs|lia|]. unfold i; lia.
    - rewrite Hs by lia. exact Hi. }
  clear C2 Hroot Hpar Hn Hsp Hel Hi s2. destruct F3 as (Hroot & Hpar & Hel & Hn & Hsp & Hi).
  cbn [exec]. rewrite Hpar, Hel. cbn [binv broot bpar bheap]. rewrite append_nxt.
  split; [exact Hroot|]. split; [reflexivity|]. split.
  - rewrite Hn. unfold fend. change (fid b ((n, a, ks ++ [XT t]) :: fs)) with (fid b fs0). unfold fkids; cbn [snd]. rewrite size_all_app. change (size_all [XT t]) with 1.
    change i with (S (fid b fs0) + size_all ks). lia.
  - apply spine_text.
    + apply spine_append. exact Hsp.
    + fold fs0. fold i. rewrite <- Hi. apply (append_same' (bheap s3) (fid b fs0) i (S i)). lia.
Qed.

Lemma step_end b z z' m anc s rest s' : binv b z s -> zstep z (EvEnd m anc) = Some z' ->
  runs s (handler_stmts (EvEnd m anc) ++ rest) s' ->
  exists s1, binv b z' s1 /\ runs s1 rest s'.
Proof.
  intros Hb Hz Hr. cbn [handler_stmts app] in Hr.
  inversion Hr as [|u1 s1 st1 l1 u1' C1 R1]; subst. clear Hr. apply (collect_binv b z) in C1; [|exact Hb]. clear Hb s.
  eexists. split; [|exact R1]. clear R1. destruct z as [|[[n a] ks] fs|t]; cbn [zstep] in Hz; try discriminate.
  destruct C1 as (Hroot & Hpar & Hn & Hsp). cbn [exec]. rewrite Hpar.
  destruct fs as [|[[n' a'] ks'] fs]; cbn [zup] in Hz; inversion Hz; subst; clear Hz; cbn [binv broot bpar bheap].
  - cbn [spine fid fparent] in *. rewrite app_nil_r in Hsp. destruct Hsp as (H1 & H2 & _). repeat split; auto.
    + unfold xml_parent. rewrite H1. reflexivity.
    + rewrite Hn. cbn. unfold size_all. lia.
    + constructor; auto.
  - split; [exact Hroot|]. split; [|split].
    + unfold xml_parent. pose proof Hsp as (H1 & _ & H3 & _). rewrite H1. cbn [fparent oparent].
      rewrite H3. reflexivity.
    + rewrite Hn, fend_close. reflexivity.
    + apply spine_close. exact Hsp.
Qed.

Lemma step_event b z z' e s rest s' : binv b z s -> zstep z e = Some z' -> runs s (handler_stmts e ++ rest) s' ->
  exists s1, binv b z' s1 /\ runs s1 rest s'.
Proof.
  intros Hb Hz Hr. destruct e as [n a anc|n anc|t].
  - destruct z as [|f fs|t]; cbn [zstep] in Hz; try discriminate.
    + inversion Hz; subst. eapply step_start_first; eauto.
    + inversion Hz; subst. eapply step_start_open; eauto.
  - eapply step_end; eauto.
  - destruct z as [|[[n0 a0] k0] fs|t0]; cbn [zstep] in Hz; try discriminate. inversion Hz; subst. eapply step_chars; eauto.
Qed.

Lemma run_binv b evs : forall z z' s s', binv b z s -> zrun z evs = Some z' -> run_events s evs s' -> binv b z' s'.
Proof.
  induction evs as [|e evs IH]; intros z z' s s' Hb Hz Hr; cbn [zrun] in Hz.
  - inversion Hz; subst. unfold run_events in Hr. cbn in Hr. inversion Hr; subst. eapply collect_binv; eauto.
  - destruct (zstep z e) as [z1|] eqn:E; [|discriminate]. unfold run_events in Hr. cbn [flat_map] in Hr.
    destruct (step_event b z z1 e s _ s' Hb E Hr) as (s1 & Hb1 & Hr1). eapply IH; eauto.
Qed.

(** ** From abstract states to trees *)
Fixpoint close_frames (t : xtree) (fs : list frame) : xtree :=
  match fs with [] => t | (n, a, ks) :: r => close_frames (XE n a (ks ++ [t])) r end.
Definition zclose (z : zst) : option xtree :=
  match z with
  | ZNone => None
  | ZOpen (n, a, ks) fs => Some (close_frames (XE n a ks) fs)
  | ZDone t => Some t
  end.
Lemma zrun_app z e1 e2 : zrun z (e1 ++ e2) = match zrun z e1 with Some z' => zrun z' e2 | None => None end.
Proof. revert z. induction e1 as [|e e1 IH]; intros z; cbn; [reflexivity|]. destruct (zstep z e); auto. Qed.

Lemma zrun_tree t : forall n a ks fs anc, zrun (ZOpen (n, a, ks) fs) (tree_events anc t) = Some (ZOpen (n, a, ks ++ [t]) fs).
Proof.
  induction t as [n0 a0 l IH|s] using xtree_ind'; intros n a ks fs anc; [|reflexivity].
  cbn [tree_events zrun zstep]. rewrite zrun_app.
  assert (H : forall k0, zrun (ZOpen (n0, a0, k0) ((n, a, ks) :: fs)) (flat_map (tree_events (anc ++ [n0])) l) =
     Some (ZOpen (n0, a0, k0 ++ l) ((n, a, ks) :: fs))).
  { induction IH as [|k l Hk _ IHl]; intros k0; [cbn; rewrite app_nil_r; reflexivity|].
    cbn [flat_map]. rewrite zrun_app, Hk, IHl, <- app_assoc. reflexivity. }
  rewrite H. reflexivity.
Qed.
Lemma zrun_doc n a ks : zrun ZNone (doc_events (XE n a ks)) = Some (ZDone (XE n a ks)).
Proof.
  unfold doc_events. cbn [tree_events zrun zstep]. rewrite zrun_app.
  assert (H : forall k0, zrun (ZOpen (n, a, k0) []) (flat_map (tree_events ([] ++ [n])) ks) = Some (ZOpen (n, a, k0 ++ ks) [])).
  { induction ks as [|k ks IH]; intros k0; [cbn; rewrite app_nil_r; reflexivity|].
    cbn [flat_map]. rewrite zrun_app, zrun_tree, IH, <- app_assoc. reflexivity. }
  rewrite H. reflexivity.
Qed.
Lemma zclose_end z e z' : is_end e -> zstep z e = Some z' -> zclose z' = zclose z.
Proof.
  intros (n & anc & ->) Hz. destruct z as [|[[n0 a0] k0] fs|t]; cbn in Hz; try discriminate.
  destruct fs as [|[[n1 a1] k1] fs]; inversion Hz; subst; reflexivity.
Qed.
Lemma zclose_ends evs : Forall is_end evs -> forall z z', zrun z evs = Some z' -> zclose z' = zclose z.
Proof.
  induction 1 as [|e evs He _ IH]; intros z z' Hz; cbn in Hz; [inversion Hz; reflexivity|].
  destruct (zstep z e) as [z1|] eqn:E; [|discriminate]. rewrite (IH _ _ Hz). eapply zclose_end; eauto.
Qed.
Lemma partial_zrun evs t : partial_tree evs t -> exists z, zrun ZNone evs = Some z /\ zclose z = Some t.
Proof.
  intros ((n & a & ks & ->) & ends & He & Hd). pose proof (zrun_doc n a ks) as Hz. rewrite Hd, zrun_app in Hz.
  destruct (zrun ZNone evs) as [z|]; [|discriminate]. exists z. split; [reflexivity|].
  rewrite <- (zclose_ends _ He _ _ Hz). reflexivity.
Qed.

(** Closing the open elements. *)
Lemma spine_placed h b fs : forall n a ks, spine h b ((n, a, ks) :: fs) [] -> placed h None b (close_frames (XE n a ks) fs).
Proof.
  induction fs as [|[[n' a'] ks'] fs IH]; intros n a ks H.
  - cbn [spine fid fparent] in H. rewrite app_nil_r in H. cbn [close_frames]. constructor; apply H.
  - cbn [close_frames]. apply IH. apply spine_close. exact H.
Qed.
Lemma binv_placed b z s t : binv b z s -> zclose z = Some t -> broot s = Some b /\ placed (bheap s) None b t.
Proof.
  intros Hb Hc. destruct z as [|[[n a] ks] fs|t0]; cbn in Hc; inversion Hc; subst; clear Hc.
  - destruct Hb as (H1 & _ & _ & H2). split; auto. apply spine_placed; auto.
  - destruct Hb as (H1 & _ & _ & H2). split; auto.
Qed.
Lemma placed_tree h b t : placed h None b t -> holds_tree h b t.
Proof. intros H. exists (seq b (tree_size t)). split; [apply placed_holds; exact H|apply seq_NoDup]. Qed.

Theorem build_partial s evs t s' : broot s = None -> bpar s = None -> partial_tree evs t -> run_events s evs s' ->
  exists i, broot s' = Some i /\ nxt (bheap s) <= i /\ holds_tree (bheap s') i t.
Proof.
  intros Hr Hp Ht Hrun. destruct (partial_zrun _ _ Ht) as (z & Hz & Hc).
  assert (Hb : binv (nxt (bheap s)) ZNone s) by (repeat split; auto).
  pose proof (run_binv _ _ _ _ _ _ Hb Hz Hrun) as Hb'. destruct (binv_placed _ _ _ _ Hb' Hc) as [H1 H2].
  exists (nxt (bheap s)). split; [exact H1|]. split; [lia|]. apply placed_tree, H2.
Qed.

(** ** The partial tree of well nested events *)
Definition anc_of (fs : list frame) : list str := rev (map (fun f => fst (fst f)) fs).
Fixpoint frames_events (fs : list frame) : list event :=
  match fs with
  | [] => []
  | (n, a, ks) :: r => frames_events r ++ EvStart n a (anc_of r) :: forest_events (anc_of ((n, a, ks) :: r)) ks
  end.
Fixpoint ends_of (fs : list frame) : list event :=
  match fs with [] => [] | (n, _, _) :: r => EvEnd n (anc_of r) :: ends_of r end.
Lemma close_events fs : forall n a ks,
  doc_events (close_frames (XE n a ks) fs) = frames_events ((n, a, ks) :: fs) ++ ends_of ((n, a, ks) :: fs).
Proof.
  induction fs as [|[[n' a'] ks'] fs IH]; intros n a ks.
  - cbn. unfold doc_events; cbn. rewrite <- ?app_assoc. reflexivity.
  - cbn [close_frames]. rewrite IH. cbn [frames_events ends_of]. unfold forest_events. rewrite flat_map_app. cbn [flat_map tree_events].
    assert (Ha : anc_of ((n, a, ks) :: (n', a', ks') :: fs) = anc_of ((n', a', ks') :: fs) ++ [n]) by reflexivity.
    rewrite Ha. change (anc_of ((n', a', ks' ++ [XE n a ks]) :: fs)) with (anc_of ((n', a', ks') :: fs)).
    repeat (rewrite <- !app_assoc; cbn [app]). reflexivity.
Qed.
Definition zevents (z : zst) : list event :=
  match z with ZNone => [] | ZOpen f fs => frames_events (f :: fs) | ZDone t => doc_events t end.
Definition znames (z : zst) : list str :=
  match z with ZOpen f fs => map (fun f => fst (fst f)) (f :: fs) | _ => [] end.

Lemma nest_zrun open evs open' : nest open evs open' -> forall f fs, open = znames (ZOpen f fs) ->
  exists z, zrun (ZOpen f fs) evs = Some z /\ zevents z = frames_events (f :: fs) ++ evs.
Proof.
  assert (Hd : forall evs open', nest [] evs open' -> evs = []).
  { intros e o H. inversion H; subst; auto; congruence. }
  intros H. induction H as [open|open n attrs evs open' Hne Hn IH|open n evs open' Hn IH|open t evs open' Hne Hn IH]; intros f fs He.
  - exists (ZOpen f fs). split; [reflexivity|]. cbn. rewrite app_nil_r. reflexivity.
  - destruct f as [[n0 a0] k0]. cbn [zrun zstep]. destruct (IH (n, attrs, []) ((n0, a0, k0) :: fs)) as (z & Hz & Hev).
    { cbn. f_equal. exact He. }
    exists z. split; [exact Hz|]. rewrite Hev. cbn [frames_events]. rewrite He. unfold anc_of at 1. cbn [forest_events flat_map].
    repeat (rewrite <- !app_assoc; cbn [app]). reflexivity.
  - destruct f as [[n0 a0] k0]. cbn in He. injection He as <- He. cbn [zrun zstep]. destruct fs as [|[[n1 a1] k1] fs].
    + cbn in He. subst open. apply Hd in Hn. subst evs. exists (ZDone (XE n a0 k0)). split; [reflexivity|].
      cbn [zevents]. exact (close_events [] n a0 k0).
    + destruct (IH (n1, a1, k1 ++ [XE n a0 k0]) fs) as (z & Hz & Hev); [exact He|].
      exists z. split; [exact Hz|]. rewrite Hev. cbn [frames_events]. unfold forest_events. rewrite flat_map_app. cbn [flat_map tree_events].
      rewrite He. assert (Ha : anc_of ((n, a0, k0) :: (n1, a1, k1) :: fs) = anc_of ((n1, a1, k1) :: fs) ++ [n]) by reflexivity.
      rewrite Ha. change (anc_of ((n1, a1, k1 ++ [XE n a0 k0]) :: fs)) with (anc_of ((n1, a1, k1) :: fs)).
      change (rev (map (fun f : frame => fst (fst f)) ((n1, a1, k1) :: fs))) with (anc_of ((n1, a1, k1) :: fs)).
      repeat (rewrite <- !app_assoc; cbn [app]). reflexivity.
  - destruct f as [[n0 a0] k0]. cbn [zrun zstep]. destruct (IH (n0, a0, k0 ++ [XT t]) fs He) as (z & Hz & Hev).
    exists z. split; [exact Hz|]. rewrite Hev. cbn [frames_events]. unfold forest_events. rewrite flat_map_app. cbn [flat_map tree_events].
    change (anc_of ((n0, a0, k0 ++ [XT t]) :: fs)) with (anc_of ((n0, a0, k0) :: fs)).
    repeat (rewrite <- !app_assoc; cbn [app]). reflexivity.
Qed.

Lemma ends_are_ends fs : Forall is_end (ends_of fs).
Proof. induction fs as [|[[n a] k] fs IH]; cbn; constructor; auto. eexists; eauto. Qed.
Lemma close_frames_elem fs : forall t, (exists n a ks, t = XE n a ks) -> exists n a ks, close_frames t fs = XE n a ks.
Proof. induction fs as [|[[n a] k] fs IH]; intros t Ht; cbn; eauto. Qed.

Theorem nested_partial evs : well_nested_prefix evs -> evs <> [] -> exists t, partial_tree evs t.
Proof.
  intros [->|(open & n & a & evs' & -> & Hn)] Hne; [congruence|].
  destruct (nest_zrun _ _ _ Hn (n, a, []) [] eq_refl) as (z & Hz & Hev). cbn [frames_events anc_of map rev forest_events flat_map app] in Hev.
  destruct z as [|[[n0 a0] k0] fs|t]; cbn [zevents] in Hev; [discriminate| |].
  - exists (close_frames (XE n0 a0 k0) fs). split; [apply close_frames_elem; eauto|]. exists (ends_of ((n0, a0, k0) :: fs)).
    split; [apply ends_are_ends|]. rewrite close_events, Hev. reflexivity.
  - exists t. split; [|exists []; split; [constructor|rewrite app_nil_r; exact Hev]].
    destruct t as [n0 a0 k0|s]; [eauto|]. discriminate.
Qed.

(** ** holds determines the tree *)
Lemma holds_det h :
  (forall p i t ids, holds h p i t ids -> forall p' t' ids', holds h p' i t' ids' -> t' = t) /\
  (forall q is ts ids, holds_all h q is ts ids -> forall q' ts' ids', holds_all h q' is ts' ids' -> ts' = ts).
Proof.
  split.
  - apply (holds_mut h (fun p i t ids => forall p' t' ids', holds h p' i t' ids' -> t' = t)
      (fun q is ts ids => forall q' ts' ids', holds_all h q' is ts' ids' -> ts' = ts)).
    + intros p i n a is ks idss Hi _ IH p' t' ids' H. inversion H as [p2 i2 n2 a2 is2 ks2 idss2 Hi2 Ha2|p2 i2 s2 Hi2]; subst; rewrite Hi in Hi2; inversion Hi2; subst.
      f_equal. eapply IH; eauto.
    + intros p i s Hi p' t' ids' H. inversion H as [p2 i2 n2 a2 is2 ks2 idss2 Hi2 Ha2|p2 i2 s2 Hi2]; subst; rewrite Hi in Hi2; inversion Hi2; subst. reflexivity.
    + intros q q' ts' ids' H. inversion H; reflexivity.
    + intros q i is t ts ids idss _ IH1 _ IH2 q' ts' ids' H. inversion H; subst. f_equal; [eapply IH1|eapply IH2]; eauto.
  - apply (holds_all_mut h (fun p i t ids => forall p' t' ids', holds h p' i t' ids' -> t' = t)
      (fun q is ts ids => forall q' ts' ids', holds_all h q' is ts' ids' -> ts' = ts)).
    + intros p i n a is ks idss Hi _ IH p' t' ids' H. inversion H as [p2 i2 n2 a2 is2 ks2 idss2 Hi2 Ha2|p2 i2 s2 Hi2]; subst; rewrite Hi in Hi2; inversion Hi2; subst.
      f_equal. eapply IH; eauto.
    + intros p i s Hi p' t' ids' H. inversion H as [p2 i2 n2 a2 is2 ks2 idss2 Hi2 Ha2|p2 i2 s2 Hi2]; subst; rewrite Hi in Hi2; inversion Hi2; subst. reflexivity.
    + intros q q' ts' ids' H. inversion H; reflexivity.
    + intros q i is t ts ids idss _ IH1 _ IH2 q' ts' ids' H. inversion H; subst. f_equal; [eapply IH1|eapply IH2]; eauto.
Qed.
Lemma holds_tree_det h i t t' : holds_tree h i t -> holds_tree h i t' -> t' = t.
Proof. intros (ids & H & _) (ids' & H' & _). eapply (proj1 (holds_det h)); eauto. Qed.
Lemma partial_unique evs t t' : partial_tree evs t -> partial_tree evs t' -> t' = t.
Proof. intros H H'. apply partial_zrun in H as (z & Hz & Hc), H' as (z' & Hz' & Hc'). congruence. Qed.

(** Executions exist. *)
Lemma collect_refl s : collect s s.
Proof. repeat split; auto. Qed.
Lemma runs_exec l : forall s, runs s l (fold_left (fun s st => exec st s) l s).
Proof. induction l as [|st l IH]; intros s; cbn; [constructor; apply collect_refl|]. econstructor; [apply collect_refl|apply IH]. Qed.
