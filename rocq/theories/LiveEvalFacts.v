(** A suspended query delivers what the evaluation of HeapEval lists, if nothing is edited. *)
From Verif Require Import PyStr Parser XTree Heap Builder HeapSpec RootCache DocOrder XPath XPathFuel XQuery HeapNav HeapEval HeapEvalFuel HeapQuery LiveEval LiveEvalSpec.

Section Facts.
  Variable w : env.
  Variable hv : dict hval.
  Notation ev m := (heval (mh m) w hv (mc m) (mv m)).
  Notation next := (gnext w hv).

  (** More fuel changes nothing. *)
  Lemma at_once_mono k k' m e x : k <= k' -> at_once w hv k m e x = GList [] Cut \/ at_once w hv k' m e x = at_once w hv k m e x.
  Proof.
    intros L. unfold at_once. destruct (heval_continues (mh m) w hv (mc m) (mv m) k k' L e x) as [[H ->]|[H _]]; [right; reflexivity|].
    destruct (ev m k e x) as [l f]. cbn [snd] in H. subst. left. reflexivity.
  Qed.
  Lemma begin_mono k k' m e x : k <= k' -> begin w hv k m e x = GList [] Cut \/ begin w hv k' m e x = begin w hv k m e x.
  Proof.
    intros L. pose proof (at_once_mono k k' m e x L) as A.
    destruct e as [l|e|l op r|d [r|]|ax t|e ps|t|u|n|f args|[|e1 es]]; cbn [begin]; try exact A; try (right; reflexivity).
    - destruct op; try exact A; right; reflexivity.
    - destruct x; try exact A; right; reflexivity.
    - destruct args as [|a [|b [|? ?]]]; try exact A. destruct (dict_get builtins f) as [fn|]; [|exact A]. destruct fn; try exact A.
      destruct (heval_continues (mh m) w hv (mc m) (mv m) k k' L b x) as [[H ->]|[H (more & E)]]; [right; reflexivity|].
      destruct (ev m k b x) as [[|y l] f1], (ev m k' b x) as [l' f']; cbn [fst snd] in *; subst; [left; reflexivity|]. cbn [app]. right. reflexivity.
  Qed.
  Lemma verdict_mono k k' m pos x ps : k <= k' ->
    vverdict (mh m) pos x (map (ev m k) ps) = VStop Cut \/ vverdict (mh m) pos x (map (ev m k') ps) = vverdict (mh m) pos x (map (ev m k) ps).
  Proof.
    intros L. apply vx_verdict. induction ps as [|p ps IH]; cbn [map]; constructor; [|exact IH]. intros i. apply heval_continues. exact L.
  Qed.
  Lemma next_mono k : forall k' m g r, next k m g = Some r -> k <= k' -> next k' m g = Some r.
  Proof.
    induction k as [|k IH]; intros k' m g r H L; [discriminate|]. destruct k' as [|k']; [lia|]. assert (L' : k <= k') by lia. cbn [gnext] in *.
    destruct g as [x p|e x|[|y l] f|u x o a|b e [g1|] src|x pos ps src|g1 g2].
    - eauto.
    - destruct (begin_mono k k' m e x L') as [E|E]; [rewrite E in H; destruct k; discriminate|]. rewrite E. eauto.
    - exact H.
    - exact H.
    - destruct (move m _ x o a) as [|f|y a'|y o' a'|a']; eauto. destruct (seen (mh m) u x y); eauto.
    - destruct (next k m g1) as [r1|] eqn:E; [|discriminate]. rewrite (IH k' _ _ _ E L'). destruct r1; eauto.
    - destruct (next k m src) as [r1|] eqn:E; [|discriminate]. rewrite (IH k' _ _ _ E L'). destruct r1; eauto.
    - destruct (next k m src) as [r1|] eqn:E; [|discriminate]. rewrite (IH k' _ _ _ E L'). destruct r1 as [|e|y src']; eauto.
      destruct (verdict_mono k k' m pos (vcopy (mh m) x y) ps L') as [V|V]; [rewrite V in H; discriminate|]. rewrite V. destruct (vverdict _ _ _ _) as [| |[]]; eauto.
    - destruct (next k m g1) as [r1|] eqn:E; [|discriminate]. rewrite (IH k' _ _ _ E L'). destruct r1; eauto.
  Qed.
  Lemma gpulls_det m g r r' : gpulls w hv m g r -> gpulls w hv m g r' -> r = r'.
  Proof.
    intros (k & H) (k' & H'). pose proof (next_mono _ (Nat.max k k') _ _ _ H ltac:(lia)). pose proof (next_mono _ (Nat.max k k') _ _ _ H' ltac:(lia)). congruence.
  Qed.
  Lemma gcomes_det m g l f : gcomes w hv m g l f -> forall l' f', gcomes w hv m g l' f' -> l' = l /\ f' = f.
  Proof.
    induction 1 as [g P|g e P|g y g' l f P _ IH]; intros l' f' C; inversion C as [? P'|? ? P'|? ? ? ? ? P' C']; subst; pose proof (gpulls_det _ _ _ _ P P') as E; try discriminate.
    - auto.
    - injection E as ->. auto.
    - injection E as -> ->. destruct (IH _ _ C') as [-> ->]. auto.
  Qed.

  (** As [gcomes], but nothing is said about what comes after a [Cut]. *)
  Inductive says (m : moment) : gen -> list hval -> fin -> Prop :=
  | sa_cut g : says m g [] Cut
  | sa_end g : gpulls w hv m g Ended -> says m g [] Done
  | sa_fail g e : gpulls w hv m g (Failed e) -> says m g [] (Exn e)
  | sa_more g y g' l f : gpulls w hv m g (Given y g') -> says m g' l f -> says m g (y :: l) f.
  Lemma says_comes m g l f : says m g l f -> f <> Cut -> gcomes w hv m g l f.
  Proof. induction 1; intros H1; [congruence|apply gc_end; auto|apply gc_fail; auto|eapply gc_more; eauto]. Qed.
  (** Two generators that do the same at the next turn. *)
  Lemma says_step m g g' l f : (forall r, gpulls w hv m g' r -> gpulls w hv m g r) -> says m g' l f -> says m g l f.
  Proof. intros H S. inversion S; subst; [apply sa_cut|apply sa_end; auto|apply sa_fail; auto|eapply sa_more; eauto]. Qed.
  Lemma pull_start n m e x r : gpulls w hv m (begin w hv n m e x) r -> gpulls w hv m (GStart e x) r.
  Proof.
    intros (k & H). destruct (begin_mono n (Nat.max n k) m e x ltac:(lia)) as [E|E].
    - rewrite E in H. destruct k; discriminate.
    - exists (S (Nat.max n k)). cbn [gnext]. rewrite E. eapply next_mono; [exact H|lia].
  Qed.
  Lemma says_start n m e x l f : says m (begin w hv n m e x) l f -> says m (GStart e x) l f.
  Proof. apply says_step. intros r. apply pull_start. Qed.
  Lemma says_list m l f : says m (GList l f) l f.
  Proof. induction l as [|y l IH]; [destruct f; [apply sa_end; exists 1; reflexivity|apply sa_fail; exists 1; reflexivity|apply sa_cut]|]. eapply sa_more; [exists 1; reflexivity|exact IH]. Qed.
  Lemma says_cat m g1 l1 f1 : says m g1 l1 f1 -> forall g2 r2, says m g2 (fst r2) (snd r2) -> says m (GCat g1 g2) (fst (vthen (l1, f1) r2)) (snd (vthen (l1, f1) r2)).
  Proof.
    induction 1 as [g|g (k & P)|g e (k & P)|g y g' l f (k & P) _ IH]; intros g2 r2 S2; cbn [vthen fst snd app].
    - apply sa_cut.
    - eapply says_step; [|exact S2]. intros r (k2 & P2). exists (S (Nat.max k k2)). cbn [gnext]. rewrite (next_mono _ (Nat.max k k2) _ _ _ P) by lia. eapply next_mono; [exact P2|lia].
    - apply sa_fail. exists (S k). cbn [gnext]. rewrite P. reflexivity.
    - specialize (IH g2 r2 S2). destruct f; cbn [vthen fst snd app] in *; (eapply sa_more; [exists (S k); cbn [gnext]; rewrite P; reflexivity|exact IH]).
  Qed.
  Lemma says_for_in m b e g1 l1 f1 : says m g1 l1 f1 -> forall src r2, (f1 = Done -> says m (GFor b e None src) (fst r2) (snd r2)) ->
    says m (GFor b e (Some g1) src) (fst (vthen (l1, f1) r2)) (snd (vthen (l1, f1) r2)).
  Proof.
    induction 1 as [g|g (k & P)|g z (k & P)|g y g' l f (k & P) _ IH]; intros src r2 S2; cbn [vthen fst snd app].
    - apply sa_cut.
    - eapply says_step; [|exact (S2 eq_refl)]. intros r (k2 & P2). exists (S (Nat.max k k2)). cbn [gnext]. rewrite (next_mono _ (Nat.max k k2) _ _ _ P) by lia. eapply next_mono; [exact P2|lia].
    - apply sa_fail. exists (S k). cbn [gnext]. rewrite P. reflexivity.
    - specialize (IH src r2 S2). destruct f; cbn [vthen fst snd app] in *; (eapply sa_more; [exists (S k); cbn [gnext]; rewrite P; reflexivity|exact IH]).
  Qed.
  Lemma says_for m b e k : (forall y, says m (GStart e (vcopy (mh m) b y)) (fst (k y)) (snd (k y))) ->
    forall src l f, says m src l f -> says m (GFor b e None src) (fst (vfor l f k)) (snd (vfor l f k)).
  Proof.
    intros H src l f S. induction S as [g|g (n & P)|g z (n & P)|g y g' l f (n & P) _ IH].
    - apply sa_cut.
    - apply sa_end. exists (S n). cbn [gnext]. rewrite P. reflexivity.
    - apply sa_fail. exists (S n). cbn [gnext]. rewrite P. reflexivity.
    - rewrite vfor_seq2. eapply says_step.
      2: { rewrite (surjective_pairing (k y)). apply says_for_in; [exact (H y)|]. intros _. exact IH. }
      intros r (n2 & P2). exists (S (Nat.max n n2)). cbn [gnext]. rewrite (next_mono _ (Nat.max n n2) _ _ _ P) by lia. eapply next_mono; [exact P2|lia].
  Qed.
  Lemma says_pred n m x ps : forall src l f, says m src l f -> forall pos,
    says m (GPred x pos ps src) (fst (vpredicated (mh m) pos x l f (map (ev m n) ps))) (snd (vpredicated (mh m) pos x l f (map (ev m n) ps))).
  Proof.
    intros src l f S. induction S as [g|g (k & P)|g z (k & P)|g y g' l f (k & P) _ IH]; intros pos.
    - apply sa_cut.
    - apply sa_end. exists (S k). cbn [gnext]. rewrite P. reflexivity.
    - apply sa_fail. exists (S k). cbn [gnext]. rewrite P. reflexivity.
    - rewrite vpredicated_cons. specialize (IH (S pos)). destruct (vverdict (mh m) pos (vcopy (mh m) x y) (map (ev m n) ps)) as [| |f'] eqn:V.
      + cbn [vthen vyield fst snd app]. eapply sa_more; [|exact IH]. exists (S (Nat.max n k)). cbn [gnext]. rewrite (next_mono _ (Nat.max n k) _ _ _ P) by lia.
        destruct (verdict_mono n (Nat.max n k) m pos (vcopy (mh m) x y) ps ltac:(lia)) as [E|E]; [congruence|]. rewrite E, V. reflexivity.
      + eapply says_step; [|exact IH]. intros r (k2 & P2). exists (S (Nat.max n (Nat.max k k2))). cbn [gnext]. rewrite (next_mono _ (Nat.max n (Nat.max k k2)) _ _ _ P) by lia.
        destruct (verdict_mono n (Nat.max n (Nat.max k k2)) m pos (vcopy (mh m) x y) ps ltac:(lia)) as [E|E]; [congruence|]. rewrite E, V. eapply next_mono; [exact P2|lia].
      + cbn [fst snd]. destruct f' as [|e|].
        * exfalso. clear - V. revert V. induction ps as [|p ps IH]; cbn [map vverdict]; [discriminate|].
          destruct (ev m n p (vcopy (mh m) x y)) as [[|z l] [|e|]]; try discriminate;
          repeat match goal with |- context [match vindex ?z with _ => _ end] => destruct (vindex z) as [[?|?]|]; try discriminate
            | |- context [if ?b then _ else _] => destruct b end; try exact IH; try discriminate.
        * apply sa_fail. exists (S (Nat.max n k)). cbn [gnext]. rewrite (next_mono _ (Nat.max n k) _ _ _ P) by lia.
          destruct (verdict_mono n (Nat.max n k) m pos (vcopy (mh m) x y) ps ltac:(lia)) as [E|E]; [congruence|]. rewrite E, V. reflexivity.
        * apply sa_cut.
  Qed.
End Facts.
