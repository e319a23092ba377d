(** Loops over suspended queries. *)
From Verif Require Import PyStr Parser ParserInv XTree Heap Builder HeapSpec HeapFacts BuilderMore RootCache DocOrder XPath XPathFuel XQuery HeapNav HeapEval HeapEvalFuel HeapQuery.
From Verif Require Import LiveIter LiveIterSpec LivePath LivePathSpec LivePathEdits LivePathCut LiveEval LiveEvalSpec LiveEvalFacts LiveEvalStart.

Section Loops.
  Variable w : env.
  Variable hv : dict hval.
  Notation next := (gnext w hv).
  Notation gpulls := (gpulls w hv). Notation gcomes := (gcomes w hv). Notation gloop := (gloop w hv).

  (** ** Snapshots *)
  Lemma list_comes m l f : f <> Cut -> gcomes m (GList l f) l f.
  Proof. intros H. apply says_comes; [apply says_list|exact H]. Qed.
  Lemma list_loop body m l f out m' g' : gloop body m (GList l f) out m' g' -> exists rest, l = out ++ rest /\ g' = GList rest f.
  Proof.
    remember (GList l f) as g eqn:E. intros L. revert l E. induction L as [m g|m g y g1 m1 out m2 g2 (k & P) B L IH]; intros l ->; [exists l; auto|].
    destruct k as [|k]; [discriminate|]. cbn [gnext] in P. destruct l as [|z l]; [destruct f; discriminate|]. injection P as -> <-. destruct (IH l eq_refl) as (rest & -> & ->). exists rest. auto.
  Qed.
  Lemma foreach_name f : dict_get builtins f = Some FnForEach -> f = lit "for-each".
  Proof.
    assert (D : forall d : dict fname, dict_get d f = Some FnForEach -> In (f, FnForEach) d).
    { induction d as [|[k v] d IH]; [discriminate|]. cbn [dict_get]. destruct (str_eqb k f) eqn:E; [|right; auto]. apply str_eqb_eq in E. intros H. injection H as ->. left. congruence. }
    intros H. apply D in H. unfold builtins in H. cbn [In] in H. repeat destruct H as [H|H]; try discriminate; [|destruct H]. congruence.
  Qed.
  Lemma eager_begin n m e x : eager e = true -> begin w hv n m e x = at_once w hv n m e x.
  Proof.
    destruct e as [l|e|l op r|d [r|]|ax t|e ps|t|u|k|f args|l]; try discriminate; try reflexivity; intros H.
    - destruct op; try discriminate; reflexivity.
    - cbn [begin]. destruct args as [|a [|b [|? ?]]]; try reflexivity. destruct (dict_get builtins f) as [fn|] eqn:F; [|reflexivity]. destruct fn; try reflexivity.
      exfalso. apply foreach_name in F. subst. discriminate.
  Qed.
  Lemma snapshot m e x y out m' g' : eager e = true -> gloop whatever m (GStart e x) (y :: out) m' g' ->
    exists rest f, gcomes m (GStart e x) (y :: out ++ rest) f /\ gcomes m' g' rest f.
  Proof.
    intros He L. inversion L as [|? ? ? g1 m1 ? ? ? P B L']; subst. destruct P as (k & P). destruct k as [|k]; [discriminate|]. cbn [gnext] in P. rewrite eager_begin in P by exact He.
    assert (G : exists l f, at_once w hv k m e x = GList l f /\ (f = Cut -> l = [])).
    { unfold at_once. destruct (heval _ _ _ _ _ _ _ _) as [l f]. destruct f; [exists l, Done|exists l, (Exn e0)|exists [], Cut]; (split; [reflexivity|]); congruence. }
    destruct G as (l & f & G & Hf). rewrite G in P. destruct k as [|k']; [discriminate|]. cbn [gnext] in P. destruct l as [|z l]; [destruct f; discriminate|]. injection P as -> <-.
    destruct (list_loop _ _ _ _ _ _ _ L') as (rest & -> & ->). assert (N : f <> Cut) by (intros ->; discriminate (Hf eq_refl)).
    exists rest, f. split; [|apply list_comes; exact N]. apply says_comes; [|exact N]. eapply (says_start w hv (S k')). rewrite eager_begin, G by exact He. apply says_list.
  Qed.
  Lemma gloop_mono (body body' : moment -> hval -> moment -> Prop) m g out m' g' : (forall m y m1, body m y m1 -> body' m y m1) -> gloop body m g out m' g' -> gloop body' m g out m' g'.
  Proof. intros M. induction 1; econstructor; eauto. Qed.

  (** ** Taking out all results *)
  Lemma take_one m y i : well_linked (mh m) -> is_ref y i -> is_elem (mh m) i -> (exists p, parent_is (mh m) i (Some p)) ->
    (exists m1, takes_out m y m1) /\ forall m1, takes_out m y m1 -> well_linked (mh m1) /\ parent_is (mh m1) i None /\ (forall j p, parent_is (mh m) j p -> j <> i -> parent_is (mh m1) j p) /\ (forall j, is_elem (mh m) j -> is_elem (mh m1) j).
  Proof.
    intros W (o & ->) Hi (p & Hp). destruct (cut_step _ _ _ W Hi Hp) as (h1 & E & W1 & P1 & O1). pose proof (parent_parent _ _ _ W Hp) as X. split.
    - exists (At h1 (mc m) (mv m)). exists i, o, p. auto.
    - intros m1 (i' & o' & p' & Ey & X' & E'). injection Ey as <- <-. rewrite X in X'. injection X' as <-. rewrite E in E'. injection E' as E'. rewrite <- E'. split; [exact W1|]. split; [exact P1|]. split; [exact O1|].
      intros j (nj & aj & kj & pj & Hj). assert (Al : allocated (mh m)) by (intros z oz; apply (proj1 W)).
      pose proof (edit_labels p (mh m) h1 Al (or_intror (ex_intro _ i E))) as K. destruct (K j _ Hj) as (o1 & Ho & Hl). destruct o1; [do 4 eexists; exact Ho|destruct Hl].
  Qed.
  Lemma take_all is : forall m l, well_linked (mh m) -> Forall2 is_ref l is -> NoDup is -> (forall i, In i is -> is_elem (mh m) i /\ exists p, parent_is (mh m) i (Some p)) ->
    (exists m' , gloop takes_out m (GList l Done) l m' (GList [] Done)) /\
    forall out m' g', gloop takes_out m (GList l Done) out m' g' -> (forall y i, In y out -> is_ref y i -> parent_is (mh m') i None) /\ forall j, parent_is (mh m) j None -> parent_is (mh m') j None.
  Proof.
    induction is as [|i is IH]; intros m l W F N H; inversion F as [|y ? l' ? Hy F']; subst.
    - split; [exists m; apply gl_start|]. intros out m' g' L. destruct (list_loop _ _ _ _ _ _ _ L) as (rest & E & ->). destruct out; [|discriminate]. inversion L; subst. split; [intros y i []|auto].
    - destruct (H i (or_introl eq_refl)) as [Ei Pi]. destruct (take_one m y i W Hy Ei Pi) as [(m1 & T) K]. inversion N as [|? ? Ni N']; subst.
      assert (Hn : forall m1, takes_out m y m1 -> well_linked (mh m1) /\ forall j, In j is -> is_elem (mh m1) j /\ exists p, parent_is (mh m1) j (Some p)).
      { intros m2 T2. destruct (K _ T2) as (W1 & P1 & O1 & E1). split; [exact W1|]. intros j Hj. destruct (H j (or_intror Hj)) as [Ej (p & Pj)]. split; [auto|]. exists p. apply O1; [exact Pj|]. intros ->. contradiction. }
      split.
      + destruct (Hn _ T) as [W1 H1]. destruct (proj1 (IH m1 l' W1 F' N' H1)) as (m' & L). exists m'. eapply gl_turn; [exists 1; reflexivity|exact T|exact L].
      + intros out m' g' L. inversion L as [|? ? z g1 m2 out' ? ? (k & P) T2 L']; subst; [split; [intros z j []|auto]|].
        destruct k as [|k]; [discriminate|]. cbn [gnext] in P. injection P as <- <-. destruct (Hn _ T2) as [W1 H1]. destruct (K _ T2) as (_ & P1 & O1 & _). destruct (proj2 (IH m2 l' W1 F' N' H1) _ _ _ L') as [Q1 Q2].
        split.
        * intros z j [<-|Hz] Hj; [|eauto]. destruct Hy as (o & ->), Hj as (o' & E). injection E as <- _. auto.
        * intros j Hj. apply Q2. destruct (Nat.eq_dec j i) as [->|Hne]; [exact P1|]. apply O1; auto.
  Qed.
  Lemma eager_list m e x l f : eager e = true -> gcomes m (GStart e x) l f -> forall r, gpulls m (GList l f) r <-> gpulls m (GStart e x) r.
  Proof.
    intros He C. assert (G : exists n l1 f1, at_once w hv n m e x = GList l1 f1 /\ f1 <> Cut).
    { assert (K : exists r, gpulls m (GStart e x) r) by (inversion C; eauto). destruct K as (r & k & P). destruct k as [|k]; [discriminate|]. cbn [gnext] in P. rewrite eager_begin in P by exact He. exists k.
      unfold at_once in *. destruct (heval _ _ _ _ _ _ _ _) as [l1 f1]. destruct f1; [exists l1, Done; split; [reflexivity|discriminate]|exists l1, (Exn e0); split; [reflexivity|discriminate]|destruct k; discriminate]. }
    destruct G as (n & l1 & f1 & G & Hf). assert (S : forall r, gpulls m (GList l1 f1) r -> gpulls m (GStart e x) r) by (intros r P; apply (pull_start w hv n); rewrite eager_begin, G by exact He; exact P).
    assert (C1 : gcomes m (GStart e x) l1 f1) by (apply says_comes; [eapply says_step; [exact S|apply says_list]|exact Hf]).
    destruct (gcomes_det _ _ _ _ _ _ C1 _ _ C) as [-> ->]. intros r. split; [apply S|]. intros P.
    assert (K : exists r, gpulls m (GList l1 f1) r) by (destruct l1; [destruct f1; [exists Ended|exists (Failed e0)|congruence]|eexists]; exists 1; reflexivity). destruct K as (r' & K). rewrite (gpulls_det _ _ _ _ _ _ P (S _ K)). exact K.
  Qed.
  Lemma take_eager m e x l is : eager e = true -> well_linked (mh m) -> gcomes m (GStart e x) l Done -> Forall2 is_ref l is -> NoDup is ->
    (forall i, In i is -> is_elem (mh m) i /\ exists p, parent_is (mh m) i (Some p)) ->
    (exists m' g', gloop takes_out m (GStart e x) l m' g' /\ gpulls m' g' Ended) /\
    forall out m' g' y i, gloop takes_out m (GStart e x) out m' g' -> In y out -> is_ref y i -> parent_is (mh m') i None.
  Proof.
    intros He W C F N H. pose proof (eager_list _ _ _ _ _ He C) as Q. destruct (take_all is m l W F N H) as [(m' & L) A]. split.
    - destruct l as [|y l].
      + inversion L; subst. exists m', (GStart e x). split; [apply gl_start|]. apply Q. exists 1. reflexivity.
      + inversion L as [|? ? ? g1 m1 ? ? ? P T L']; subst. exists m', (GList [] Done). split; [|exists 1; reflexivity]. eapply gl_turn; [apply Q; exact P|exact T|exact L'].
    - intros out m2 g' y i L2 Hy Hi. inversion L2 as [|? ? z g1 m1 out' ? ? P T L']; subst; [destruct Hy|].
      eapply (proj1 (A _ _ _ (gl_turn w hv takes_out m _ z g1 m1 out' m2 g' (proj2 (Q _) P) T L'))); eauto.
  Qed.

  (** ** A number as a predicate *)
  Definition one_place (z : Z) (ps : list expr) : Prop := exists ps', ps = ELit (LInt z) :: ps'.
  Lemma at_place z ps k m pos x : one_place z ps -> (Z.of_nat pos <> z)%Z -> vverdict (mh m) pos x (map (heval (mh m) w hv (mc m) (mv m) k) ps) = VDrop.
  Proof. intros (ps' & ->) H. cbn [map vverdict]. rewrite hev_lit. cbn [vyield vindex]. destruct (z =? Z.of_nat pos)%Z eqn:E; [apply Z.eqb_eq in E; congruence|reflexivity]. Qed.
  Lemma pred_pull z ps : one_place z ps -> forall k m x pos src y g', next k m (GPred x pos ps src) = Some (Given y g') ->
    exists pos' src', g' = GPred x (S pos') ps src' /\ pos <= pos' /\ Z.of_nat pos' = z.
  Proof.
    intros O. induction k as [|k IH]; intros m x pos src y g' P; [discriminate|]. cbn [gnext] in P. destruct (next k m src) as [[|e|y1 src1]|]; try discriminate.
    destruct (Z.eq_dec (Z.of_nat pos) z) as [E|E].
    - destruct (vverdict _ _ _ _) as [| |[]]; try discriminate.
      + injection P as <- <-. exists pos, src1. auto.
      + destruct (IH _ _ _ _ _ _ P) as (p' & s' & -> & L & Z'). lia.
    - rewrite (at_place z) in P by auto. destruct (IH _ _ _ _ _ _ P) as (p' & s' & -> & L & Z'). exists p', s'. split; [reflexivity|]. split; [lia|exact Z'].
  Qed.
  Lemma one_result m e z ps x out m' g' : gloop whatever m (GStart (EPred e (ELit (LInt z) :: ps)) x) out m' g' -> length out <= 1.
  Proof.
    intros L. inversion L as [|? ? y g1 m1 out' ? ? (k & P) _ L']; subst; [cbn; lia|]. assert (O : one_place z (ELit (LInt z) :: ps)) by (eexists; reflexivity).
    destruct k as [|k]; [discriminate|]. cbn [gnext begin] in P. destruct (pred_pull _ _ O _ _ _ _ _ _ _ P) as (pos & src & -> & _ & E).
    inversion L' as [|? ? y2 g2 m2 out2 ? ? (k2 & P2) _ _]; subst; [cbn; lia|]. destruct (pred_pull _ _ O _ _ _ _ _ _ _ P2) as (pos2 & src2 & _ & L2 & E2). lia.
  Qed.
End Loops.
