(** Loops over expressions with predicates. *)
From Verif Require Import PyStr Parser XTree Heap Builder HeapSpec RootCache DocOrder XPath XQuery HeapNav HeapEval HeapEvalFuel HeapQuery.
From Verif Require Import LiveEval LiveEvalSpec LiveEvalFacts.

Section Sift.
  Variable w : env.
  Variable hv : dict hval.
  Notation next := (gnext w hv).
  Notation ev m k := (heval (mh m) w hv (mc m) (mv m) k).
  Notation verdict_of m k pos y ps := (vverdict (mh m) pos y (map (ev m k) ps)).

  Lemma value_mono m p y z k : (exists l f, ev m k p y = (z :: l, f)) \/ ev m k p y = ([], Done) /\ z = VBool false -> forall k', k <= k' ->
    (exists l f, ev m k' p y = (z :: l, f)) \/ ev m k' p y = ([], Done) /\ z = VBool false.
  Proof.
    intros H k' L. pose proof (heval_continues (mh m) w hv (mc m) (mv m) k k' L p y) as C. destruct H as [(l & f & E)|[E ->]]; rewrite E in C; destruct C as [[N E']|[Hc M]]; cbn [fst snd] in *.
    - left. exists l, f. exact E'.
    - destruct M as (more & M). destruct (ev m k' p y) as [l' f']. cbn [fst] in M. subst l'. left. exists (l ++ more), f'. reflexivity.
    - right. auto.
    - discriminate.
  Qed.
  Lemma index_cases h pos z : (pred_true h pos z /\ match vindex z with Some (inl k) => k = Z.of_nat pos | Some (inr _) => False | None => vto_boolean h z = true end) \/
    (pred_false h pos z /\ match vindex z with Some (inl k) => k <> Z.of_nat pos | Some (inr _) => False | None => vto_boolean h z = false end) \/
    (~ pred_true h pos z /\ ~ pred_false h pos z /\ exists e, vindex z = Some (inr e)).
  Proof.
    destruct z as [y o|s|k|d|b]; cbn [pred_true pred_false vindex].
    - destruct (vto_boolean h (Obj y o)); auto.
    - destruct (vto_boolean h (VStr s)); auto.
    - destruct (Z.eq_dec k (Z.of_nat pos)); auto.
    - destruct (XPath.number_of (IFlt d)) as [[k|e]|] eqn:E.
      + destruct (Z.eq_dec k (Z.of_nat pos)) as [->|N]; [left; auto|right; left]. split; [exists k; auto|exact N].
      + right. right. split; [discriminate|]. split; [intros (k & X & _); discriminate|eauto].
      + exfalso. destruct d; discriminate E.
    - destruct (vto_boolean h (VBool b)); auto.
  Qed.
  Lemma verdict_says k m pos y ps : match verdict_of m k pos y ps with VKeep => kept w hv m ps pos y | VDrop => left_out w hv m ps pos y | VStop _ => True end.
  Proof.
    induction ps as [|p ps IH]; cbn [map vverdict]; [constructor|].
    assert (K : forall z, pred_value w hv m p y z -> pred_true (mh m) pos z -> match verdict_of m k pos y ps with VKeep => kept w hv m (p :: ps) pos y | VDrop => left_out w hv m (p :: ps) pos y | VStop _ => True end).
    { intros z V T. destruct (verdict_of m k pos y ps); [|destruct IH as (ps1 & p1 & ps2 & z1 & -> & K & R)|exact I].
      - constructor; [exists z; split; assumption|exact IH].
      - exists (p :: ps1), p1, ps2, z1. split; [reflexivity|]. split; [constructor; [exists z; split; assumption|exact K]|exact R]. }
    assert (D : forall z, pred_value w hv m p y z -> pred_false (mh m) pos z -> left_out w hv m (p :: ps) pos y).
    { intros z V F. exists [], p, ps, z. split; [reflexivity|]. split; [constructor|]. auto. }
    assert (G : forall z, pred_value w hv m p y z -> match (match vindex z with Some (inr e) => VStop (Exn e) | Some (inl q) => if (q =? Z.of_nat pos)%Z then verdict_of m k pos y ps else VDrop
      | None => if vto_boolean (mh m) z then verdict_of m k pos y ps else VDrop end) with VKeep => kept w hv m (p :: ps) pos y | VDrop => left_out w hv m (p :: ps) pos y | VStop _ => True end).
    { intros z V. destruct (index_cases (mh m) pos z) as [[T H]|[[F H]|(_ & _ & e & ->)]]; [| |exact I].
      - destruct (vindex z) as [[q|e]|]; [rewrite H, Z.eqb_refl; exact (K z V T)|contradiction|rewrite H; exact (K z V T)].
      - destruct (vindex z) as [[q|e]|]; [|contradiction|rewrite H; exact (D z V F)]. destruct (q =? Z.of_nat pos)%Z eqn:E; [apply Z.eqb_eq in E; contradiction|exact (D z V F)]. }
    destruct (ev m k p y) as [[|z l] f] eqn:E.
    - destruct f; [apply G|exact I|exact I]. exists k. right. auto.
    - apply G. exists k. left. eauto.
  Qed.
  Lemma kept_verdict m pos y ps : kept w hv m ps pos y -> exists k0, forall k, k0 <= k -> verdict_of m k pos y ps = VKeep.
  Proof.
    intros K. induction K as [|p ps (z & (n & V) & T) K (k0 & IH)]; [exists 0; reflexivity|]. exists (n + k0). intros k L. cbn [map vverdict]. rewrite (IH k) by lia.
    pose proof (value_mono m p y z n V k ltac:(lia)) as Vk.
    assert (E : match ev m k p y with (z1 :: _, _) => inl z1 | ([], Done) => inl (VBool false) | ([], f) => inr f end = inl z) by (destruct Vk as [(l & f & ->)|[-> ->]]; reflexivity).
    rewrite E. destruct (index_cases (mh m) pos z) as [[_ H]|[[F H]|(N & _)]]; [| |contradiction].
    - destruct (vindex z) as [[q|e]|]; [rewrite H, Z.eqb_refl; reflexivity|contradiction|rewrite H; reflexivity].
    - exfalso. destruct z as [? ?|?|?|d|?]; cbn [pred_true pred_false] in T, F; try congruence. destruct F as (q & F & N). rewrite T in F. injection F as <-. contradiction.
  Qed.
  Lemma verdict_app m k pos y ps1 ps2 : verdict_of m k pos y ps1 = VKeep -> verdict_of m k pos y (ps1 ++ ps2) = verdict_of m k pos y ps2.
  Proof.
    induction ps1 as [|p ps1 IH]; intros H; [reflexivity|]. cbn [app map vverdict] in *. destruct (match ev m k p y with (z1 :: _, _) => inl z1 | ([], Done) => inl (VBool false) | ([], f) => inr f end) as [z|f]; [|discriminate].
    destruct (vindex z) as [[q|e]|]; [destruct (_ =? _)%Z|discriminate|destruct (vto_boolean (mh m) z)]; try discriminate; auto.
  Qed.
  Lemma left_out_verdict m pos y ps : left_out w hv m ps pos y -> exists k0, forall k, k0 <= k -> verdict_of m k pos y ps = VDrop.
  Proof.
    intros (ps1 & p & ps2 & z & -> & K & (n & V) & F). destruct (kept_verdict m pos y ps1 K) as (k0 & K0). exists (n + k0). intros k L. rewrite verdict_app by (apply K0; lia). cbn [map vverdict].
    pose proof (value_mono m p y z n V k ltac:(lia)) as Vk.
    assert (E : match ev m k p y with (z1 :: _, _) => inl z1 | ([], Done) => inl (VBool false) | ([], f) => inr f end = inl z) by (destruct Vk as [(l & f & ->)|[-> ->]]; reflexivity).
    rewrite E. destruct (index_cases (mh m) pos z) as [[T H]|[[_ H]|(_ & N & _)]]; [| |contradiction].
    - exfalso. destruct z as [? ?|?|?|d|?]; cbn [pred_true pred_false] in T, F; try congruence. destruct F as (q & F & N). rewrite T in F. injection F as <-. contradiction.
    - destruct (vindex z) as [[q|e]|]; [|contradiction|rewrite H; reflexivity]. destruct (q =? Z.of_nat pos)%Z eqn:E1; [apply Z.eqb_eq in E1; contradiction|reflexivity].
  Qed.

  Lemma pull_keep m x pos ps src y src1 : gpulls w hv m src (Given y src1) -> kept w hv m ps pos (vcopy (mh m) x y) -> gpulls w hv m (GPred x pos ps src) (Given y (GPred x (S pos) ps src1)).
  Proof. intros (n & P) K. destruct (kept_verdict _ _ _ _ K) as (k0 & V). exists (S (n + k0)). cbn [gnext]. rewrite (next_mono w hv n (n + k0) _ _ _ P), V by lia. reflexivity. Qed.
  Lemma pull_drop m x pos ps src y src1 r : gpulls w hv m src (Given y src1) -> left_out w hv m ps pos (vcopy (mh m) x y) ->
    gpulls w hv m (GPred x (S pos) ps src1) r -> gpulls w hv m (GPred x pos ps src) r.
  Proof.
    intros (n & P) K (n2 & Q). destruct (left_out_verdict _ _ _ _ K) as (k0 & V). exists (S (n + n2 + k0)). cbn [gnext]. rewrite (next_mono w hv n (n + n2 + k0) _ _ _ P), V by lia. apply (next_mono w hv n2); [exact Q|lia].
  Qed.
  Variable body : moment -> hval -> moment -> Prop.
  Lemma pred_turn k : forall m x pos ps src z g', next k m (GPred x pos ps src) = Some (Given z g') ->
    exists pos' src', g' = GPred x pos' ps src' /\ forall m1 out pos2 m2 g2, body m z m1 -> sifted w hv body x ps pos' m1 src' out pos2 m2 g2 -> sifted w hv body x ps pos m src (z :: out) pos2 m2 g2.
  Proof.
    induction k as [|k IH]; intros m x pos ps src z g' P; [discriminate|]. cbn [gnext] in P. destruct (next k m src) as [[|e|y src1]|] eqn:E; try discriminate.
    assert (Py : gpulls w hv m src (Given y src1)) by (exists k; exact E).
    pose proof (verdict_says k m pos (vcopy (mh m) x y) ps) as V. destruct (verdict_of m k pos (vcopy (mh m) x y) ps) as [| |[]]; try discriminate.
    - injection P as <- <-. exists (S pos), src1. split; [reflexivity|]. intros. eapply si_keep; eauto.
    - destruct (IH _ _ _ _ _ _ _ P) as (pos' & src' & -> & H). exists pos', src'. split; [reflexivity|]. intros. eapply si_drop; eauto.
  Qed.
  Lemma pred_loop ps x m g0 out m' g' : gloop w hv body m g0 out m' g' -> forall pos src, g0 = GPred x pos ps src ->
    exists pos' src', g' = GPred x pos' ps src' /\ sifted w hv body x ps pos m src out pos' m' src'.
  Proof.
    intros L. induction L as [m g|m g y g1 m1 out m2 g2 (k & P) B L IH]; intros pos src ->; [exists pos, src; split; [reflexivity|apply si_start]|].
    destruct (pred_turn k _ _ _ _ _ _ _ P) as (pos1 & src1 & -> & H). destruct (IH pos1 src1 eq_refl) as (pos' & src' & -> & S). exists pos', src'. split; [reflexivity|]. eapply H; eauto.
  Qed.
  Lemma sifted_loop ps x pos m src out pos' m' src' : sifted w hv body x ps pos m src out pos' m' src' -> gloop w hv body m (GPred x pos ps src) out m' (GPred x pos' ps src').
  Proof.
    intros S. induction S as [pos m g|pos m g y g1 m1 out pos2 m2 g2 P K B S IH|pos m g y g1 z out pos2 m2 g2 P D S IH]; [apply gl_start|eapply gl_turn; [apply pull_keep; eauto|exact B|exact IH]|].
    inversion IH as [|? ? ? g3 m3 ? ? ? P3 B3 L3]; subst. eapply gl_turn; [eapply pull_drop; eauto|exact B3|exact L3].
  Qed.
  Lemma pred_ends ps x m pos src : gpulls w hv m (GPred x pos ps src) Ended <-> no_more w hv x ps m pos src.
  Proof.
    split.
    - intros (k & P). revert pos src P. induction k as [|k IH]; intros pos src P; [discriminate|]. cbn [gnext] in P. destruct (next k m src) as [[|e|y src1]|] eqn:E; try discriminate.
      + apply nm_end. exists k. exact E.
      + pose proof (verdict_says k m pos (vcopy (mh m) x y) ps) as V. destruct (verdict_of m k pos (vcopy (mh m) x y) ps) as [| |[]]; try discriminate. eapply nm_drop; [exists k; exact E|exact V|apply IH, P].
    - intros N. induction N as [pos g (k & P)|pos g y g1 P D N IH]; [exists (S k); cbn [gnext]; rewrite P; reflexivity|]. eapply pull_drop; eauto.
  Qed.
  Lemma start_pred m e ps x r : gpulls w hv m (GStart (EPred e ps) x) r <-> gpulls w hv m (GPred x 1 ps (GStart e x)) r.
  Proof. split; [intros ([|k] & P); [discriminate|]; exists k; exact P|intros P; apply (pull_start w hv 0 m (EPred e ps)), P]. Qed.
  Lemma filter_loop m e ps x z out m' g' : gloop w hv body m (GStart (EPred e ps) x) (z :: out) m' g' <->
    exists pos src, g' = GPred x pos ps src /\ sifted w hv body x ps 1 m (GStart e x) (z :: out) pos m' src.
  Proof.
    split.
    - intros L. inversion L as [|? ? ? g1 m1 ? ? ? P B L1]; subst. eapply pred_loop; [|reflexivity]. eapply gl_turn; [apply start_pred, P|exact B|exact L1].
    - intros (pos & src & -> & S). apply sifted_loop in S. inversion S as [|? ? ? g1 m1 ? ? ? P B L1]; subst. eapply gl_turn; [apply start_pred, P|exact B|exact L1].
  Qed.
  Lemma ask_start m x p e : (p = Parsed e \/ exists s, p = Text s /\ xparse w s = inl e) -> obj_parent (mh m) x = true -> forall r, gpulls w hv m (GAsk x p) r <-> gpulls w hv m (GStart e x) r.
  Proof.
    intros Hp Hx r. assert (E : ask w m x p = GStart e x).
    { destruct Hp as [->|(s & -> & Hs)]; cbn [ask]; [|rewrite Hs]; unfold in_context; destruct x; try reflexivity; rewrite Hx; reflexivity. }
    split; [intros ([|k] & P); [discriminate|]; cbn [gnext] in P; rewrite E in P; exists k; exact P|intros (k & P); exists (S k); cbn [gnext]; rewrite E; exact P].
  Qed.
  Lemma ask_root m y o p e q : (p = Parsed e \/ exists s, p = Text s /\ xparse w s = inl e) -> obj_parent (mh m) (Obj y o) = false -> hroot (mh m) (mc m (Obj y o)) y = ([HRoot q], Done) ->
    forall r, gpulls w hv m (GAsk (Obj y o) p) r <-> gpulls w hv m (GStart e (Obj (HRoot q) Made)) r.
  Proof.
    intros Hp Hx Hq r. assert (E : ask w m (Obj y o) p = GStart e (Obj (HRoot q) Made)).
    { destruct Hp as [->|(s & -> & Hs)]; cbn [ask]; [|rewrite Hs]; unfold in_context; rewrite Hx, Hq; reflexivity. }
    split; [intros ([|k] & P); [discriminate|]; cbn [gnext] in P; rewrite E in P; exists k; exact P|intros (k & P); exists (S k); cbn [gnext]; rewrite E; exact P].
  Qed.
End Sift.
