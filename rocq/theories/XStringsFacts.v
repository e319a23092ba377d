(** How the string functions go together. *)
From Coq Require Import Lia ZArith.
From Verif Require Import PyStr XTree Path XPath XPathSpec XPathFacts XPathFuel XPathFun XPathLast XStringsSpec.

Section Strings.
  Variable w : env.
  Variable n : nat.
  Notation ev := (eval w n).
  Notation call f l := (ECall (lit f) l).
  Lemma gives_arg r s : gives w r s -> arg_string w r s.
  Proof. intros (i & -> & H). exists i. split; [left; do 2 eexists; reflexivity|exact H]. Qed.
  Lemma begins_arg r s : begins_with w r s -> arg_string w r s.
  Proof. intros (i & l & f & -> & H). exists i. split; [left; do 2 eexists; reflexivity|exact H]. Qed.
  Lemma gives_begins r s : gives w r s -> begins_with w r s.
  Proof. intros (i & -> & H). exists i, [], Done. auto. Qed.
  Lemma str_gives s : gives w ([IStr s], Done) s.
  Proof. eexists. split; [reflexivity|constructor]. Qed.
  Lemma text_value i s : text_item w i s -> string_value w i s.
  Proof. intros [s0|a s0 H]; [constructor|]. exact (sv_node w a (XT s0) H). Qed.
  Lemma string_gives x c s : begins_with w (ev x c) s -> gives w (ev (call "string" [x]) c) s /\ exists i, ev (call "string" [x]) c = ([i], Done) /\ text_item w i s.
  Proof.
    intros (v & l & f & E & V). destruct (string_first w n x c) as (_ & H1).
    rewrite (H1 v l f E). destruct (string_context w n v s V) as (i & -> & T). split; [exists i; split; [reflexivity|now apply text_value]|eauto].
  Qed.
  Lemma concat_gives l c ss : Forall2 (fun e s => gives w (ev e c) s) l ss -> ev (call "concat" l) c = ([IStr (concat ss)], Done).
  Proof.
    intros H. assert (X : exists is, Forall2 (fun e o => ev e c = (o, Done)) l (map (fun i => [i]) is) /\ Forall2 (string_value w) is ss).
    { induction H as [|e s l ss (i & E & V) _ (is & H1 & H2)]; [exists []; split; constructor|]. exists (i :: is). cbn [map]. split; constructor; auto. }
    destruct X as (is & H1 & H2). apply (concat_eq w n l c _ _ H1). replace (concat (map (fun i => [i]) is)) with is by (clear; induction is; cbn; congruence). exact H2.
  Qed.
  Lemma first_exists t s : (exists p q, s = p ++ t ++ q) -> exists p q, first_at t s p q.
  Proof. intros (p & q & E). destruct (find_sub t s) as [i|] eqn:F; [apply find_sub_some in F; eauto|]. exfalso. eapply find_sub_none; eauto. Qed.
  Lemma split_join x y c s t : arg_string w (ev x c) s -> begins_with w (ev y c) t -> t <> [] -> ev (call "contains" [x; y]) c = ([IBool true], Done) ->
    ev (call "concat" [call "substring-before" [x; y]; call "string" [y]; call "substring-after" [x; y]]) c = ([IStr s], Done).
  Proof.
    intros X Y0 T H. pose proof (begins_arg _ _ Y0) as Y. destruct (contains_spec w n x y c s t X Y) as (b & E & B). rewrite E in H. injection H as ->. destruct (first_exists t s (proj1 B eq_refl)) as (p & q & F).
    pose proof F as (-> & _). destruct (before_spec w n x y c _ t X Y) as (_ & HB & _). destruct (after_spec w n x y c _ t X Y) as (_ & HA & _).
    rewrite (concat_gives _ c [p; t; q]); [cbn [concat]; now rewrite app_nil_r|]. repeat constructor.
    - rewrite (HB p q T F). apply str_gives.
    - now apply string_gives.
    - rewrite (HA p q T F). apply str_gives.
  Qed.
  Lemma apart x y c s t : arg_string w (ev x c) s -> arg_string w (ev y c) t -> t <> [] -> ev (call "contains" [x; y]) c = ([IBool false], Done) ->
    gives w (ev (call "substring-before" [x; y]) c) s /\ ev (call "substring-after" [x; y]) c = ([IStr []], Done).
  Proof.
    intros X Y T H. destruct (contains_spec w n x y c s t X Y) as (b & E & B). rewrite E in H. injection H as ->.
    assert (N : forall p q, s <> p ++ t ++ q) by (intros p q Q; apply Bool.diff_false_true, B; eauto).
    destruct (before_spec w n x y c _ t X Y) as (_ & _ & HB). destruct (after_spec w n x y c _ t X Y) as (_ & _ & HA). split; [|now apply HA].
    destruct (HB T N) as (i & V & ->). exists i. auto.
  Qed.
  Lemma starts_contains x y c s t : arg_string w (ev x c) s -> arg_string w (ev y c) t -> ev (call "starts-with" [x; y]) c = ([IBool true], Done) -> ev (call "contains" [x; y]) c = ([IBool true], Done).
  Proof.
    intros X Y H. destruct (starts_with_spec w n x y c s t X Y) as (b & E & B). rewrite E in H. injection H as ->. destruct (proj1 B eq_refl) as (q & ->).
    destruct (contains_spec w n x y c _ t X Y) as (b & -> & B'). replace b with true; [reflexivity|]. symmetry. apply B'. exists [], q. reflexivity.
  Qed.
  Lemma starts_before x y c s t : arg_string w (ev x c) s -> arg_string w (ev y c) t -> t <> [] ->
    (ev (call "starts-with" [x; y]) c = ([IBool true], Done) <-> ev (call "contains" [x; y]) c = ([IBool true], Done) /\ ev (call "substring-before" [x; y]) c = ([IStr []], Done)).
  Proof.
    intros X Y T. destruct (starts_with_spec w n x y c s t X Y) as (b & E & B). destruct (before_spec w n x y c _ t X Y) as (_ & HB & _). split.
    - intros H. split; [eapply starts_contains; eauto|]. rewrite E in H. injection H as ->. destruct (proj1 B eq_refl) as (q & ->). apply (HB [] q T). split; [reflexivity|]. cbn. lia.
    - intros (H1 & H2). destruct (contains_spec w n x y c s t X Y) as (b' & E' & B'). rewrite E' in H1. injection H1 as ->. destruct (first_exists t s (proj1 B' eq_refl)) as (p & q & F).
      rewrite (HB p q T F) in H2. injection H2 as ->. destruct F as (F & _). rewrite E. replace b with true; [reflexivity|]. symmetry. apply B. exists q. exact F.
  Qed.
  Lemma concat_groups x y z c s t u : gives w (ev x c) s -> gives w (ev y c) t -> gives w (ev z c) u ->
    ev (call "concat" [call "concat" [x; y]; z]) c = ([IStr (s ++ t ++ u)], Done) /\ ev (call "concat" [x; call "concat" [y; z]]) c = ([IStr (s ++ t ++ u)], Done) /\
    ev (call "concat" [x; y; z]) c = ([IStr (s ++ t ++ u)], Done).
  Proof.
    intros X Y Z. assert (XY : ev (call "concat" [x; y]) c = ([IStr (s ++ t)], Done)) by (rewrite (concat_gives _ c [s; t]); [cbn [concat]; now rewrite app_nil_r|repeat constructor; assumption]).
    assert (YZ : ev (call "concat" [y; z]) c = ([IStr (t ++ u)], Done)) by (rewrite (concat_gives _ c [t; u]); [cbn [concat]; now rewrite app_nil_r|repeat constructor; assumption]).
    split; [|split].
    - rewrite (concat_gives _ c [s ++ t; u]); [cbn [concat]; now rewrite app_nil_r, <- app_assoc|]. repeat constructor; [rewrite XY; apply str_gives|exact Z].
    - rewrite (concat_gives _ c [s; t ++ u]); [cbn [concat]; now rewrite app_nil_r|]. repeat constructor; [exact X|rewrite YZ; apply str_gives].
    - rewrite (concat_gives _ c [s; t; u]); [cbn [concat]; now rewrite app_nil_r|]. repeat constructor; assumption.
  Qed.
  Lemma concat_starts x y c s t : gives w (ev x c) s -> gives w (ev y c) t ->
    ev (call "starts-with" [call "concat" [x; y]; x]) c = ([IBool true], Done) /\ ev (call "contains" [call "concat" [x; y]; y]) c = ([IBool true], Done) /\
    ev (call "string-length" [call "concat" [x; y]]) c = ([IInt (Z.of_nat (length s) + Z.of_nat (length t))], Done).
  Proof.
    intros X Y. assert (XY : ev (call "concat" [x; y]) c = ([IStr (s ++ t)], Done)) by (rewrite (concat_gives _ c [s; t]); [cbn [concat]; now rewrite app_nil_r|repeat constructor; assumption]).
    assert (A : arg_string w (ev (call "concat" [x; y]) c) (s ++ t)) by (apply gives_arg; rewrite XY; apply str_gives). split; [|split].
    - destruct (starts_with_spec w n _ x c _ s A (gives_arg _ _ X)) as (b & -> & B). replace b with true; [reflexivity|]. symmetry. apply B. eauto.
    - destruct (contains_spec w n _ y c _ t A (gives_arg _ _ Y)) as (b & -> & B). replace b with true; [reflexivity|]. symmetry. apply B. exists s, []. now rewrite app_nil_r.
    - destruct (length_first w n (call "concat" [x; y]) c) as (_ & H & _). rewrite (H _ _ _ (s ++ t) XY); [|constructor]. rewrite app_length, Nat2Z.inj_add. reflexivity.
  Qed.
  Lemma substring_join x c s (k m : nat) : arg_string w (ev x c) s -> length s <= k + m ->
    ev (call "concat" [call "substring" [x; ELit (LInt 1); ELit (LInt (Z.of_nat k))]; call "substring" [x; ELit (LInt (Z.of_nat (S k))); ELit (LInt (Z.of_nat m))]]) c = ([IStr s], Done).
  Proof.
    intros X L. pose proof (substring_plain w n x c s 0 k X) as H1. pose proof (substring_plain w n x c s k m X) as H2.
    rewrite (concat_gives _ c [firstn k s; firstn m (skipn k s)]).
    - cbn [concat]. rewrite app_nil_r, (firstn_all2 (n := m)) by (rewrite skipn_length; lia). now rewrite firstn_skipn.
    - repeat constructor; [change (Z.of_nat 1) with 1%Z in H1; cbn [skipn] in H1; rewrite H1|rewrite H2]; apply str_gives.
  Qed.
  Lemma string_string x c s : begins_with w (ev x c) s -> ev (call "string" [call "string" [x]]) c = ev (call "string" [x]) c.
  Proof.
    intros X. destruct (string_gives x c s X) as (_ & i & E & T). destruct (string_first w n (call "string" [x]) c) as (_ & H). rewrite (H i [] Done E), E.
    rewrite eval_call. change (([to_string w i], Done) = ([i], Done)). do 2 f_equal. destruct T as [s|a s Ea]; [reflexivity|]. unfold to_string, as_str, text_at, node_at. rewrite Ea. reflexivity.
  Qed.
End Strings.
