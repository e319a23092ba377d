(** The suspended iterators at their start are the functions of TreeUtil. *)
From Verif Require Import PyStr Parser XTree Tree Nodes Pattern TreeUtil Path Heap Builder HeapSpec HeapFacts RootCache RootSpec RootFacts DocOrder DocOrderSpec.
From Verif Require Import XPath HeapNav HeapNavSpec HeapNavFacts HeapEval HeapEvalSpec HeapEvalFacts LiveIter LiveIterSpec LiveIterFacts LiveIterMore.

Lemma chosen_holds f h p i t ids : holds h p i t ids -> chosen f h i = is_elemb t && f (elem_name t) (elem_attrs t).
Proof. intros H. unfold chosen. inversion H as [? ? ? ? ? ? ? Hi|? ? ? Hi]; subst; rewrite Hi; reflexivity. Qed.
Lemma filter_and {A} (p q r : A -> bool) l : (forall x, p x = q x && r x) -> filter p l = filter r (filter q l).
Proof. intros H. induction l as [|x l IH]; [reflexivity|]. cbn [filter]. rewrite H. destruct (q x); cbn [andb filter]; [destruct (r x)|]; congruence. Qed.
Lemma kids_at h q is ts ids (P : ref -> bool) (Q : xtree -> bool) : holds_all h q is ts ids -> (forall p i t ids, holds h p i t ids -> P i = Q t) -> forall k,
  Forall2 (at_kid h is k) (filter P is) (filter (fun x => Q (snd x)) (over (fun k => [([], k)]) k ts)).
Proof.
  intros H HP. induction H as [q|q i is t ts ids idss Hh _ IH]; intros k; [constructor|]. cbn [filter over under map app]. cbn [snd]. rewrite (HP _ _ _ _ Hh). destruct (Q t).
  - constructor; [exists 0, [], i; rewrite Nat.add_0_r; auto|apply shift_at, IH].
  - apply shift_at, IH.
Qed.
Lemma flat_at h p r t ids P Q : holds h p r t ids -> (forall p i t ids, holds h p i t ids -> P h i = Q t) ->
  exists l, future (flat P) h [(r, 0, tt)] l false /\ Forall2 (at_loc h r) l (filter (fun x => Q (snd x)) (source_items (SrcElem t))).
Proof.
  intros H HP. exists (filter (P h) (to_come h r 0)). split; [apply future_flat|]. unfold to_come, kids_of. cbn [skipn].
  inversion H as [? ? n a is ks idss Hi Ha|? ? s Hi]; subst; rewrite Hi; cbn [okids source_items]; [|constructor].
  pose proof (kids_at h r is ks idss (P h) Q Ha HP 0) as F. revert F. generalize (filter (P h) is). generalize (filter (fun x => Q (snd x)) (over (fun k => [([], k)]) 0 ks)).
  intros locs l F. induction F as [|c x l locs (j & b & i' & A & B & C) _ IH]; constructor; auto. unfold at_loc. rewrite A. cbn [Nat.add follow]. rewrite Hi. cbn [okids]. rewrite B. exact C.
Qed.
Lemma deep_at h : (forall p i t ids, holds h p i t ids -> Forall2 (at_loc h i) (filter (elem_of h) (tl ids)) (descendants t)) /\
  (forall q is ts ids, holds_all h q is ts ids -> forall k, Forall2 (at_kid h is k) (filter (elem_of h) ids)
     (over (fun k => match k with XE _ _ _ => ([], k) :: descendants k | XT _ => [] end) k ts)).
Proof.
  apply holds_both.
  - intros p i n a is ks idss Hi _ IH. cbn [tl descendants]. specialize (IH 0). revert IH.
    generalize (filter (elem_of h) idss). generalize (over (fun k => match k with XE _ _ _ => ([], k) :: descendants k | XT _ => [] end) 0 ks).
    intros locs l F. induction F as [|c x l locs (j & b & i' & A & B & C) _ IH]; constructor; auto. unfold at_loc. rewrite A. cbn [Nat.add follow]. rewrite Hi. cbn [okids]. rewrite B. exact C.
  - intros p i s Hi. constructor.
  - intros q k. constructor.
  - intros q i is t ts ids idss Hh IH1 _ IH2 k. cbn [over]. rewrite filter_app. apply F2_app; [|apply shift_at, IH2]. apply under_at.
    inversion Hh as [? ? ? ? ? ? ? Hi|? ? ? Hi]; subst; cbn [filter tl] in *; unfold elem_of at 1; rewrite Hi; constructor; auto. reflexivity.
Qed.
Lemma starts_flat h p r t ids f g : holds h p r t ids -> (forall n a ks, g (XE n a ks) = f n a) ->
  starts h r (flat (chosen f)) tt (filter (fun x => g (snd x)) (select_elements (SrcElem t)), false).
Proof.
  intros H Hg. unfold starts, select_elements. cbn [fst snd]. rewrite <- (filter_and (fun x : located => is_elemb (snd x) && g (snd x))) by reflexivity.
  apply (flat_at h p r t ids (chosen f) (fun t => is_elemb t && g t) H). intros p' i t' ids' Hi. rewrite (chosen_holds _ _ _ _ _ _ Hi). destruct t' as [n a ks|s]; [cbn [is_elemb andb elem_name elem_attrs]; rewrite Hg; reflexivity|reflexivity].
Qed.
Lemma starts_all h p r t ids : well_linked h -> holds h p r t ids ->
  starts h r deep tt (descendants t, false) /\
  starts h r (flat (chosen any_elem)) tt (select_elements (SrcElem t), false) /\
  (forall name, starts h r (flat (chosen (named name))) tt (select_name (SrcElem t) name, false)) /\
  (forall pat, starts h r (flat (chosen (matching pat))) tt (select_name_pattern (SrcElem t) pat, false)) /\
  (forall name val, starts h r (flat (chosen (having name val))) tt (select_attribute (SrcElem t) name val, false)) /\
  (forall val, starts h r (flat (valued val)) tt (select_value (SrcElem t) val, false)) /\
  (forall s, starts h r by_state s (select_state t s)).
Proof.
  intros W H. split; [eexists; split; [eapply future_deep; exact H|exact (proj1 (deep_at h) _ _ _ _ H)]|]. split; [|split; [|split; [|split; [|split]]]].
  - pose proof (starts_flat h p r t ids any_elem (fun _ => true) H ltac:(reflexivity)) as S0.
    replace (select_elements (SrcElem t)) with (filter (fun x : located => true) (select_elements (SrcElem t))); [exact S0|]. generalize (select_elements (SrcElem t)). intros l. induction l as [|x l IH]; cbn [filter]; congruence.
  - intros name. apply (starts_flat h p r t ids (named name) (fun t => str_eqb (elem_name t) name) H). reflexivity.
  - intros pat. apply (starts_flat h p r t ids (matching pat) (fun t => pat (elem_name t)) H). reflexivity.
  - intros name val. apply (starts_flat h p r t ids (having name val) (attr_check name val) H). reflexivity.
  - intros val. apply (flat_at h p r t ids (valued val) (fun t => str_eqb (xml_value t) val) H). intros p' i t' ids' Hi. unfold valued.
    rewrite (proj1 (value_ok h) _ _ _ _ Hi); [reflexivity|eapply size_bound; eauto].
  - intros s. exact (future_state h p r t ids s H).
Qed.
