(** Proofs about [ns_expat_callbacks]. *)
From Verif Require Import PyStr Parser ParserInv ParserClass TreeUtil Expat ExpatSpec ExpatFacts NsBook NsBookSpec.

Lemma ostr_eqb_eq a b : ostr_eqb a b = true <-> a = b.
Proof.
  destruct a as [a|], b as [b|]; cbn [ostr_eqb]; try (split; congruence).
  rewrite str_eqb_eq. split; congruence.
Qed.
Lemma ostr_eqb_refl a : ostr_eqb a a = true. Proof. now apply ostr_eqb_eq. Qed.
Lemma ostr_eqb_ne a b : a <> b -> ostr_eqb a b = false.
Proof. intros H. destruct (ostr_eqb a b) eqn:E; auto. apply ostr_eqb_eq in E. contradiction. Qed.
Lemma oget_oset {A} (d : omap A) k v k' : oget (oset d k v) k' = if ostr_eqb k k' then Some v else oget d k'.
Proof.
  induction d as [|[k0 v0] d IH]; cbn [oset oget]; [reflexivity|].
  destruct (ostr_eqb k0 k) eqn:E; cbn [oget].
  - apply ostr_eqb_eq in E. subst. destruct (ostr_eqb k k'); reflexivity.
  - rewrite IH. destruct (ostr_eqb k0 k') eqn:E1; [|reflexivity].
    destruct (ostr_eqb k k') eqn:E2; [|reflexivity]. apply ostr_eqb_eq in E1, E2. subst. rewrite ostr_eqb_refl in E. discriminate.
Qed.
Definition okeys {A} (d : omap A) := NoDup (map fst d).
Lemma oset_in {A} (d : omap A) k v k' : In k' (map fst (oset d k v)) <-> k' = k \/ In k' (map fst d).
Proof.
  induction d as [|[k0 v0] d IH]; cbn [oset map fst In]; [intuition congruence|].
  destruct (ostr_eqb k0 k) eqn:E; cbn [map fst In].
  - apply ostr_eqb_eq in E. subst. intuition congruence.
  - rewrite IH. intuition congruence.
Qed.
Lemma okeys_oset {A} (d : omap A) k v : okeys d -> okeys (oset d k v).
Proof.
  unfold okeys. induction d as [|[k0 v0] d IH]; cbn [oset map fst]; intros H; [constructor; [intros []|constructor]|].
  inversion H as [|? ? Hn Hd]; subst. destruct (ostr_eqb k0 k) eqn:E; cbn [map fst]; constructor; auto.
  rewrite oset_in. intros [->|Hi]; [rewrite ostr_eqb_refl in E; discriminate|contradiction].
Qed.
Lemma odel_in {A} (d : omap A) k k' : In k' (map fst (odel d k)) -> In k' (map fst d).
Proof.
  induction d as [|[k0 v0] d IH]; cbn [odel map fst In]; [tauto|].
  destruct (ostr_eqb k0 k); cbn [map fst In]; tauto.
Qed.
Lemma okeys_odel {A} (d : omap A) k : okeys d -> okeys (odel d k).
Proof.
  unfold okeys. induction d as [|[k0 v0] d IH]; cbn [odel map fst]; intros H; [constructor|].
  inversion H as [|? ? Hn Hd]; subst. destruct (ostr_eqb k0 k); auto. cbn [map fst]. constructor; auto.
  intros Hi. now apply odel_in in Hi.
Qed.
Lemma oget_none {A} (d : omap A) k : ~ In k (map fst d) -> oget d k = None.
Proof.
  induction d as [|[k0 v0] d IH]; cbn [map fst In oget]; intros H; [reflexivity|].
  rewrite ostr_eqb_ne by intuition congruence. apply IH. tauto.
Qed.
Lemma oget_odel {A} (d : omap A) k k' : okeys d -> oget (odel d k) k' = if ostr_eqb k k' then None else oget d k'.
Proof.
  unfold okeys. induction d as [|[k0 v0] d IH]; cbn [odel oget map fst]; intros H; [now destruct (ostr_eqb k k')|].
  inversion H as [|? ? Hn Hd]; subst. destruct (ostr_eqb k0 k) eqn:E.
  - apply ostr_eqb_eq in E. subst. destruct (ostr_eqb k k') eqn:E; [|reflexivity]. apply ostr_eqb_eq in E. subst. now apply oget_none.
  - cbn [oget]. rewrite IH by assumption. destruct (ostr_eqb k0 k') eqn:E1; [|reflexivity].
    destruct (ostr_eqb k k') eqn:E2; [|reflexivity]. apply ostr_eqb_eq in E1, E2. subst. rewrite ostr_eqb_refl in E. discriminate.
Qed.

(** ** The last and the first *)
Lemma snoc_split {A} (cs : list A) c h1 d h2 : cs ++ [c] = h1 ++ d :: h2 ->
  (h1 = cs /\ d = c /\ h2 = []) \/ exists h3, h2 = h3 ++ [c] /\ cs = h1 ++ d :: h3.
Proof.
  intros E. destruct (@exists_last _ (d :: h2)) as (l & x & El); [discriminate|].
  rewrite El, app_assoc in E. apply app_inj_tail in E. destruct E as [E ->].
  destruct l as [|y l]; cbn [app] in El; injection El as -> ->.
  - left. rewrite app_nil_r in E. auto.
  - right. exists l. auto.
Qed.
Lemma latest_snoc {A} (P : list A -> A -> Prop) K cs c : latest P K (cs ++ [c]) <-> P cs c \/ (latest P K cs /\ ~ K c).
Proof.
  split.
  - intros (h1 & d & h2 & E & HP & HK). apply snoc_split in E as [(-> & -> & ->)|(h3 & -> & ->)]; [now left|right]. split.
    + exists h1, d, h3. repeat split; auto. intros x Hx. apply HK, in_or_app. now left.
    + apply HK, in_or_app. right. now left.
  - intros [HP|[(h1 & d & h2 & -> & HP & HK) Hc]].
    + exists cs, c, []. repeat split; auto.
    + exists h1, d, (h2 ++ [c]). rewrite <- app_assoc. repeat split; auto.
      intros x Hx. apply in_app_or in Hx as [Hx|[<-|[]]]; auto.
Qed.
Lemma earliest_snoc {A} (P : list A -> A -> Prop) K cs c :
  earliest P K (cs ++ [c]) <-> earliest P K cs \/ (P cs c /\ forall x, In x cs -> ~ K x).
Proof.
  split.
  - intros (h1 & d & h2 & E & HP & HK). apply snoc_split in E as [(-> & -> & ->)|(h3 & -> & ->)]; [now right|left].
    exists h1, d, h3. auto.
  - intros [(h1 & d & h2 & -> & HP & HK)|[HP HK]].
    + exists h1, d, (h2 ++ [c]). rewrite <- app_assoc. auto.
    + exists cs, c, []. auto.
Qed.
Lemma latest_nil {A} (P : list A -> A -> Prop) K : ~ latest P K [].
Proof. intros (h1 & d & h2 & E & _). now destruct h1. Qed.
Lemma earliest_nil {A} (P : list A -> A -> Prop) K : ~ earliest P K [].
Proof. intros (h1 & d & h2 & E & _). now destruct h1. Qed.

(** ** Names *)
Lemma split_good q : good_name q -> ns_split (expanded q) = Some q.
Proof.
  destruct q as [[ns|] l]; unfold good_name, expanded, ns_split; cbn [fst snd]; intros [Hl Hn].
  - rewrite has_space. now rewrite (split_words (ns ++ [32%N] ++ l) [ns; l]) by (cbn [app]; apply (words_app ns [ns] 32%N (words_one ns Hn) eq_refl l Hl)).
  - now rewrite no_space by assumption.
Qed.

(** ** Against the plain callbacks *)
Lemma call_plain stream o c : match ns_call stream o c with
  | (o', evs, None) => callback (nstack o) (plain_call c) = Some (evs, nstack o')
  | (o', evs, Some x) => evs = [] /\ (x = NIndex -> callback (nstack o) (plain_call c) = None)
  end.
Proof.
  destruct c as [p ns|p|name attrs|name|d]; cbn [ns_call plain_call].
  - reflexivity.
  - destruct stream; [|reflexivity]. destruct (oget (prefixes o) p); [reflexivity|]. split; [reflexivity|discriminate].
  - destruct (ns_split name) as [[ns l]|]; [|split; [reflexivity|discriminate]].
    destruct (dict_get (portfolio o) l), (oget (prefixes_rev o) ns); try (split; [reflexivity|discriminate]);
    destruct (note_attrs _ _ _) as [pf ok]; (destruct ok; [|split; [reflexivity|discriminate]]);
    cbn [nstack]; destruct (callback (nstack o) _) as [[evs stk]|]; cbn [nstack]; auto.
  - destruct (callback (nstack o) _) as [[evs stk]|]; cbn [nstack]; auto.
  - destruct (callback (nstack o) _) as [[evs stk]|]; cbn [nstack]; auto.
Qed.
Theorem calls_plain stream cs : forall o, match ns_calls stream o cs with
  | (o', evs, None) => callbacks (nstack o) (map plain_call cs) = (evs, Some (nstack o'))
  | (_, evs, Some x) => (exists rest, fst (callbacks (nstack o) (map plain_call cs)) = evs ++ rest) /\
                        (x = NIndex -> callbacks (nstack o) (map plain_call cs) = (evs, None))
  end.
Proof.
  induction cs as [|c cs IH]; intros o; cbn [ns_calls map callbacks]; [reflexivity|].
  pose proof (call_plain stream o c) as H. destruct (ns_call stream o c) as [[o1 evs1] [x|]].
  - destruct H as [-> Hx]. split; [now eexists|]. intros E. now rewrite (Hx E).
  - rewrite H. specialize (IH o1). destruct (ns_calls stream o1 cs) as [[o2 evs2] [x|]].
    + destruct IH as [[rest Er] Hx]. destruct (callbacks (nstack o1) _) as [evs3 r]; cbn [fst] in *. subst evs3. split.
      * exists rest. now rewrite app_assoc.
      * intros E. specialize (Hx E). injection Hx as Ea ->. now rewrite Ea.
    + now rewrite IH.
Qed.
Lemma calls_app stream cs1 : forall o cs2, ns_calls stream o (cs1 ++ cs2) =
  match ns_calls stream o cs1 with
  | (o', evs, Some x) => (o', evs, Some x)
  | (o', evs, None) => let '(o2, evs2, x) := ns_calls stream o' cs2 in (o2, evs ++ evs2, x)
  end.
Proof.
  induction cs1 as [|c cs1 IH]; intros o cs2; cbn [app ns_calls]; [now destruct (ns_calls stream o cs2) as [[? ?] ?]|].
  destruct (ns_call stream o c) as [[o1 evs1] [x|]]; [reflexivity|]. rewrite IH.
  destruct (ns_calls stream o1 cs1) as [[o2 evs2] [x|]]; [reflexivity|].
  destruct (ns_calls stream o2 cs2) as [[o3 evs3] x]. now rewrite app_assoc.
Qed.

(** ** The invariant *)
Definition has_attr (l : str) (x : xcall) : Prop := exists q ats ns' v, x = XStart q ats /\ In ((ns', l), v) ats.
Record book (stream : bool) (cs : list xcall) (o : nsobj) : Prop := {
  bk_keys : okeys (prefixes o);
  bk_prefix : forall p ns, oget (prefixes o) p = Some ns <-> bound stream cs p ns;
  bk_rev : forall ns p, oget (prefixes_rev o) ns = Some p <-> prefix_for cs ns p;
  bk_declared : forall ns, oget (prefixes_rev o) ns <> None <-> declared cs ns;
  bk_names : forall l, (forall r, l <> lit "@" ++ r) -> (dict_get (portfolio o) l <> None <-> exists c, In c cs /\ has_element l c);
  bk_element : forall l ns p, (forall r, l <> lit "@" ++ r) -> (dict_get (portfolio o) l = Some (ns, p) <-> element_note cs l ns p);
  bk_attr : forall l ns p, dict_get (portfolio o) (lit "@" ++ l) = Some (ns, p) <-> attribute_note cs l ns p }.

Lemma book_nil stream : book stream [] new_ns.
Proof.
  split; unfold new_ns; cbn [prefixes prefixes_rev portfolio oget dict_get].
  - constructor.
  - intros. split; [discriminate|]. intros H. now apply latest_nil in H.
  - intros. split; [discriminate|]. intros H. now apply latest_nil in H.
  - intros. split; [congruence|]. intros [? []].
  - intros. split; [congruence|]. intros [? [[] _]].
  - intros. split; [discriminate|]. intros H'. now apply earliest_nil in H'.
  - intros. split; [discriminate|]. intros H. now apply latest_nil in H.
Qed.

(** A call that touches none of the maps. *)
Lemma declared_snoc cs c ns : declared (cs ++ [c]) ns <-> declared cs ns \/ exists p, c = XDecl p ns.
Proof.
  unfold declared. split.
  - intros [p H]. apply in_app_or in H as [H|[H|[]]]; eauto.
  - intros [[p H]|[p ->]]; exists p; apply in_or_app; [now left|right; now left].
Qed.
Lemma element_snoc cs c l : (exists x, In x (cs ++ [c]) /\ has_element l x) <-> (exists x, In x cs /\ has_element l x) \/ has_element l c.
Proof.
  split.
  - intros [x [H Hl]]. apply in_app_or in H as [H|[<-|[]]]; eauto.
  - intros [[x [H Hl]]|H]; [exists x|exists c]; split; auto; apply in_or_app; [now left|right; now left].
Qed.

Lemma note_get rev ats : Forall (fun x => good_name (fst x)) ats -> forall pf, exists pf', note_attrs rev pf (reported ats) = (pf', true) /\
  (forall l, (forall r, l <> lit "@" ++ r) -> dict_get pf' l = dict_get pf l) /\
  (forall l ns p, dict_get pf' (lit "@" ++ l) = Some (ns, p) <->
     (exists a1 v a2, ats = a1 ++ ((ns, l), v) :: a2 /\ (forall ns' v', ~ In ((ns', l), v') a2) /\
                      p = match oget rev ns with Some p => p | None => Some [] end) \/
     (dict_get pf (lit "@" ++ l) = Some (ns, p) /\ forall ns' v', ~ In ((ns', l), v') ats)).
Proof.
  induction ats as [|[[n a] v] ats IH]; intros G pf.
  - exists pf. split; [reflexivity|]. split; [reflexivity|]. intros l ns p. split.
    + intros H. right. split; [exact H|]. intros ns' v' [].
    + intros [(a1 & v & a2 & E & _)|[H _]]; [now destruct a1|exact H].
  - inversion G as [|? ? Hg Hr]; subst. cbn [reported map note_attrs fst snd] in *. rewrite (split_good (n, a) Hg).
    set (pf1 := dict_set pf (lit "@" ++ a) (n, match oget rev n with Some p => p | None => Some [] end)).
    destruct (IH Hr pf1) as (pf' & E & Hl & Ha). exists pf'. split; [exact E|]. split.
    + intros l Hn. rewrite (Hl l Hn). unfold pf1. rewrite dict_get_set. destruct (str_eqb (lit "@" ++ a) l) eqn:Ee; [|reflexivity].
      apply str_eqb_eq in Ee. exfalso. eapply Hn. symmetry. exact Ee.
    + intros l ns p. rewrite Ha. unfold pf1. rewrite dict_get_set.
      destruct (str_eqb (lit "@" ++ a) (lit "@" ++ l)) eqn:Ee.
      * apply str_eqb_eq, app_inv_head in Ee. subst l. split.
        -- intros [(a1 & v1 & a2 & E1 & E2 & E3)|[E1 E2]].
           ++ left. exists (((n, a), v) :: a1), v1, a2. rewrite E1. auto.
           ++ injection E1 as <- E1. left. exists [], v, ats. subst. auto.
        -- intros [(a1 & v1 & a2 & E1 & E2 & E3)|[E1 E2]].
           ++ destruct a1 as [|x a1]; cbn [app] in E1.
              ** injection E1 as -> -> ->. right. subst p. auto.
              ** injection E1 as _ E1. left. exists a1, v1, a2. auto.
           ++ exfalso. apply (E2 n v). now left.
      * assert (Hne : a <> l) by (intros ->; rewrite str_eqb_refl in Ee; discriminate). split.
        -- intros [(a1 & v1 & a2 & E1 & E2 & E3)|[E1 E2]].
           ++ left. exists (((n, a), v) :: a1), v1, a2. rewrite E1. auto.
           ++ right. split; [exact E1|]. intros ns' v' [Hi|Hi]; [congruence|]. now apply (E2 ns' v').
        -- intros [(a1 & v1 & a2 & E1 & E2 & E3)|[E1 E2]].
           ++ destruct a1 as [|x a1]; cbn [app] in E1.
              ** injection E1 as _ E1 _ _. contradiction.
              ** injection E1 as _ E1. left. exists a1, v1, a2. auto.
           ++ right. split; [exact E1|]. intros ns' v' Hi. apply (E2 ns' v'). now right.
Qed.

Lemma book_same stream cs c o stk : book stream cs o ->
  (forall p ns, c <> XDecl p ns) -> (forall q ats, c <> XStart q ats) -> (stream = true -> forall p, c <> XUndecl p) ->
  book stream (cs ++ [c]) (mkNs stk (prefixes o) (prefixes_rev o) (portfolio o)).
Proof.
  intros B Hd Hs Hu. split; cbn [prefixes prefixes_rev portfolio].
  - apply (bk_keys _ _ _ B).
  - intros p ns. rewrite (bk_prefix _ _ _ B). unfold bound. rewrite latest_snoc. split.
    + intros H. right. split; [exact H|]. intros [[ns' E]|[E1 E2]]; [exact (Hd _ _ E)|exact (Hu E1 _ E2)].
    + intros [E|[H _]]; [destruct (Hd _ _ E)|exact H].
  - intros ns p. rewrite (bk_rev _ _ _ B). unfold prefix_for. rewrite latest_snoc. split.
    + intros H. right. split; [exact H|]. intros [p' E]. exact (Hd _ _ E).
    + intros [E|[H _]]; [destruct (Hd _ _ E)|exact H].
  - intros ns. rewrite declared_snoc, (bk_declared _ _ _ B). split; [auto|]. intros [H|[p E]]; [auto|destruct (Hd _ _ E)].
  - intros l Hn. rewrite element_snoc, (bk_names _ _ _ B) by assumption. split; [auto|]. intros [H|(ns & ats & E)]; [auto|destruct (Hs _ _ E)].
  - intros l ns p Hn. rewrite (bk_element _ _ _ B) by assumption. unfold element_note. rewrite earliest_snoc. split; [auto|].
    intros [H|[[[ats E] _] _]]; [auto|destruct (Hs _ _ E)].
  - intros l ns p. rewrite (bk_attr _ _ _ B). unfold attribute_note. rewrite latest_snoc. split.
    + intros H. right. split; [exact H|]. intros (q & ats & ns' & v & E & _). exact (Hs _ _ E).
    + intros [[(q & a1 & v & a2 & E & _) _]|[H _]]; [destruct (Hs _ _ E)|exact H].
Qed.
Lemma book_decl stream cs p0 ns0 o : book stream cs o ->
  book stream (cs ++ [XDecl p0 ns0]) (mkNs (nstack o) (oset (prefixes o) p0 ns0) (oset (prefixes_rev o) ns0 p0) (portfolio o)).
Proof.
  intros B. split; cbn [prefixes prefixes_rev portfolio].
  - apply okeys_oset, (bk_keys _ _ _ B).
  - intros p ns. rewrite oget_oset. unfold bound. rewrite latest_snoc. destruct (ostr_eqb p0 p) eqn:E.
    + apply ostr_eqb_eq in E. subst p0. split.
      * intros [= ->]. now left.
      * intros [[= ->]|[_ H]]; [reflexivity|]. exfalso. apply H. left. now eexists.
    + rewrite (bk_prefix _ _ _ B). split.
      * intros H. right. split; [exact H|]. intros [[ns' [= -> _]]|[_ [=]]]. rewrite ostr_eqb_refl in E. discriminate.
      * intros [[= -> _]|[H _]]; [rewrite ostr_eqb_refl in E; discriminate|exact H].
  - intros ns p. rewrite oget_oset. unfold prefix_for. rewrite latest_snoc. destruct (ostr_eqb ns0 ns) eqn:E.
    + apply ostr_eqb_eq in E. subst ns0. split.
      * intros [= ->]. now left.
      * intros [[= ->]|[_ H]]; [reflexivity|]. exfalso. apply H. now eexists.
    + rewrite (bk_rev _ _ _ B). split.
      * intros H. right. split; [exact H|]. intros [p' [= _ ->]]. rewrite ostr_eqb_refl in E. discriminate.
      * intros [[= _ ->]|[H _]]; [rewrite ostr_eqb_refl in E; discriminate|exact H].
  - intros ns. rewrite declared_snoc, oget_oset. destruct (ostr_eqb ns0 ns) eqn:E.
    + apply ostr_eqb_eq in E. subst ns0. split; [|discriminate]. intros _. right. now eexists.
    + rewrite (bk_declared _ _ _ B). split; [auto|]. intros [H|[p [= _ ->]]]; [exact H|]. rewrite ostr_eqb_refl in E. discriminate.
  - intros l Hn. rewrite element_snoc, (bk_names _ _ _ B) by assumption. split; [auto|]. intros [H|(ns & ats & E)]; [auto|discriminate].
  - intros l ns p Hn. rewrite (bk_element _ _ _ B) by assumption. unfold element_note. rewrite earliest_snoc. split; [auto|].
    intros [H|[[[ats E] _] _]]; [auto|discriminate].
  - intros l ns p. rewrite (bk_attr _ _ _ B). unfold attribute_note. rewrite latest_snoc. split.
    + intros H. right. split; [exact H|]. intros (q & ats & ns' & v & E & _). discriminate.
    + intros [[(q & a1 & v & a2 & E & _) _]|[H _]]; [discriminate|exact H].
Qed.
Lemma book_end cs p0 o : book true cs o ->
  book true (cs ++ [XUndecl p0]) (mkNs (nstack o) (odel (prefixes o) p0) (prefixes_rev o) (portfolio o)).
Proof.
  intros B. split; cbn [prefixes prefixes_rev portfolio].
  - apply okeys_odel, (bk_keys _ _ _ B).
  - intros p ns. rewrite oget_odel by apply (bk_keys _ _ _ B). unfold bound. rewrite latest_snoc. destruct (ostr_eqb p0 p) eqn:E.
    + apply ostr_eqb_eq in E. subst p0. split; [discriminate|]. intros [[=]|[_ H]]. exfalso. apply H. now right.
    + rewrite (bk_prefix _ _ _ B). split.
      * intros H. right. split; [exact H|]. intros [[ns' [=]]|[_ [= ->]]]. rewrite ostr_eqb_refl in E. discriminate.
      * intros [[=]|[H _]]. exact H.
  - intros ns p. rewrite (bk_rev _ _ _ B). unfold prefix_for. rewrite latest_snoc. split.
    + intros H. right. split; [exact H|]. intros [p' [=]].
    + intros [[=]|[H _]]. exact H.
  - intros ns. rewrite declared_snoc, (bk_declared _ _ _ B). split; [auto|]. intros [H|[p [=]]]. exact H.
  - intros l Hn. rewrite element_snoc, (bk_names _ _ _ B) by assumption. split; [auto|]. intros [H|(ns & ats & E)]; [auto|discriminate].
  - intros l ns p Hn. rewrite (bk_element _ _ _ B) by assumption. unfold element_note. rewrite earliest_snoc. split; [auto|].
    intros [H|[[[ats E] _] _]]; [auto|discriminate].
  - intros l ns p. rewrite (bk_attr _ _ _ B). unfold attribute_note. rewrite latest_snoc. split.
    + intros H. right. split; [exact H|]. intros (q & ats & ns' & v & E & _). discriminate.
    + intros [[(q & a1 & v & a2 & E & _) _]|[H _]]; [discriminate|exact H].
Qed.
Lemma prefix_declared cs ns p : prefix_for cs ns p -> declared cs ns.
Proof. intros (h1 & d & h2 & -> & -> & _). exists p. apply in_or_app. right. now left. Qed.
Lemma rev_note stream cs o ns p : book stream cs o ->
  p = match oget (prefixes_rev o) ns with Some p => p | None => Some [] end <-> prefix_for cs ns p \/ (~ declared cs ns /\ p = Some []).
Proof.
  intros B. rewrite <- (bk_declared _ _ _ B), <- (bk_rev _ _ _ B). destruct (oget (prefixes_rev o) ns) as [p'|]; split.
  - intros ->. now left.
  - intros [[= ->]|[H _]]; [reflexivity|]. exfalso. apply H. discriminate.
  - intros ->. right. split; [|reflexivity]. congruence.
  - intros [[=]|[_ H]]. exact H.
Qed.
(** An element. *)
Definition noted_first (o : nsobj) (q : qname) : option (dict (option str * option str)) :=
  match dict_get (portfolio o) (snd q), oget (prefixes_rev o) (fst q) with
  | Some _, _ => Some (portfolio o)
  | None, Some p => Some (dict_set (portfolio o) (snd q) (fst q, p))
  | None, None => None
  end.
Lemma book_start stream cs q ats o pf pf' stk : book stream cs o -> good_call (XStart q ats) ->
  noted_first o q = Some pf -> note_attrs (prefixes_rev o) pf (reported ats) = (pf', true) ->
  book stream (cs ++ [XStart q ats]) (mkNs stk (prefixes o) (prefixes_rev o) pf').
Proof.
  intros B (Gq & Gn & Ga) Ef En. destruct (note_get (prefixes_rev o) ats Ga pf) as (pf2 & En2 & Hl & Ha).
  rewrite En in En2. injection En2 as <-. split; cbn [prefixes prefixes_rev portfolio].
  - apply (bk_keys _ _ _ B).
  - intros p ns. rewrite (bk_prefix _ _ _ B). unfold bound. rewrite latest_snoc. split.
    + intros H. right. split; [exact H|]. intros [[ns' [=]]|[_ [=]]].
    + intros [[=]|[H _]]. exact H.
  - intros ns p. rewrite (bk_rev _ _ _ B). unfold prefix_for. rewrite latest_snoc. split.
    + intros H. right. split; [exact H|]. intros [p' [=]].
    + intros [[=]|[H _]]. exact H.
  - intros ns. rewrite declared_snoc, (bk_declared _ _ _ B). split; [auto|]. intros [H|[p [=]]]. exact H.
  - intros l Hn. rewrite element_snoc, (Hl l Hn), <- (bk_names _ _ _ B) by assumption.
    destruct q as [n a]. unfold noted_first in Ef. cbn [fst snd] in Ef.
    destruct (dict_get (portfolio o) a) as [x|] eqn:E1.
    + injection Ef as <-. split; [auto|]. intros [H|(ns & ats' & [= -> -> ->])]; [exact H|]. congruence.
    + destruct (oget (prefixes_rev o) n) as [p|] eqn:E2; [|discriminate]. injection Ef as <-. rewrite dict_get_set.
      destruct (str_eqb a l) eqn:Ee.
      * apply str_eqb_eq in Ee. subst. split; [|discriminate]. intros _. right. exists n, ats. reflexivity.
      * split; [auto|]. intros [H|(ns & ats' & [= -> -> ->])]; [exact H|]. rewrite str_eqb_refl in Ee. discriminate.
  - intros l ns p Hn. rewrite (Hl l Hn). unfold element_note. rewrite earliest_snoc. fold (element_note cs l ns p). rewrite <- (bk_element _ _ _ B) by assumption.
    assert (Hnone : (forall x, In x cs -> ~ has_element l x) <-> dict_get (portfolio o) l = None).
    { pose proof (bk_names _ _ _ B l Hn) as H. destruct (dict_get (portfolio o) l); split.
      - intros H1. destruct H as [H _]. destruct H as (c & Hc & He); [discriminate|]. destruct (H1 c Hc He).
      - discriminate.
      - reflexivity.
      - intros _ x Hx He. destruct H as [_ H]. apply H; [now exists x|reflexivity]. }
    rewrite Hnone. destruct q as [n a]. unfold noted_first in Ef. cbn [fst snd] in Ef.
    destruct (dict_get (portfolio o) a) as [x|] eqn:E1.
    + injection Ef as <-. split; [auto|]. intros [H|[[[ats' [= -> -> ->]] _] Hz]]; [exact H|congruence].
    + destruct (oget (prefixes_rev o) n) as [p1|] eqn:E2; [|discriminate]. injection Ef as <-. rewrite dict_get_set.
      destruct (str_eqb a l) eqn:Ee.
      * apply str_eqb_eq in Ee. subst. split.
        -- intros [= -> ->]. right. split; [|exact E1]. split; [now exists ats|]. now apply (bk_rev _ _ _ B).
        -- intros [H|[[[ats' [= -> ->]] Hp] _]]; [congruence|]. apply (bk_rev _ _ _ B) in Hp. congruence.
      * split; [auto|]. intros [H|[[[ats' [= -> -> ->]] _] _]]; [exact H|]. rewrite str_eqb_refl in Ee. discriminate.
  - intros l ns p. rewrite Ha. unfold attribute_note. rewrite latest_snoc. fold (attribute_note cs l ns p). rewrite <- (bk_attr _ _ _ B).
    assert (Hpf : dict_get pf (lit "@" ++ l) = dict_get (portfolio o) (lit "@" ++ l)).
    { unfold noted_first in Ef. destruct (dict_get (portfolio o) (snd q)); [now injection Ef as <-|].
      destruct (oget (prefixes_rev o) (fst q)); [|discriminate]. injection Ef as <-. rewrite dict_get_set.
      destruct (str_eqb (snd q) (lit "@" ++ l)) eqn:Ee; [|reflexivity]. apply str_eqb_eq in Ee. destruct (Gn _ Ee). }
    rewrite Hpf, <- (rev_note _ _ _ _ _ B). split.
    + intros [(a1 & v & a2 & -> & E2 & E3)|[E1 E2]].
      * left. split; [|exact E3]. exists q, a1, v, a2. auto.
      * right. split; [exact E1|]. intros (q' & ats' & ns' & v & [= <- <-] & Hi). exact (E2 _ _ Hi).
    + intros [[(q' & a1 & v & a2 & [= <- ->] & E2) E3]|[E1 E2]].
      * left. exists a1, v, a2. auto.
      * right. split; [exact E1|]. intros ns' v' Hi. apply E2. exists q, ats, ns', v'. auto.
Qed.

(** ** When the calls succeed *)
Definition allowed (stream : bool) (cs : list xcall) (stk : list str) (c : xcall) : Prop :=
  permitted stream cs c /\ match c with XClose _ => stk <> [] | _ => True end.
Lemma step_book stream cs c o : book stream cs o -> good_call c -> match ns_call stream o (as_call c) with
  | (o', _, None) => allowed stream cs (nstack o) c /\ book stream (cs ++ [c]) o'
  | (_, _, Some x) => ~ allowed stream cs (nstack o) c /\ x = (match c with XClose _ => NIndex | _ => NKey end)
  end.
Proof.
  intros B G. destruct c as [p ns|p|q ats|q|d]; unfold allowed; cbn [as_call ns_call permitted].
  - split; [auto|]. now apply book_decl.
  - destruct stream.
    + destruct (oget (prefixes o) p) as [ns|] eqn:E.
      * split; [|now apply book_end]. split; [|exact I]. intros _. exists ns. now apply (bk_prefix _ _ _ B).
      * split; [|reflexivity]. intros [H _]. destruct (H eq_refl) as [ns Hb]. apply (bk_prefix _ _ _ B) in Hb. congruence.
    + split; [split; [discriminate|exact I]|]. destruct o as [stk a b pf]. apply (book_same _ _ _ _ stk B); congruence.
  - pose proof G as (Gq & Gn & Ga). rewrite (split_good q Gq). destruct q as [n a].
    pose proof (bk_declared _ _ _ B n) as Hd. pose proof (bk_names _ _ _ B a Gn) as Hn.
    pose proof (fun pf pf' stk => book_start stream cs (n, a) ats o pf pf' stk B G) as Hb. unfold noted_first in Hb. cbn [fst snd] in Hb.
    set (fo := match dict_get (portfolio o) a with Some _ => Some (portfolio o) | None => _ end) in *.
    destruct fo as [pf|] eqn:Ef.
    + destruct (note_get (prefixes_rev o) ats Ga pf) as (pf' & En & _). rewrite En. cbn [nstack plain_call callback prefixes prefixes_rev portfolio].
      rewrite (good_start _ Gq), (new_attrs_collapse ats Ga). split; [|now apply (Hb pf)].
      split; [|exact I]. rewrite <- Hd, <- Hn. unfold fo in Ef. destruct (dict_get (portfolio o) a); [right; discriminate|].
      destruct (oget (prefixes_rev o) n); [left; discriminate|discriminate].
    + split; [|reflexivity]. rewrite <- Hd, <- Hn. unfold fo in Ef. destruct (dict_get (portfolio o) a); [discriminate|].
      destruct (oget (prefixes_rev o) n); [discriminate|]. intros [[H|H] _]; now apply H.
  - cbn [plain_call callback]. rewrite (good_end q G). destruct (nstack o) as [|x stk] eqn:Es.
    + split; [|reflexivity]. intros [_ H]. now apply H.
    + split; [split; [exact I|discriminate]|]. apply (book_same _ _ _ _ _ B); congruence.
  - cbn [plain_call callback]. split; [auto|]. apply (book_same _ _ _ _ _ B); congruence.
Qed.

Theorem run_book stream cs : Forall good_call cs -> match ns_calls stream new_ns (map as_call cs) with
  | (o, evs, None) => book stream cs o /\ (forall h1 c h2, cs = h1 ++ c :: h2 -> permitted stream h1 c)
  | (_, evs, Some x) => exists h1 c h2 o, cs = h1 ++ c :: h2 /\ ns_calls stream new_ns (map as_call h1) = (o, evs, None) /\
      ((x = NKey /\ ~ permitted stream h1 c) \/ (x = NIndex /\ nstack o = [] /\ exists q, c = XClose q))
  end.
Proof.
  induction cs as [|c cs IH] using rev_ind; intros G.
  - cbn [map ns_calls]. split; [apply book_nil|]. intros h1 c h2 E. now destruct h1.
  - apply Forall_app in G as [G1 G2]. inversion G2 as [|? ? Gc _]; subst. specialize (IH G1).
    rewrite map_app, calls_app. destruct (ns_calls stream new_ns (map as_call cs)) as [[o evs] [x|]] eqn:Er.
    + destruct IH as (h1 & d & h2 & o' & -> & E1 & E2). exists h1, d, (h2 ++ [c]), o'. rewrite <- app_assoc. auto.
    + destruct IH as [B Hp]. pose proof (step_book stream cs c o B Gc) as Hs. pose proof (call_plain stream o (as_call c)) as Hc. cbn [map ns_calls].
      destruct (ns_call stream o (as_call c)) as [[o' evs'] [x|]].
      * destruct Hs as [Hn ->]. destruct Hc as [-> _]. rewrite app_nil_r. exists cs, c, [], o. split; [reflexivity|]. split; [exact Er|].
        destruct c as [p ns|p|q ats|q|d]; try (left; split; [reflexivity|]; intros H; apply Hn; split; [exact H|exact I]).
        right. split; [reflexivity|]. split; [|now exists q]. destruct (nstack o); [reflexivity|]. exfalso. apply Hn. split; [exact I|discriminate].
      * destruct Hs as [[Ha _] B']. split; [exact B'|]. intros h1 d h2 E. apply snoc_split in E as [(-> & -> & ->)|(h3 & -> & E)]; [exact Ha|].
        eapply Hp. exact E.
Qed.
Theorem run_succeeds stream cs : Forall good_call cs ->
  (snd (ns_calls stream new_ns (map as_call cs)) = None <->
   snd (callbacks [] (map plain_call (map as_call cs))) <> None /\ forall h1 c h2, cs = h1 ++ c :: h2 -> permitted stream h1 c).
Proof.
  intros G. pose proof (run_book stream cs G) as H. pose proof (calls_plain stream (map as_call cs) new_ns) as Hp.
  destruct (ns_calls stream new_ns (map as_call cs)) as [[o evs] [x|]] eqn:Er; cbn [snd nstack new_ns] in *.
  - split; [discriminate|]. intros [H1 H2]. exfalso. destruct H as (h1 & c & h2 & o' & E & _ & [[-> Hn]|[-> _]]).
    + apply Hn. eapply H2. exact E.
    + destruct Hp as [_ Hp]. rewrite (Hp eq_refl) in H1. now apply H1.
  - rewrite Hp. split; [|reflexivity]. intros _. split; [discriminate|]. apply H.
Qed.
Theorem run_noted stream cs o evs : Forall good_call cs -> ns_calls stream new_ns (map as_call cs) = (o, evs, None) ->
  (forall p ns, oget (prefixes o) p = Some ns <-> bound stream cs p ns) /\
  (forall ns p, oget (prefixes_rev o) ns = Some p <-> prefix_for cs ns p) /\
  (forall l ns p, (forall r, l <> lit "@" ++ r) -> (dict_get (portfolio o) l = Some (ns, p) <-> element_note cs l ns p)) /\
  (forall l ns p, dict_get (portfolio o) (lit "@" ++ l) = Some (ns, p) <-> attribute_note cs l ns p).
Proof.
  intros G E. pose proof (run_book stream cs G) as H. rewrite E in H. destruct H as [B _].
  split; [apply (bk_prefix _ _ _ B)|]. split; [apply (bk_rev _ _ _ B)|]. split; [apply (bk_element _ _ _ B)|apply (bk_attr _ _ _ B)].
Qed.
(** A prefix that is declared again inside its scope *)
Theorem run_nested h1 p h2 h3 : Forall good_call (h1 ++ XUndecl p :: h2 ++ XUndecl p :: h3) -> (forall ns, ~ In (XDecl p ns) h2) ->
  snd (ns_calls true new_ns (map as_call (h1 ++ XUndecl p :: h2 ++ XUndecl p :: h3))) <> None.
Proof.
  intros G Hn E. apply (run_succeeds true _ G) in E as [_ E].
  specialize (E (h1 ++ XUndecl p :: h2) (XUndecl p) h3). rewrite <- app_assoc in E. destruct (E eq_refl eq_refl) as [ns (a & d & b & Ea & -> & Hb)].
  clear E G. revert a b Ea Hb. induction h2 as [|x h2 IH] using rev_ind; intros a b Ea Hb.
  - apply snoc_split in Ea as [(_ & Ea & _)|(b' & -> & Ea)]; [discriminate|]. apply (Hb (XUndecl p)); [apply in_or_app; right; now left|now right].
  - change (h1 ++ XUndecl p :: h2 ++ [x]) with (h1 ++ (XUndecl p :: h2) ++ [x]) in Ea. rewrite app_assoc in Ea.
    apply snoc_split in Ea as [(_ & Ea & _)|(b' & -> & Ea)].
    + subst x. apply (Hn ns), in_or_app. right. now left.
    + refine (IH _ a b' Ea _).
      * intros ns' Hi. apply (Hn ns'), in_or_app. now left.
      * intros y Hy. apply Hb, in_or_app. now left.
Qed.
(** A document whose element is in no namespace *)
Theorem run_unqualified stream l ats cs : good_call (XStart (None, l) ats) ->
  ns_calls stream new_ns (map as_call (XStart (None, l) ats :: cs)) = (new_ns, [], Some NKey).
Proof.
  intros [Gq _]. cbn [map as_call ns_calls ns_call]. rewrite (split_good _ Gq). reflexivity.
Qed.

(** ** Names of namespaces with blanks in them *)
Definition three (u v l : str) : str := u ++ [32%N] ++ v ++ [32%N] ++ l.
Lemma split_three u v l : unspaced u -> unspaced v -> unspaced l -> ns_split (three u v l) = None.
Proof.
  intros [Hu Hu'] [Hv Hv'] [Hl Hl']. unfold ns_split, three. replace (char_in c_space (u ++ [32%N] ++ v ++ [32%N] ++ l)) with true.
  - unfold py_split. rewrite split_word by auto. rewrite app_nil_r. destruct (rev_nonempty u Hu) as (a & m & E). rewrite E. cbn [app split_acc]. change (py_isspace 32%N) with true. cbn iota.
    rewrite split_word by auto. rewrite app_nil_r. destruct (rev_nonempty v Hv) as (b & k & F). rewrite F. cbn [app split_acc]. change (py_isspace 32%N) with true. cbn iota.
    rewrite <- (app_nil_r l), split_word by auto. rewrite app_nil_r. destruct (rev_nonempty l Hl) as (c & j & G). rewrite G. reflexivity.
  - symmetry. apply existsb_exists. exists 32%N. split; [apply in_or_app; right; left; reflexivity|reflexivity].
Qed.
Lemma note_bad rev k v : ns_split k = None -> forall attrs pf, In (k, v) attrs -> snd (note_attrs rev pf attrs) = false.
Proof.
  intros N. induction attrs as [|[k' v'] attrs IH]; intros pf H; [destruct H|]. cbn [note_attrs]. destruct H as [H|H]; [injection H as -> ->; rewrite N; reflexivity|].
  destruct (ns_split k') as [[ans al]|]; [apply IH, H|reflexivity].
Qed.
Lemma blank_names stream o u v l : unspaced u -> unspaced v -> unspaced l ->
  (forall attrs, ns_call stream o (NsStart (three u v l) attrs) = (o, [], Some NValue)) /\
  (forall q x attrs, good_name q -> (dict_get (portfolio o) (snd q) <> None \/ oget (prefixes_rev o) (fst q) <> None) -> In (three u v l, x) attrs ->
   exists o', ns_call stream o (NsStart (expanded q) attrs) = (o', [], Some NValue)).
Proof.
  intros Hu Hv Hl. pose proof (split_three u v l Hu Hv Hl) as S. split.
  - intros attrs. cbn [ns_call]. rewrite S. reflexivity.
  - intros q x attrs Hq Hn Hi. cbn [ns_call]. rewrite (split_good q Hq). destruct q as [ns n]. cbn [fst snd] in Hn.
    assert (B : forall pf, note_attrs (prefixes_rev o) pf attrs = (fst (note_attrs (prefixes_rev o) pf attrs), false)) by (intros pf; rewrite <- (note_bad (prefixes_rev o) _ x S attrs pf Hi); destruct (note_attrs _ _ _); reflexivity).
    destruct (dict_get (portfolio o) n); [rewrite B; eexists; reflexivity|]. destruct (oget (prefixes_rev o) ns); [rewrite B; eexists; reflexivity|]. destruct Hn; congruence.
Qed.
