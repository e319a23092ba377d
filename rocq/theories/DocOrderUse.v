(** Unions in histories of queries and edits. *)
From Verif Require Import PyStr Parser XTree Heap Builder HeapSpec BuilderFacts HeapFacts BuilderMore RootCache RootSpec RootFacts DocOrder DocOrderSpec DocOrderFacts DocOrderInv.

Lemma later_inv h v v' : later h v v' -> inv h v -> inv h v'.
Proof. induction 1 as [|v' c r _ IH H|v' i _ IH H]; intros I; [auto|eapply union_inv; eauto|apply loose_inv; auto]. Qed.
Lemma prepare_mono h v c r x : well_linked h -> tree_of h c r -> number_of v x <> None -> number_of (prepare h v c) x <> None.
Proof.
  intros W H Hx. destruct (prepare_cases h v c r W H) as [(k & _ & ->)|(_ & v' & -> & (S1 & S2 & _) & R)]; [auto|]. cbn [fst]. destruct x as [i|i|q]; cbn [number_of] in *.
  - destruct (within_dec h r i W (proj1 (tree_of_top h c r H))) as [K|K]; [auto|rewrite S1; auto].
  - auto.
  - rewrite R. destruct (match c with DRoot q' => root_eqb q q' | _ => false end); [discriminate|auto].
Qed.
Lemma later_mono h v v' x : well_linked h -> later h v v' -> number_of v x <> None -> number_of v' x <> None.
Proof.
  intros W. induction 1 as [|v' c r _ IH H|v' i _ IH H]; [auto|intros Hx; eapply prepare_mono; eauto|]. intros Hx. specialize (IH Hx). destruct (loose_index h v' i H) as (R & S & O).
  destruct x as [j|j|q]; cbn [number_of] in *; [|exact IH|rewrite R; exact IH]. destruct (Nat.eq_dec j i) as [->|Hn]; [exact S|rewrite O by exact Hn; exact IH].
Qed.

(** After [prepare] the whole tree has numbers. *)
Lemma prepare_all h v c r : inv h v -> tree_of h c r -> exists v', prepare h v c = v' /\ inv h v' /\ (forall j, within h r j -> en v' j <> None) /\
  (forall q, c = DRoot q -> rn v' q <> None).
Proof.
  intros I H. pose proof (i_linked h v I) as W. pose proof (union_inv h v c r I H) as I'. destruct (tree_of_top h c r H) as [E P].
  destruct (prepare_cases h v c r W H) as [(k & Hk & Ep)|(_ & v' & Ep & (_ & S2 & _) & R)]; rewrite Ep in *; cbn [fst] in *.
  - exists v. split; [auto|]. split; [auto|]. assert (Er : exists i, within h r i /\ en v i <> None).
    { destruct c as [i|i|q]; cbn [number_of] in Hk; [|discriminate Hk|].
      - exists i. destruct H as [[B _] _]. assert (K : en v i <> None) by congruence. split; [split; [auto|]|auto].
        destruct (i_elem h v I i K) as [Ei|(s & (p & T) & o & Ho & Hp)]; [exact Ei|]. exfalso. inversion B as [|? z ? _ C]; subst.
        + destruct E as (n & a & ks & q & E). congruence.
        + destruct W as (_ & L & _). apply L in C as (o' & Ho' & Hp'). congruence.
      - exists r. split; [split; [constructor|auto]|]. destruct H as (<- & _). apply (i_root h v I q k Hk). }
    destruct Er as (i & [Bi Ei] & Hi). split; [|intros q ->; cbn [number_of] in Hk; congruence].
    intros j [Bj Ej]. eapply (i_same h v I i j); eauto. exists r. auto.
  - exists v'. split; [auto|]. split; [auto|]. split; [auto|]. intros q ->. rewrite R. rewrite (proj2 (root_eqb_eq q q) eq_refl). discriminate.
Qed.

Lemma less_order h v r i j a b : inv h v -> within h r i -> within h r j -> en v i = Some a -> en v j = Some b -> a <= b -> i = j \/ comes_before h i j.
Proof.
  intros I Wi Wj Ha Hb L. destruct (Nat.eq_dec i j) as [->|Hn]; [auto|]. right. destruct (before_total h r i j (i_linked h v I) Wi Wj Hn) as [C|C]; [auto|].
  pose proof (i_less h v I j i b a (proj2 Wj) (proj2 Wi) C Hb Ha). lia.
Qed.
Lemma sorted_nodes h out : StronglySorted (fun x y => exists i j, x = DNode i /\ y = DNode j /\ (i = j \/ comes_before h i j)) (map DNode out) -> in_document_order h out.
Proof.
  unfold in_document_order. induction out as [|i out IH]; intros S; [constructor|]. cbn [map] in S. apply StronglySorted_inv in S. destruct S as [S1 S2]. constructor; [auto|].
  rewrite Forall_forall in *. intros j Hj. destruct (S2 (DNode j) (in_map DNode _ _ Hj)) as (i' & j' & E1 & E2 & K). injection E1 as <-. injection E2 as <-. exact K.
Qed.
Lemma perm_nodes sel out : Permutation (map DNode sel) out -> exists out', out = map DNode out' /\ Permutation sel out'.
Proof. intros P. apply Permutation_sym, Permutation_map_inv in P. destruct P as (l & -> & P). exists l. auto. Qed.

Lemma arrange_nodes h v r sel : inv h v -> (forall j, within h r j -> en v j <> None) -> (forall i, In i sel -> within h r i) ->
  exists out, arrange v (map DNode sel) = Some (map DNode out) /\ Permutation sel out /\ in_document_order h out.
Proof.
  intros I A Hs. destruct (arrange_ok v (map DNode sel) (fun x y => exists i j, x = DNode i /\ y = DNode j /\ (i = j \/ comes_before h i j))) as (out & E & P & S).
  - intros x Hx. apply in_map_iff in Hx as (i & <- & Hi). cbn [number_of]. auto.
  - intros x y a b Hx Hy Ea Eb L. apply in_map_iff in Hx as (i & <- & Hi), Hy as (j & <- & Hj). cbn [number_of] in *. exists i, j. split; [reflexivity|]. split; [reflexivity|]. eapply less_order; eauto.
  - destruct (perm_nodes sel out P) as (out' & -> & P'). exists out'. split; [auto|]. split; [auto|]. apply sorted_nodes; auto.
Qed.

(** Whatever came before, the elements that a union selects come out in document order. *)
Theorem history_order h v c r : numbered h v -> tree_of h c r ->
  forall v2 sel, later h (prepare h v c) v2 -> (forall i, In i sel -> within h r i) ->
    exists out, arrange v2 (map DNode sel) = Some (map DNode out) /\ Permutation sel out /\ in_document_order h out.
Proof.
  intros N H. pose proof (numbered_inv h v N) as I. destruct (prepare_all h v c r I H) as (v1 & E & I1 & A & _). rewrite E. intros v2 sel L Hs.
  apply (arrange_nodes h v2 r); [eapply later_inv; eauto| |auto]. intros j Hj. apply (later_mono h v1 v2 (DNode j) (i_linked h v1 I1) L). cbn [number_of]. auto.
Qed.

Theorem history_root h v q r : numbered h v -> tree_of h (DRoot q) r ->
  forall v2 sel, later h (prepare h v (DRoot q)) v2 -> (forall x, In x sel -> x = DRoot q \/ exists i, x = DNode i /\ within h r i) ->
    exists out, arrange v2 sel = Some out /\ Permutation sel out /\ StronglySorted (with_root h q) out.
Proof.
  intros N H. pose proof (numbered_inv h v N) as I. destruct (prepare_all h v (DRoot q) r I H) as (v1 & E & I1 & A & R). rewrite E. intros v2 sel L Hs.
  pose proof (later_inv h v1 v2 L I1) as I2. pose proof (i_linked h v1 I1) as W. pose proof (R q eq_refl) as Rq. assert (Rq2 : number_of v2 (DRoot q) <> None) by (apply (later_mono h v1 v2 (DRoot q) W L); exact Rq).
  assert (A2 : forall j, within h r j -> en v2 j <> None) by (intros j Hj; apply (later_mono h v1 v2 (DNode j) W L); cbn [number_of]; auto).
  apply arrange_ok.
  - intros x Hx. destruct (Hs x Hx) as [->|(i & -> & Wi)]; [auto|cbn [number_of]; auto].
  - intros x y a b Hx Hy Ea Eb Lab. destruct (Hs x Hx) as [->|(i & -> & Wi)]; [exact Logic.I|]. destruct (Hs y Hy) as [->|(j & -> & Wj)]; cbn [with_root number_of] in *; [|eapply less_order; eauto].
    destruct (i_root h v2 I2 q b Eb) as [-> _]. destruct (tree_of_top h (DRoot q) r H) as [Er Pr]. destruct H as (Hd & _). rewrite Hd. destruct (Nat.eq_dec i r) as [->|Hn]; [auto|]. exfalso.
    assert (Wr : within h r r) by (split; [constructor|auto]). destruct (en v2 r) as [k|] eqn:Ek; [|destruct (A2 r Wr Ek)].
    assert (C : comes_before h r i) by (left; split; [auto|apply Wi]). pose proof (i_less h v2 I2 r i k a Er (proj2 Wi) C Ek Ea). lia.
Qed.

(** At a context without number everything around is numbered anew, whatever the numbers were. *)
Theorem fresh_order h v c r : well_linked h -> tree_of h c r -> number_of v c = None -> forall sel, (forall i, In i sel -> within h r i) ->
  exists v' out, union h v c (map DNode sel) = (v', Some (map DNode out)) /\ Permutation sel out /\ in_document_order h out.
Proof.
  intros W H Hc sel Hs. destruct (prepare_cases h v c r W H) as [(k & K & _)|(_ & v' & E & (S1 & S2 & S3) & _)]; [congruence|]. unfold union. rewrite E. exists v'.
  destruct (arrange_ok v' (map DNode sel) (fun x y => exists i j, x = DNode i /\ y = DNode j /\ (i = j \/ comes_before h i j))) as (out & Eo & P & S).
  - intros x Hx. apply in_map_iff in Hx as (i & <- & Hi). cbn [number_of]. auto.
  - intros x y a b Hx Hy Ea Eb L. apply in_map_iff in Hx as (i & <- & Hi), Hy as (j & <- & Hj). cbn [number_of] in *. exists i, j. split; [reflexivity|]. split; [reflexivity|].
    destruct (Nat.eq_dec i j) as [->|Hn]; [auto|]. right. destruct (before_total h r i j W (Hs i Hi) (Hs j Hj) Hn) as [C|C]; [auto|]. pose proof (S3 j i b a (Hs j Hj) (Hs i Hi) C Eb Ea). lia.
  - destruct (perm_nodes sel out P) as (out' & -> & P'). exists out'. rewrite Eo. split; [auto|]. split; [auto|]. apply sorted_nodes; auto.
Qed.

(** At a numbered context nothing is numbered, whatever was edited, and an element that did
    not exist when the numbers were given is an error. *)
Theorem numbered_context h v c k sel : number_of v c = Some k -> union h v c sel = (v, arrange v sel).
Proof. intros H. unfold union, prepare. rewrite H. reflexivity. Qed.
Theorem new_element h v c r i h' sel : numbered h v -> tree_of h (DNode c) r -> is_elem h c -> hp h i = None -> In (DNode i) sel ->
  union h' (prepare h v (DNode c)) (DNode c) sel = (prepare h v (DNode c), None).
Proof.
  intros N H Ec Hi Hin. pose proof (numbered_inv h v N) as I. destruct (prepare_all h v (DNode c) r I H) as (v1 & E & I1 & A & _). rewrite E.
  assert (Hc : en v1 c <> None) by (apply A; split; [apply H|auto]). unfold union, prepare. cbn [number_of]. destruct (en v1 c) as [k|] eqn:K; [|congruence].
  f_equal. apply (arrange_fails v1 sel (DNode i) Hin). cbn [number_of]. destruct (en v1 i) as [kx|] eqn:X; [|auto]. assert (Y : en v1 i <> None) by congruence. destruct (i_elem h v1 I1 i Y) as [(n & a & ks & p & Z)|(s & (p & Z) & _)]; congruence.
Qed.
(** Text nodes and attributes in the selection are an error too. *)
Theorem other_items h v c r x sel : numbered h v -> tree_of h c r -> In x sel -> (exists i s p, x = DNode i /\ is_text h i s /\ parent_is h i (Some p)) \/ (exists i, x = DAttr i) ->
  snd (union h v c sel) = None.
Proof.
  intros N H Hin Hx. pose proof (numbered_inv h v N) as I. destruct (prepare_all h v c r I H) as (v1 & E & I1 & _). unfold union. rewrite E. cbn [snd]. apply (arrange_fails v1 sel x Hin).
  destruct Hx as [(i & s & pp & -> & (p & Ht) & Hpp)|(i & ->)]; cbn [number_of]; [|reflexivity]. destruct (en v1 i) as [kx|] eqn:X; [|auto]. assert (Y : en v1 i <> None) by congruence. destruct (i_elem h v1 I1 i Y) as [(n & a & ks & q & Z)|(s' & _ & o & Z & Z')]; [congruence|]. destruct Hpp as (o' & Z1 & Z2). congruence.
Qed.

(** At a text node without parent. *)
Lemma keys_repeat v x k n : number_of v x = Some k -> keys v (repeat x n) = Some (repeat (k, x) n).
Proof. intros H. induction n as [|n IH]; [reflexivity|]. cbn [repeat keys]. rewrite H, IH. reflexivity. Qed.
Lemma put_repeat (x : nat * ditem) n : fold_right put [] (repeat x n) = repeat x n.
Proof. induction n as [|n IH]; [reflexivity|]. cbn [repeat fold_right]. rewrite IH. destruct n; cbn [repeat put]; [reflexivity|]. rewrite Nat.leb_refl. reflexivity. Qed.
Theorem loose_union h v i n : loose_text h i -> snd (union h v (DNode i) (repeat (DNode i) n)) = Some (repeat (DNode i) n).
Proof.
  intros L. destruct (loose_index h v i L) as (_ & S & _). unfold union. cbn [snd]. unfold arrange. destruct (en (prepare h v (DNode i)) i) as [k|] eqn:E; [|congruence].
  rewrite (keys_repeat _ (DNode i) k n E). cbn [option_map]. rewrite put_repeat. f_equal.
  clear. induction n as [|n IH]; [reflexivity|]. cbn [repeat map snd]. rewrite IH. reflexivity.
Qed.

(** Document order of the elements of a document is strict and total. *)
Theorem order_strict h r i j : well_linked h -> is_elem h r -> parent_is h r None -> within h r i -> within h r j -> i <> j ->
  (comes_before h i j /\ ~ comes_before h j i) \/ (comes_before h j i /\ ~ comes_before h i j).
Proof.
  intros W E P Wi Wj Hn. destruct (index_ok h no_numbers (DNode r) r W) as (v' & _ & (_ & S2 & S3) & _); [split; [split; [constructor|auto]|auto]|].
  destruct (en v' i) as [a|] eqn:Ea; [|destruct (S2 i Wi Ea)]. destruct (en v' j) as [b|] eqn:Eb; [|destruct (S2 j Wj Eb)].
  destruct (before_total h r i j W Wi Wj Hn) as [C|C]; [left|right]; (split; [exact C|]); intros C'.
  - pose proof (S3 i j a b Wi Wj C Ea Eb). pose proof (S3 j i b a Wj Wi C' Eb Ea). lia.
  - pose proof (S3 i j a b Wi Wj C' Ea Eb). pose proof (S3 j i b a Wj Wi C Eb Ea). lia.
Qed.
