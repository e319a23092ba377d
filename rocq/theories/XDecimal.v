(** str() of an integer is its decimal notation. *)
From Coq Require Import ZArith Lia DecimalN DecimalPos DecimalFacts.
From Verif Require Import PyStr XPath XPathSpec.
Local Open Scope Z_scope.

Lemma dv_app a : forall z b, digits_value z (a ++ b) = match digits_value z a with Some y => digits_value y b | None => None end.
Proof. induction a as [|c a IH]; intros z b; cbn [app digits_value]; auto. destruct ((48 <=? c) && (c <=? 57))%N; auto. Qed.
Lemma dv_snoc a c y : digits_value 0 (a ++ [c]) = Some y -> exists z, digits_value 0 a = Some z /\ y = 10 * z + (Z.of_N c - 48) /\ (48 <= c <= 57)%N.
Proof.
  rewrite dv_app. destruct (digits_value 0 a) as [z|]; [|discriminate]. cbn [digits_value]. destruct ((48 <=? c) && (c <=? 57))%N eqn:E; [|discriminate].
  intros K. injection K as <-. apply andb_true_iff in E as [E1 E2]. apply N.leb_le in E1, E2. exists z. auto.
Qed.
Lemma dv_mono a : forall z y, 0 <= z -> digits_value z a = Some y -> z <= y.
Proof.
  induction a as [|c a IH]; intros z y Hz H; cbn [digits_value] in H; [injection H as <-; lia|]. destruct ((48 <=? c) && (c <=? 57))%N eqn:E; [|discriminate].
  apply andb_true_iff in E as [E1 E2]. apply N.leb_le in E1, E2. apply IH in H; lia.
Qed.
Definition short (ds : str) : Prop := forall r, ds = lit "0" ++ r -> r = [].
Lemma short_snoc ds c : short (ds ++ [c]) -> ds = [] \/ (short ds /\ exists y, forall v, digits_value 0 ds = Some v -> v = y /\ 0 < v).
Proof.
  intros H. destruct ds as [|d ds]; auto. right. split.
  - intros r E. specialize (H (r ++ [c])). rewrite E in H. cbn in H. specialize (H eq_refl). destruct r; discriminate.
  - destruct (digits_value 0 (d :: ds)) as [y|] eqn:E; [|exists 0; discriminate]. exists y. intros v K. injection K as <-. split; auto.
    cbn [digits_value] in E. destruct ((48 <=? d) && (d <=? 57))%N eqn:E1; [|discriminate]. apply andb_true_iff in E1 as [E1 E2]. apply N.leb_le in E1, E2.
    apply dv_mono in E; [|lia]. destruct (N.eq_dec d 48) as [->|Hd]; [|lia]. specialize (H (ds ++ [c]) eq_refl). destruct ds; discriminate.
Qed.
Lemma dv_unique a : forall b y, digits_value 0 a = Some y -> digits_value 0 b = Some y -> short a -> short b -> a <> [] -> b <> [] -> a = b.
Proof.
  induction a as [|c a IH] using rev_ind; intros b y Ha Hb Sa Sb Na Nb; [congruence|]. destruct b as [|d b _] using rev_ind; [congruence|].
  apply dv_snoc in Ha as (z & Ha & -> & Hc), Hb as (z' & Hb & E & Hd). assert (z = z' /\ c = d) as [<- <-] by lia. f_equal.
  apply short_snoc in Sa as [->|[Sa (y & Ya)]], Sb as [->|[Sb (y' & Yb)]]; auto.
  - apply Yb in Hb as [_ Hb]. cbn in Ha. injection Ha as <-. lia.
  - apply Ya in Ha as [_ Ha]. cbn in Hb. injection Hb as <-. lia.
  - assert (a <> []) by (intros ->; destruct (Ya z Ha) as [_ K]; cbn in Ha; injection Ha as <-; lia).
    assert (b <> []) by (intros ->; destruct (Yb z Hb) as [_ K]; cbn in Hb; injection Hb as <-; lia).
    exact (IH b z Ha Hb Sa Sb ltac:(assumption) ltac:(assumption)).
Qed.
Lemma decimal_unique z s s' : decimal z s -> decimal z s' -> s = s'.
Proof.
  intros (a & -> & Ha & Na & Sa) (b & -> & Hb & Nb & Sb). assert (a = b) as <- by (eapply dv_unique; eauto). reflexivity.
Qed.
Lemma acc_value d : forall p, digits_value (Z.pos p) (digits d) = Some (Z.pos (Pos.of_uint_acc d p)).
Proof.
  induction d; intros p; cbn [digits digits_value Pos.of_uint_acc]; [reflexivity|..]; rewrite <- IHd;
  match goal with |- (if ?b then _ else _) = _ => change b with true end; cbv iota; apply (f_equal (fun z => digits_value z (digits d))); lia.
Qed.
Lemma uint_value d : digits_value 0 (digits d) = Some (Z.of_N (Pos.of_uint d)).
Proof.
  induction d; cbn [digits digits_value Pos.of_uint]; auto; cbn -[digits_value Z.mul Z.add Z.of_N]; try (rewrite <- IHd; reflexivity);
  match goal with |- digits_value ?z _ = Some (Z.of_N (N.pos (Pos.of_uint_acc _ ?p))) => change z with (Z.pos p); rewrite acc_value; reflexivity end.
Qed.
Lemma pos_short p : digits (Pos.to_uint p) <> [] /\ short (digits (Pos.to_uint p)).
Proof.
  assert (E : Pos.of_uint (Pos.to_uint p) = N.pos p) by apply DecimalPos.Unsigned.of_to. assert (U : Decimal.unorm (Pos.to_uint p) = Pos.to_uint p).
  { change (Pos.to_uint p) with (N.to_uint (N.pos p)). rewrite <- (DecimalN.Unsigned.to_of (N.to_uint (N.pos p))). rewrite DecimalN.Unsigned.of_to. reflexivity. }
  split.
  - intros K. destruct (Pos.to_uint p); cbn in K; try discriminate.
  - intros r K. destruct (Pos.to_uint p) as [|d| | | | | | | | |] eqn:Ep; cbn in K; try discriminate. exfalso.
    unfold Decimal.unorm in U. destruct (Decimal.nzhead (Decimal.D0 d)) eqn:En; try discriminate.
    + injection U as <-. cbn in E. discriminate.
    + exact (DecimalFacts.nzhead_nonzero _ _ En).
Qed.
Lemma decimal_int_str z : decimal z (int_str z).
Proof.
  unfold int_str. destruct z as [|p|p]; cbn [Z.to_int].
  - exists (lit "0"). repeat split; try discriminate. intros r K. injection K as <-. reflexivity.
  - exists (digits (Pos.to_uint p)). destruct (pos_short p) as [H1 H2]. repeat split; auto. rewrite uint_value, DecimalPos.Unsigned.of_to. reflexivity.
  - exists (digits (Pos.to_uint p)). destruct (pos_short p) as [H1 H2]. repeat split; auto. rewrite uint_value, DecimalPos.Unsigned.of_to. reflexivity.
Qed.
