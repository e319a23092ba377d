(** Proofs about isxml. *)
From Verif Require Import PyStr IsXml IsXmlSpec.
From Coq Require Import Lia Bool.
Local Open Scope N_scope.

Ltac Zify.zify_post_hook ::= Z.to_euclidean_division_equations.

Lemma in_range_spec lo hi b : in_range lo hi b = true <-> lo <= b <= hi.
Proof. unfold in_range. rewrite andb_true_iff, !N.leb_le. tauto. Qed.
Lemma in_range_false lo hi b : in_range lo hi b = false <-> b < lo \/ hi < b.
Proof. unfold in_range. rewrite andb_false_iff, !N.leb_gt. tauto. Qed.

Ltac rng := repeat match goal with
  | H : in_range _ _ _ = true |- _ => apply in_range_spec in H
  | H : in_range _ _ _ = false |- _ => apply in_range_false in H
  | H : (_ <? _) = true |- _ => apply N.ltb_lt in H
  | H : (_ <? _) = false |- _ => apply N.ltb_ge in H
  | H : (_ <=? _) = true |- _ => apply N.leb_le in H
  | H : (_ <=? _) = false |- _ => apply N.leb_gt in H
  | H : (_ && _) = true |- _ => apply andb_true_iff in H as [? ?]
  | H : negb _ = true |- _ => apply negb_true_iff in H
  end.

(** ** UTF-8 *)
Lemma utf8_cons c u : utf8 (c :: u) = utf8_char c ++ utf8 u.
Proof. reflexivity. Qed.
Lemma decode_char c r : scalar c -> utf8_decode (utf8_char c ++ r) = cons_opt c (utf8_decode r).
Proof.
  intros Hc. unfold utf8_char. destruct (c <? 0x80) eqn:E1.
  { cbn [app utf8_decode]. rewrite E1. reflexivity. }
  rng. destruct (c <? 0x800) eqn:E2; rng.
  { cbn [app utf8_decode]. set (b1 := 192 + c / 64). set (b2 := 128 + c mod 64).
    assert (H1 : (b1 <? 128) = false) by (apply N.ltb_ge; unfold b1; lia).
    assert (H2 : in_range 194 223 b1 = true) by (apply in_range_spec; unfold b1; lia).
    assert (H3 : is_cont b2 = true) by (apply in_range_spec; unfold b2; lia).
    rewrite H1, H2, H3. f_equal. unfold b1, b2. lia. }
  destruct (c <? 0x10000) eqn:E3; rng.
  { cbn [app utf8_decode]. set (b1 := 224 + c / 4096). set (b2 := 128 + (c / 64) mod 64). set (b3 := 128 + c mod 64).
    assert (H1 : (b1 <? 128) = false) by (apply N.ltb_ge; unfold b1; lia).
    assert (H2 : in_range 194 223 b1 = false) by (apply in_range_false; unfold b1; lia).
    assert (H2' : in_range 224 239 b1 = true) by (apply in_range_spec; unfold b1; lia).
    assert (H3 : is_cont b2 = true) by (apply in_range_spec; unfold b2; lia).
    assert (H4 : is_cont b3 = true) by (apply in_range_spec; unfold b3; lia).
    assert (H5 : ((b1 - 224) * 64 + (b2 - 128)) * 64 + (b3 - 128) = c) by (unfold b1, b2, b3; lia).
    rewrite H1, H2, H2', H3, H4, H5. assert (H6 : (2048 <=? c) = true) by (apply N.leb_le; lia).
    assert (H7 : is_surrogate c = false) by (apply in_range_false; destruct Hc; lia). rewrite H6, H7. reflexivity. }
  { cbn [app utf8_decode]. set (b1 := 240 + c / 262144). set (b2 := 128 + (c / 4096) mod 64). set (b3 := 128 + (c / 64) mod 64). set (b4 := 128 + c mod 64).
    assert (Hm : c < 1114112) by (destruct Hc; lia).
    assert (H1 : (b1 <? 128) = false) by (apply N.ltb_ge; unfold b1; lia).
    assert (H2 : in_range 194 223 b1 = false) by (apply in_range_false; unfold b1; lia).
    assert (H2' : in_range 224 239 b1 = false) by (apply in_range_false; unfold b1; lia).
    assert (H2'' : in_range 240 244 b1 = true) by (apply in_range_spec; unfold b1; lia).
    assert (H3 : is_cont b2 = true) by (apply in_range_spec; unfold b2; lia).
    assert (H4 : is_cont b3 = true) by (apply in_range_spec; unfold b3; lia).
    assert (H4' : is_cont b4 = true) by (apply in_range_spec; unfold b4; lia).
    assert (H5 : (((b1 - 240) * 64 + (b2 - 128)) * 64 + (b3 - 128)) * 64 + (b4 - 128) = c) by (unfold b1, b2, b3, b4; lia).
    rewrite H1, H2, H2', H2'', H3, H4, H4', H5. assert (H6 : in_range 65536 1114111 c = true) by (apply in_range_spec; lia).
    rewrite H6. reflexivity. }
Qed.
Lemma decode_utf8 u : Forall scalar u -> utf8_decode (utf8 u) = Some u.
Proof.
  induction 1 as [|c u Hc _ IH]; [reflexivity|]. unfold utf8 in *. cbn [flat_map]. rewrite decode_char, IH by exact Hc. reflexivity.
Qed.
Lemma cons_opt_some c r u : cons_opt c r = Some u -> exists v, r = Some v /\ u = c :: v.
Proof. destruct r; [|discriminate]. intros H. inversion H. eauto. Qed.
Lemma utf8_of_decode n : forall bs u, (length bs <= n)%nat -> utf8_decode bs = Some u -> bs = utf8 u /\ Forall scalar u.
Proof.
  induction n as [|n IH]; intros bs u Hn H.
  { destruct bs; [|inversion Hn]. inversion H; subst. split; [reflexivity|constructor]. }
  destruct bs as [|b1 r1]; [inversion H; subst; split; [reflexivity|constructor]|]. cbn [utf8_decode length] in *.
  destruct (b1 <? 128) eqn:E1.
  { apply cons_opt_some in H as (v & H & ->). apply IH in H as (-> & Hf); [|lia]. split.
    - rewrite utf8_cons. unfold utf8_char. rewrite E1. reflexivity.
    - constructor; [left; rng; lia|exact Hf]. }
  destruct (in_range 194 223 b1) eqn:E2.
  { destruct r1 as [|b2 r2]; [discriminate|]. destruct (is_cont b2) eqn:E3; [|discriminate]. unfold is_cont in E3. rng.
    apply cons_opt_some in H as (v & H & ->). apply IH in H as (-> & Hf); [|cbn [length] in Hn; lia]. set (c := (b1 - 192) * 64 + (b2 - 128)). split.
    - rewrite utf8_cons. unfold utf8_char. assert (H1 : (c <? 128) = false) by (apply N.ltb_ge; unfold c; lia).
      assert (H2 : (c <? 2048) = true) by (apply N.ltb_lt; unfold c; lia). rewrite H1, H2.
      assert (H3 : 192 + c / 64 = b1) by (unfold c; lia). assert (H4 : 128 + c mod 64 = b2) by (unfold c; lia). rewrite H3, H4. reflexivity.
    - constructor; [left; unfold c; lia|exact Hf]. }
  destruct (in_range 224 239 b1) eqn:E3.
  { destruct r1 as [|b2 [|b3 r3]]; try discriminate. set (c := ((b1 - 224) * 64 + (b2 - 128)) * 64 + (b3 - 128)) in *.
    destruct (is_cont b2 && is_cont b3 && (2048 <=? c) && negb (is_surrogate c)) eqn:E4; [|discriminate].
    unfold is_cont, is_surrogate in E4. rng.
    apply cons_opt_some in H as (v & H & ->). apply IH in H as (-> & Hf); [|cbn [length] in Hn; lia]. split.
    - rewrite utf8_cons. unfold utf8_char. assert (G1 : (c <? 128) = false) by (apply N.ltb_ge; lia).
      assert (G2 : (c <? 2048) = false) by (apply N.ltb_ge; lia). assert (G3 : (c <? 65536) = true) by (apply N.ltb_lt; unfold c; lia).
      rewrite G1, G2, G3.
      assert (H3' : 224 + c / 4096 = b1) by (unfold c; lia). assert (H4' : 128 + (c / 64) mod 64 = b2) by (unfold c; lia).
      assert (H5' : 128 + c mod 64 = b3) by (unfold c; lia). rewrite H3', H4', H5'. reflexivity.
    - constructor; [|exact Hf]. assert (c < 65536) by (unfold c; lia). clearbody c. unfold scalar. lia. }
  destruct (in_range 240 244 b1) eqn:E4; [|discriminate].
  destruct r1 as [|b2 [|b3 [|b4 r4]]]; try discriminate. set (c := (((b1 - 240) * 64 + (b2 - 128)) * 64 + (b3 - 128)) * 64 + (b4 - 128)) in *.
  destruct (is_cont b2 && is_cont b3 && is_cont b4 && in_range 65536 1114111 c) eqn:E5; [|discriminate].
  unfold is_cont in E5. rng.
  apply cons_opt_some in H as (v & H & ->). apply IH in H as (-> & Hf); [|cbn [length] in Hn; lia]. split.
  - rewrite utf8_cons. unfold utf8_char. assert (H1' : (c <? 128) = false) by (apply N.ltb_ge; lia).
    assert (H2' : (c <? 2048) = false) by (apply N.ltb_ge; lia). assert (H3' : (c <? 65536) = false) by (apply N.ltb_ge; lia).
    rewrite H1', H2', H3'.
    assert (H4' : 240 + c / 262144 = b1) by (unfold c; lia). assert (H5' : 128 + (c / 4096) mod 64 = b2) by (unfold c; lia).
    assert (H6' : 128 + (c / 64) mod 64 = b3) by (unfold c; lia). assert (H7' : 128 + c mod 64 = b4) by (unfold c; lia). rewrite H4', H5', H6', H7'. reflexivity.
  - constructor; [|exact Hf]. clearbody c. unfold scalar. lia.
Qed.
Lemma utf8_iff bs u : utf8_decode bs = Some u <-> bs = utf8 u /\ Forall scalar u.
Proof.
  split; [intros H; eapply utf8_of_decode; [apply Nat.le_refl|exact H]|]. intros (-> & Hf). apply decode_utf8. exact Hf.
Qed.

(** ** UTF-16 and UTF-32 *)
Lemma unit_two big v : v < 65536 -> exists a b, two big v = [a; b] /\ unit16 big a b = v.
Proof. intros Hv. destruct big; do 2 eexists; (split; [reflexivity|]); cbn [unit16]; lia. Qed.
Lemma utf16_one big c r : scalar c -> utf16_units big (utf16_char big c ++ r) = cons_opt c (utf16_units big r).
Proof.
  intros Hc. unfold utf16_char. destruct (c <? 65536) eqn:E; rng.
  - destruct (unit_two big c E) as (a & b & -> & Hu). cbn [app utf16_units]. rewrite Hu.
    assert (H1 : in_range 56320 57343 c = false) by (apply in_range_false; destruct Hc; lia).
    assert (H2 : in_range 55296 56319 c = false) by (apply in_range_false; destruct Hc; lia). rewrite H1, H2. reflexivity.
  - set (u := 55296 + (c - 65536) / 1024). set (v := 56320 + (c - 65536) mod 1024).
    assert (Hm : c < 1114112) by (destruct Hc; lia).
    destruct (unit_two big u) as (a & b & -> & Hu); [unfold u; lia|]. destruct (unit_two big v) as (a' & b' & -> & Hv); [unfold v; lia|].
    cbn [app utf16_units]. rewrite Hu, Hv.
    assert (H1 : in_range 56320 57343 u = false) by (apply in_range_false; unfold u; lia).
    assert (H2 : in_range 55296 56319 u = true) by (apply in_range_spec; unfold u; lia).
    assert (H3 : in_range 56320 57343 v = true) by (apply in_range_spec; unfold v; lia).
    rewrite H1, H2, H3. f_equal. unfold u, v. lia.
Qed.
Lemma utf16_units_utf16 big u : Forall scalar u -> utf16_units big (utf16 big u) = Some u.
Proof. induction 1 as [|c u Hc _ IH]; [reflexivity|]. unfold utf16 in *. cbn [flat_map]. rewrite utf16_one, IH by exact Hc. reflexivity. Qed.
Lemma utf32_one big c r : scalar c -> utf32_units big (utf32_char big c ++ r) = cons_opt c (utf32_units big r).
Proof.
  intros Hc. assert (Hm : c < 1114112) by (destruct Hc; lia). unfold utf32_char.
  assert (H1 : (c <=? 1114111) = true) by (apply N.leb_le; lia). assert (H2 : is_surrogate c = false) by (apply in_range_false; destruct Hc; lia).
  destruct big; cbn [app utf32_units].
  - assert (H : ((0 * 256 + c / 65536) * 256 + (c / 256) mod 256) * 256 + c mod 256 = c) by lia. rewrite H, H1, H2. reflexivity.
  - assert (H : ((0 * 256 + c / 65536) * 256 + (c / 256) mod 256) * 256 + c mod 256 = c) by lia. rewrite H, H1, H2. reflexivity.
Qed.
Lemma utf32_units_utf32 big u : Forall scalar u -> utf32_units big (utf32 big u) = Some u.
Proof. induction 1 as [|c u Hc _ IH]; [reflexivity|]. unfold utf32 in *. cbn [flat_map]. rewrite utf32_one, IH by exact Hc. reflexivity. Qed.

(** ** The first character *)
Lemma xmlspace_white c : is_xmlspace c = true <-> white c.
Proof. unfold is_xmlspace, white. rewrite !orb_true_iff, !N.eqb_eq. tauto. Qed.
Lemma first_is_lt_spec u : first_is_lt u = true <-> starts_markup u.
Proof.
  split.
  - induction u as [|c u IH]; [discriminate|]. cbn [first_is_lt]. destruct (is_xmlspace c) eqn:E.
    + intros H. destruct (IH H) as (ws & r & -> & Hw). exists (c :: ws), r. split; [reflexivity|]. constructor; [apply xmlspace_white; exact E|exact Hw].
    + intros H. apply N.eqb_eq in H. subst. exists [], u. split; [reflexivity|constructor].
  - intros (ws & r & -> & Hw). induction Hw as [|c ws Hc _ IH]; [reflexivity|]. cbn [app first_is_lt]. apply xmlspace_white in Hc. rewrite Hc. exact IH.
Qed.

(** ** Signatures *)
Lemma be32_inj a b c d a' b' c' d' : byte a -> byte b -> byte c -> byte d -> byte a' -> byte b' -> byte c' -> byte d' ->
  be32 a b c d = be32 a' b' c' d' -> [a; b; c; d] = [a'; b'; c'; d'].
Proof.
  unfold byte, be32. intros. assert (a = a') by lia. subst. assert (b = b') by lia. subst. assert (c = c') by lia. subst. assert (d = d') by lia. subst. reflexivity.
Qed.
Definition be_list (l : list N) : N := match l with [a; b; c; d] => be32 a b c d | _ => 0 end.
Lemma be_values : map be_list signatures = [0x3C3F786D; 0x003C003F; 0x3C003F00; 0x4C6FA794; 0x0000003C; 0x3C000000; 0x00003C00; 0x003C0000].
Proof. reflexivity. Qed.
Lemma be_marks : map be_list (firstn 4 marks) = [0x0000FEFF; 0xFFFE0000; 0x0000FFFE; 0xFEFF0000].
Proof. reflexivity. Qed.
Definition all_bytes (l : list N) : bool := forallb (fun b => b <? 256) l.
Lemma all_bytes_spec l : all_bytes l = true -> Forall byte l.
Proof. intros H. apply Forall_forall. intros b Hb. unfold all_bytes in H. rewrite forallb_forall in H. apply H in Hb. apply N.ltb_lt. exact Hb. Qed.
Lemma sig_match l a b c d : Forall byte [a; b; c; d] -> forallb (fun s => all_bytes s && Nat.eqb (length s) 4) l = true ->
  existsb (N.eqb (be32 a b c d)) (map be_list l) = true <-> In [a; b; c; d] l.
Proof.
  intros Hb Hl. rewrite existsb_exists. rewrite forallb_forall in Hl. split.
  - intros (v & Hv & E). apply N.eqb_eq in E. subst v. apply in_map_iff in Hv as (s & Es & Hs). pose proof (Hl s Hs) as Hx.
    apply andb_true_iff in Hx as (H1 & H2). apply Nat.eqb_eq in H2. apply all_bytes_spec in H1.
    destruct s as [|x [|y [|z [|w [|]]]]]; try discriminate. cbn [be_list] in Es.
    inversion_clear H1 as [|? ? X1 H1']. inversion_clear H1' as [|? ? X2 H1'']. inversion_clear H1'' as [|? ? X3 H1'''].  inversion_clear H1''' as [|? ? X4 _].
    inversion_clear Hb as [|? ? Y1 Hb']. inversion_clear Hb' as [|? ? Y2 Hb'']. inversion_clear Hb'' as [|? ? Y3 Hb''']. inversion_clear Hb''' as [|? ? Y4 _].
    rewrite <- (be32_inj x y z w a b c d) by assumption. exact Hs.
  - intros H. exists (be32 a b c d). split; [|apply N.eqb_refl]. apply in_map_iff. exists [a; b; c; d]. split; [reflexivity|exact H].
Qed.

(** All byte strings of at least four bytes, by their beginning. *)
Lemma isxml_long a b c d r : Forall byte [a; b; c; d] ->
  isxml (a :: b :: c :: d :: r) =
    if existsb (N.eqb (be32 a b c d)) (map be_list signatures) then true
    else if existsb (N.eqb (be32 a b c d)) (map be_list (firstn 4 marks)) then smell (utf32_decode (a :: b :: c :: d :: r))
    else if (a =? 0xEF) && (b =? 0xBB) && (c =? 0xBF) then smell (utf8_decode (d :: r))
    else if ((a =? 0xFE) && (b =? 0xFF)) || ((a =? 0xFF) && (b =? 0xFE)) then smell (utf16_decode (a :: b :: c :: d :: r))
    else smell (utf8_decode (a :: b :: c :: d :: r)).
Proof.
  intros Hb. inversion_clear Hb as [|? ? Y1 Hb']. inversion_clear Hb' as [|? ? Y2 Hb'']. inversion_clear Hb'' as [|? ? Y3 Hb''']. inversion_clear Hb''' as [|? ? Y4 _].
  unfold byte in *. unfold isxml. rewrite be_values, be_marks. cbn [skipn].
  assert (H1 : (be32 a b c d / 256 =? 15711167) = ((a =? 239) && (b =? 187) && (c =? 191))).
  { apply eq_true_iff_eq. rewrite !andb_true_iff, !N.eqb_eq. unfold be32. split.
    - intros H. assert (a = 239) by lia. subst. assert (b = 187) by lia. subst. split; [split; reflexivity|]. lia.
    - intros ((-> & ->) & ->). lia. }
  assert (H2 : existsb (N.eqb (be32 a b c d / 65536)) [65279; 65534] = ((a =? 254) && (b =? 255)) || ((a =? 255) && (b =? 254))).
  { cbn [existsb]. rewrite orb_false_r. apply eq_true_iff_eq. rewrite !orb_true_iff, !andb_true_iff, !N.eqb_eq. unfold be32. split.
    - intros [H|H]; [left|right]; split; lia.
    - intros [(-> & ->)|(-> & ->)]; [left|right]; lia. }
  rewrite H1, H2. reflexivity.
Qed.

Lemma isxml_plain bs : Forall byte bs -> (forall s, In s signatures \/ In s marks -> ~ begins bs s) -> isxml bs = smell (utf8_decode bs).
Proof.
  intros Hb Hs. destruct bs as [|a [|b [|c [|d r]]]]; try reflexivity.
  assert (Hb4 : Forall byte [a; b; c; d]).
  { inversion_clear Hb as [|? ? Y1 Hb']. inversion_clear Hb' as [|? ? Y2 Hb'']. inversion_clear Hb'' as [|? ? Y3 Hb''']. inversion_clear Hb''' as [|? ? Y4 _]. repeat (constructor; [assumption|]). constructor. }
  rewrite isxml_long by exact Hb4.
  destruct (existsb (N.eqb (be32 a b c d)) (map be_list signatures)) eqn:E1.
  { apply sig_match in E1; [|exact Hb4|reflexivity]. exfalso. apply (Hs [a; b; c; d]); [left; exact E1|]. exists r. reflexivity. }
  destruct (existsb (N.eqb (be32 a b c d)) (map be_list (firstn 4 marks))) eqn:E2.
  { apply sig_match in E2; [|exact Hb4|reflexivity]. exfalso. apply (Hs [a; b; c; d]); [|exists r; reflexivity]. right.
    cbn [firstn marks In] in E2. cbn [marks In]. tauto. }
  destruct ((a =? 239) && (b =? 187) && (c =? 191)) eqn:E3.
  { apply andb_true_iff in E3 as (E3 & E4). apply andb_true_iff in E3 as (E3 & E5). apply N.eqb_eq in E3, E4, E5. subst. exfalso.
    apply (Hs [239; 187; 191]); [right; cbn; tauto|]. exists (d :: r). reflexivity. }
  destruct (((a =? 254) && (b =? 255)) || ((a =? 255) && (b =? 254))) eqn:E4; [|reflexivity].
  apply orb_true_iff in E4 as [E4|E4]; apply andb_true_iff in E4 as (E4 & E5); apply N.eqb_eq in E4, E5; subst; exfalso.
  - apply (Hs [254; 255]); [right; cbn; tauto|]. exists (c :: d :: r). reflexivity.
  - apply (Hs [255; 254]); [right; cbn; tauto|]. exists (c :: d :: r). reflexivity.
Qed.
Lemma smell_utf8 bs : smell (utf8_decode bs) = true <-> exists u, bs = utf8 u /\ Forall scalar u /\ starts_markup u.
Proof.
  split.
  - destruct (utf8_decode bs) as [u|] eqn:E; [|discriminate]. cbn [smell]. intros H. apply utf8_iff in E as (E & Hf).
    exists u. split; [exact E|]. split; [exact Hf|]. apply first_is_lt_spec. exact H.
  - intros (u & -> & Hf & Hm). rewrite decode_utf8 by exact Hf. cbn [smell]. apply first_is_lt_spec. exact Hm.
Qed.
Lemma isxml_utf8 bs : Forall byte bs -> (forall s, In s signatures \/ In s marks -> ~ begins bs s) ->
  isxml bs = true <-> exists u, bs = utf8 u /\ Forall scalar u /\ starts_markup u.
Proof. intros Hb Hs. rewrite isxml_plain by assumption. apply smell_utf8. Qed.

Lemma utf8_bytes u : Forall scalar u -> Forall byte (utf8 u).
Proof.
  induction 1 as [|c u Hc _ IH]; [constructor|]. unfold utf8. cbn [flat_map]. apply Forall_app. split; [|exact IH].
  assert (Hm : c < 1114112) by (destruct Hc; lia). unfold utf8_char.
  destruct (c <? 128) eqn:E1; rng; [constructor; [unfold byte; lia|constructor]|].
  destruct (c <? 2048) eqn:E2; rng; [repeat (constructor; [unfold byte; lia|]); constructor|].
  destruct (c <? 65536) eqn:E3; rng; repeat (constructor; [unfold byte; lia|]); constructor.
Qed.
Lemma utf8_inj u v : Forall scalar u -> Forall scalar v -> utf8 u = utf8 v -> u = v.
Proof. intros Hu Hv H. pose proof (decode_utf8 u Hu) as H1. rewrite H, decode_utf8 in H1 by exact Hv. congruence. Qed.

(** A text in UTF-8 that does not start with NUL or U+FEFF *)
Lemma utf8_nil u : utf8 u = [] -> u = [].
Proof.
  destruct u as [|c u]; [reflexivity|]. unfold utf8. cbn [flat_map]. unfold utf8_char.
  destruct (c <? 128); [discriminate|]. destruct (c <? 2048); [discriminate|]. destruct (c <? 65536); discriminate.
Qed.
Lemma utf8_head u b r : Forall scalar u -> utf8 u = b :: r -> b < 128 -> exists v, u = b :: v /\ r = utf8 v.
Proof.
  intros Hu H Hb. destruct u as [|c u]; [discriminate|]. rewrite utf8_cons in H. unfold utf8_char in H.
  destruct (c <? 128) eqn:E1; rng.
  - inversion H; subst. exists u. split; reflexivity.
  - exfalso. destruct (c <? 2048) eqn:E2; rng; [apply (f_equal (hd 0)) in H; cbn [app hd] in H; lia|]. destruct (c <? 65536) eqn:E3; rng; apply (f_equal (hd 0)) in H; cbn [app hd] in H; lia.
Qed.
Lemma utf8_head_range u b r : Forall scalar u -> utf8 u = b :: r -> b < 128 \/ (194 <= b /\ b <= 244).
Proof.
  intros Hu H. destruct u as [|c u]; [discriminate|]. rewrite utf8_cons in H. unfold utf8_char in H.
  inversion Hu as [|? ? Hc _]; subst. assert (Hm : c < 1114112) by (destruct Hc; lia).
  destruct (c <? 128) eqn:E1; rng; [apply (f_equal (hd 0)) in H; cbn [app hd] in H; left; lia|].
  destruct (c <? 2048) eqn:E2; rng; [apply (f_equal (hd 0)) in H; cbn [app hd] in H; lia|]. destruct (c <? 65536) eqn:E3; rng; apply (f_equal (hd 0)) in H; cbn [app hd] in H; lia.
Qed.
Lemma isxml_text u : Forall scalar u -> (forall r, u <> 0 :: r) -> (forall r, u <> 0xFEFF :: r) -> isxml (utf8 u) = true <-> starts_markup u.
Proof.
  intros Hu Hn Hbom.
  assert (Hdec : smell (utf8_decode (utf8 u)) = true <-> starts_markup u).
  { rewrite decode_utf8 by exact Hu. apply first_is_lt_spec. }
  destruct (utf8 u) as [|a [|b [|c [|d r]]]] eqn:E; try exact Hdec.
  assert (Hb : Forall byte (a :: b :: c :: d :: r)) by (rewrite <- E; apply utf8_bytes; exact Hu).
  assert (Hb4 : Forall byte [a; b; c; d]).
  { inversion_clear Hb as [|? ? Y1 Hb']. inversion_clear Hb' as [|? ? Y2 Hb'']. inversion_clear Hb'' as [|? ? Y3 Hb''']. inversion_clear Hb''' as [|? ? Y4 _]. repeat (constructor; [assumption|]). constructor. }
  assert (Hnul : a <> 0). { intros ->. destruct (utf8_head u 0 _ Hu E) as (v & -> & _); [lia|]. apply (Hn v). reflexivity. }
  pose proof (utf8_head_range u a _ Hu E) as Hra.
  assert (Hlt : a = 60 -> starts_markup u). { intros ->. destruct (utf8_head u 60 _ Hu E) as (v & -> & _); [lia|]. exists [], v. split; [reflexivity|constructor]. }
  rewrite isxml_long by exact Hb4.
  destruct (existsb (N.eqb (be32 a b c d)) (map be_list signatures)) eqn:E1.
  { apply sig_match in E1; [|exact Hb4|reflexivity]. split; [intros _|reflexivity]. apply Hlt.
    cbn [signatures In] in E1. repeat destruct E1 as [E1|E1]; try (inversion E1; congruence); try contradiction.
    (* "Lo" and two continuation bytes: not UTF-8 *)
    exfalso. inversion E1; subst. destruct (utf8_head u 76 _ Hu E) as (v & -> & Ev); [lia|]. inversion Hu as [|? ? _ Hv]; subst.
    symmetry in Ev. destruct (utf8_head v 111 _ Hv Ev) as (w & -> & Ew); [lia|]. inversion Hv as [|? ? _ Hw]; subst. symmetry in Ew.
    pose proof (utf8_head_range w 167 _ Hw Ew). lia. }
  destruct (existsb (N.eqb (be32 a b c d)) (map be_list (firstn 4 marks))) eqn:E2.
  { apply sig_match in E2; [|exact Hb4|reflexivity]. exfalso. cbn [firstn marks In] in E2.
    repeat destruct E2 as [E2|E2]; try contradiction; inversion E2; subst; lia. }
  destruct ((a =? 239) && (b =? 187) && (c =? 191)) eqn:E3.
  { exfalso. apply andb_true_iff in E3 as (E3 & E4). apply andb_true_iff in E3 as (E3 & E5). apply N.eqb_eq in E3, E4, E5. subst.
    destruct u as [|x u]; [discriminate|]. inversion Hu as [|? ? Hx Hu']; subst. rewrite utf8_cons in E. pose proof (decode_char x (utf8 u) Hx) as Hd.
    rewrite E, (decode_utf8 u Hu') in Hd. assert (Hz : utf8_decode (239 :: 187 :: 191 :: d :: r) = cons_opt 65279 (utf8_decode (d :: r))) by reflexivity.
    rewrite Hz in Hd. cbn [cons_opt] in Hd. apply cons_opt_some in Hd as (v & Hv & Heq). inversion Heq; subst. apply (Hbom v). reflexivity. }
  destruct (((a =? 254) && (b =? 255)) || ((a =? 255) && (b =? 254))) eqn:E4; [|exact Hdec].
  exfalso. apply orb_true_iff in E4 as [E4|E4]; apply andb_true_iff in E4 as (E4 & E5); apply N.eqb_eq in E4, E5; subst; lia.
Qed.

(** With a byte order mark *)
Lemma isxml_bom8 u : Forall scalar u -> isxml ([0xEF; 0xBB; 0xBF] ++ utf8 u) = true <-> starts_markup u.
Proof.
  intros Hu. cbn [app]. destruct (utf8 u) as [|d r] eqn:E.
  - apply utf8_nil in E. subst. split; [discriminate|]. intros (ws & r & H & _). destruct ws; discriminate.
  - assert (Hd : byte d) by (pose proof (utf8_bytes u Hu) as H; rewrite E in H; inversion H; assumption).
    rewrite isxml_long by (repeat (constructor; [unfold byte in *; lia|]); constructor).
    assert (E1 : existsb (N.eqb (be32 239 187 191 d)) (map be_list signatures) = false).
    { apply not_true_is_false. intros H. apply sig_match in H; [|repeat (constructor; [unfold byte in *; lia|]); constructor|reflexivity].
      cbn [signatures In] in H. repeat destruct H as [H|H]; try contradiction; inversion H. }
    assert (E2 : existsb (N.eqb (be32 239 187 191 d)) (map be_list (firstn 4 marks)) = false).
    { apply not_true_is_false. intros H. apply sig_match in H; [|repeat (constructor; [unfold byte in *; lia|]); constructor|reflexivity].
      cbn [firstn marks In] in H. repeat destruct H as [H|H]; try contradiction; inversion H. }
    rewrite E1, E2. cbn [N.eqb Pos.eqb andb]. rewrite <- E, decode_utf8 by exact Hu. apply first_is_lt_spec.
Qed.
Lemma isxml_mark32 big u : Forall scalar u -> isxml (mark32 big ++ utf32 big u) = true <-> starts_markup u.
Proof.
  intros Hu. rewrite <- first_is_lt_spec. destruct big; cbn [mark32 app]; rewrite isxml_long by (repeat (constructor; [unfold byte in *; lia|]); constructor).
  - assert (H : smell (utf32_decode (0 :: 0 :: 254 :: 255 :: utf32 true u)) = first_is_lt u) by (cbn [utf32_decode]; rewrite utf32_units_utf32 by exact Hu; reflexivity).
    rewrite H. reflexivity.
  - assert (H : smell (utf32_decode (255 :: 254 :: 0 :: 0 :: utf32 false u)) = first_is_lt u) by (cbn [utf32_decode]; rewrite utf32_units_utf32 by exact Hu; reflexivity).
    rewrite H. reflexivity.
Qed.
Lemma two_bytes big v : v < 65536 -> exists a b, two big v = [a; b] /\ byte a /\ byte b.
Proof. intros Hv. unfold two. destruct big; do 2 eexists; (split; [reflexivity|]); unfold byte; lia. Qed.
Lemma two_zero big v : two big v = [0; 0] -> v = 0.
Proof.
  intros H. pose proof (f_equal (hd 0) H) as H1. pose proof (f_equal (fun l => hd 0 (tl l)) H) as H2.
  destruct big; cbn [two hd tl] in H1, H2; clear H; lia.
Qed.
Lemma isxml_mark16 big u : Forall scalar u -> (forall r, u <> 0 :: r) -> isxml (mark16 big ++ utf16 big u) = true <-> starts_markup u.
Proof.
  intros Hu Hn. rewrite <- first_is_lt_spec.
  assert (Hlong : exists a b r, u <> [] -> utf16 big u = a :: b :: r /\ byte a /\ byte b /\ ~ (a = 0 /\ b = 0)).
  { destruct u as [|c u]; [exists 0, 0, []; congruence|]. inversion Hu as [|? ? Hc _]; subst. unfold utf16. cbn [flat_map]. unfold utf16_char.
    assert (Hm : c < 1114112) by (destruct Hc; lia). destruct (c <? 65536) eqn:E; rng.
    - destruct (two_bytes big c E) as (a & b & H & Ha & Hb). rewrite H. exists a, b. eexists. intros _. split; [reflexivity|]. split; [exact Ha|]. split; [exact Hb|].
      intros (-> & ->). apply (Hn u). f_equal. apply (two_zero big). exact H.
    - destruct (two_bytes big (55296 + (c - 65536) / 1024)) as (a & b & H & Ha & Hb); [lia|]. rewrite H. exists a, b. eexists. intros _.
      split; [reflexivity|]. split; [exact Ha|]. split; [exact Hb|]. intros (-> & ->). apply two_zero in H. lia. }
  destruct Hlong as (a & b & r & Hl). destruct u as [|c u].
  { split; [|discriminate]. destruct big; discriminate. }
  destruct Hl as (E & Ha & Hb & Hz); [discriminate|]. 
  assert (Hdec : smell (utf16_decode (mark16 big ++ utf16 big (c :: u))) = first_is_lt (c :: u)).
  { destruct big; cbn [mark16 app utf16_decode]; rewrite utf16_units_utf16 by exact Hu; reflexivity. }
  rewrite <- Hdec. rewrite E. 
  assert (Hbs : Forall byte (mark16 big ++ [a; b])) by (destruct big; cbn [mark16 app]; repeat (constructor; [first [assumption|unfold byte; lia]|]); constructor).
  destruct big; cbn [mark16 app] in *; rewrite isxml_long by exact Hbs.
  - assert (E1 : existsb (N.eqb (be32 254 255 a b)) (map be_list signatures) = false).
    { apply not_true_is_false. intros H. apply sig_match in H; [|exact Hbs|reflexivity].
      cbn [signatures In] in H. repeat destruct H as [H|H]; try contradiction; inversion H. }
    assert (E2 : existsb (N.eqb (be32 254 255 a b)) (map be_list (firstn 4 marks)) = false).
    { apply not_true_is_false. intros H. apply sig_match in H; [|exact Hbs|reflexivity].
      cbn [firstn marks In] in H. repeat destruct H as [H|H]; try contradiction; inversion H; subst; apply Hz; auto. }
    rewrite E1, E2. cbn [N.eqb Pos.eqb andb orb]. reflexivity.
  - assert (E1 : existsb (N.eqb (be32 255 254 a b)) (map be_list signatures) = false).
    { apply not_true_is_false. intros H. apply sig_match in H; [|exact Hbs|reflexivity].
      cbn [signatures In] in H. repeat destruct H as [H|H]; try contradiction; inversion H. }
    assert (E2 : existsb (N.eqb (be32 255 254 a b)) (map be_list (firstn 4 marks)) = false).
    { apply not_true_is_false. intros H. apply sig_match in H; [|exact Hbs|reflexivity].
      cbn [firstn marks In] in H. repeat destruct H as [H|H]; try contradiction; inversion H; subst; apply Hz; auto. }
    rewrite E1, E2. cbn [N.eqb Pos.eqb andb orb]. reflexivity.
Qed.
Lemma isxml_signature s r : In s signatures -> isxml (s ++ r) = true.
Proof. intros H. cbn [signatures In] in H. repeat destruct H as [<-|H]; try contradiction; reflexivity. Qed.
