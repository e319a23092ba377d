(** A second, equivalent presentation of the parser model, on the unread part of
    the window instead of a window and a position.  It is a proof device: all
    properties are stated about Parser.v and transferred through
    [iter_sim]/[send_sim] below. *)
From Verif Require Import PyStr CharClass Parser.
Local Open Scope N_scope.

Fixpoint takew (p : chr -> bool) (s : str) : str :=
  match s with [] => [] | c :: s' => if p c then c :: takew p s' else [] end.
Fixpoint dropw (p : chr -> bool) (s : str) : str :=
  match s with [] => [] | c :: s' => if p c then dropw p s' else s end.

Inductive sref := SROk (c : chr) (rest : str) | SRNeed | SRRaise (e : exn).

Definition s_charcheck (n : N) (r : str) : sref :=
  if 0x80000000 <=? n then SRRaise OverflowErr
  else if 0x110000 <=? n then SRRaise ValueErr
  else if is_character n then SROk n r else SRRaise RtBadCharRef.

Definition s_hexref (s : str) : sref :=
  match dropw is_hex s with
  | [] => SRNeed
  | c :: r =>
      if c =? c_semi then
        match int16 (takew is_hex s) with
        | None => SRRaise ValueErr
        | Some n => s_charcheck n r
        end
      else SRRaise RtIllegalInCharRef
  end.

Definition s_namedref (s : str) : sref :=
  match dropw is_alnum s with
  | [] => SRNeed
  | c :: r =>
      if c =? c_semi then
        match lookup_charname charnames (takew is_alnum s) with
        | Some x => SROk x r
        | None => SRRaise RtUnknownRef
        end
      else SRNeed
  end.

Definition s_ref (s : str) : sref :=
  match s with
  | [] => SRNeed
  | c :: s' =>
      if c =? c_hash then
        match s' with
        | [] => SRNeed
        | c2 :: s'' => if c2 =? c_x then s_hexref s'' else s_namedref s
        end
      else s_namedref s
  end.

Inductive scd := SCDone (cdata : str) (rest : str) | SCNeed | SCRaise (e : exn).
Definition scd_app (l : str) (r : scd) : scd :=
  match r with SCDone d x => SCDone (l ++ d) x | other => other end.

Fixpoint s_cdata_f (fuel : nat) (p : chr -> bool) (stop : str) (s : str) : scd :=
  match fuel with
  | O => SCNeed
  | S fuel' =>
      match s with
      | [] => SCNeed
      | c :: s' =>
          if p c then scd_app [c] (s_cdata_f fuel' p stop s')
          else if char_in c stop then SCDone [] s
          else if c =? c_amp then
            match s_ref s' with
            | SROk r rest => scd_app [r] (s_cdata_f fuel' p stop rest)
            | SRNeed => SCNeed
            | SRRaise e => SCRaise e
            end
          else s_cdata_f fuel' p stop s'
      end
  end.
Definition s_cdata (p : chr -> bool) (stop : str) (s : str) : scd := s_cdata_f (length s) p stop s.

Record sst := mkS {
  rest : str; sc : pstate; sgi : str; spend : pend_ev; sstk : list str; satt : dict str }.

Definition s_noa (done : bool) (s : sst) : flow sst := if done then Again s [] else Need s [].
Definition w_rest (s : sst) r := mkS r (sc s) (sgi s) (spend s) (sstk s) (satt s).
Definition w_sc (s : sst) c := mkS (rest s) c (sgi s) (spend s) (sstk s) (satt s).
Definition w_pend (s : sst) p := mkS (rest s) (sc s) (sgi s) p (sstk s) (satt s).

Definition s_pre_element (done : bool) (s : sst) : flow sst :=
  match sc s with
  | PreElement =>
      match dropw is_ws (rest s) with
      | [] => s_noa done (w_rest s [])
      | c :: r => if c =? c_lt then Fall (w_sc (w_rest s r) PreTagGi) []
                  else Fall (w_rest s (c :: r)) []
      end
  | _ => Fall s []
  end.

Definition s_tag_body (done : bool) (s : sst) : flow sst :=
  match dropw is_ws (rest s) with
  | [] => s_noa done (w_rest s [])
  | c :: r =>
      if (match sc s with PreTagGi => true | _ => false end) && (c =? c_slash) then
        Again (w_pend (w_sc (w_rest s r) PreCompleteTagGi) PendEnd) []
      else if is_namestart c then
        match dropw is_namechar r with
        | [] => s_noa done (w_rest s (c :: r))
        | r' => Fall (mkS r' CompleteTag (c :: takew is_namechar r) (spend s) (sstk s) (satt s)) []
        end
      else Fall (mkS (c :: r) CompleteTag [] (spend s) (sstk s) (satt s)) []
  end.

Definition s_tag (done : bool) (s : sst) : flow sst :=
  match sc s with
  | PreTagGi => s_tag_body done (w_pend s PendStart)
  | PreCompleteTagGi => s_tag_body done (w_pend s PendEnd)
  | _ => Fall s []
  end.

Definition s_after_gt (done : bool) (s : sst) (evs : list event) : flow sst :=
  match rest s with
  | [] => if done then Break s evs else Need s evs
  | _ => Fall s evs
  end.

Definition s_complete_tag (done : bool) (s : sst) : flow sst :=
  match sc s with
  | CompleteTag =>
      match dropw is_ws (rest s) with
      | [] => s_noa done (w_rest s [])
      | c :: r =>
          if (match spend s with PendStart => true | PendEnd => false end) && is_namestart c then
            Again (w_sc (w_rest s (c :: r)) Attribute) []
          else if c =? c_gt then
            match spend s with
            | PendStart =>
                s_after_gt done (mkS r InElement (sgi s) (spend s) (sgi s :: sstk s) [])
                  [EvStart (sgi s) (satt s) (rev (sstk s))]
            | PendEnd =>
                match sstk s with
                | [] => Raise IndexErr []
                | opened :: stk =>
                    if str_eqb opened (sgi s) then
                      s_after_gt done
                        (mkS r (match stk with [] => CompleteDoc | _ => InElement end)
                           (sgi s) (spend s) stk [])
                        [EvEnd (sgi s) (rev stk)]
                    else Raise RtExpectedClose []
                end
            end
          else Raise RtExpectedGt []
      end
  | _ => Fall s []
  end.

Definition s_attribute (done : bool) (s : sst) : flow sst :=
  match sc s with
  | Attribute =>
      match rest s with
      | [] => s_noa done s (* not reachable: the position is at a character *)
      | c0 :: r0 =>
          match dropw is_namechar r0 with
          | [] => s_noa done s
          | r1 =>
              match dropw is_ws r1 with
              | [] => s_noa done s
              | c :: r2 =>
                  if c =? c_eq then
                    match r2 with
                    | [] => if done then Raise IndexErr [] else Need s []
                    | q :: r3 =>
                        if is_quote q then
                          match s_cdata (attr_pat q) [q] r3 with
                          | SCNeed => s_noa done (w_rest s r2)
                          | SCRaise e => Raise e []
                          | SCDone v r4 =>
                              Fall (mkS (tl r4) CompleteTag (sgi s) (spend s) (sstk s)
                                      (dict_set (satt s) (c0 :: takew is_namechar r0) v)) []
                          end
                        else Fall (w_rest s r2) []
                    end
                  else Raise RtExpectedEq []
              end
          end
      end
  | _ => Fall s []
  end.

Definition s_in_element (done : bool) (s : sst) : flow sst :=
  match sc s with
  | InElement =>
      match s_cdata is_datachar [c_lt] (rest s) with
      | SCNeed => s_noa done s
      | SCRaise e => Raise e []
      | SCDone chars r =>
          Fall (w_sc (w_rest s (tl r)) PreTagGi) (match chars with [] => [] | _ => [EvChars chars] end)
      end
  | _ => Fall s []
  end.

Definition s_complete_doc (done : bool) (s : sst) : flow sst :=
  match sc s with
  | CompleteDoc =>
      match rest s with
      | [] => Break s []
      | _ =>
          match dropw is_ws (rest s) with
          | [] => s_noa done (w_rest s [])
          | _ => Raise RtJunk []
          end
      end
  | _ => Fall s []
  end.

Definition siter (done : bool) (s : sst) : flow sst :=
  and_then (s_pre_element done s) (fun s =>
  and_then (s_tag done s) (fun s =>
  and_then (s_complete_tag done s) (fun s =>
  and_then (s_attribute done s) (fun s =>
  and_then (s_in_element done s) (fun s =>
  s_complete_doc done s))))).

(** ** Basic facts about spans *)
Lemma takew_dropw p s : takew p s ++ dropw p s = s.
Proof. induction s as [|c s IH]; cbn; auto. destruct (p c); cbn; congruence. Qed.

Lemma span_len_takew p s : span_len p s = length (takew p s).
Proof. induction s as [|c s IH]; cbn; auto. destruct (p c); cbn; congruence. Qed.

Lemma dropw_length p s : (length (dropw p s) <= length s)%nat.
Proof. induction s as [|c s IH]; cbn; auto. destruct (p c); cbn; lia. Qed.

Lemma dropw_head p s c r : dropw p s = c :: r -> p c = false.
Proof.
  induction s as [|x s IH]; cbn; [discriminate|]. destruct (p x) eqn:E; auto.
  intros H; inversion H; subst; auto.
Qed.

Lemma takew_all p s : forallb p (takew p s) = true.
Proof. induction s as [|c s IH]; cbn; auto. destruct (p c) eqn:E; cbn; auto. rewrite E; auto. Qed.

Lemma dropw_skip p a s : forallb p a = true -> dropw p (a ++ s) = dropw p s.
Proof. induction a as [|c a IH]; cbn; auto. destruct (p c); cbn; [auto|discriminate]. Qed.
Lemma takew_skip p a s : forallb p a = true -> takew p (a ++ s) = a ++ takew p s.
Proof. induction a as [|c a IH]; cbn; auto. destruct (p c); cbn; [intros; f_equal; auto|discriminate]. Qed.

Lemma dropw_app p s f c r : dropw p s = c :: r -> dropw p (s ++ f) = c :: r ++ f.
Proof. induction s as [|x s IH]; cbn; [discriminate|]. destruct (p x); auto. intros H; inversion H; auto. Qed.
Lemma takew_app p s f c r : dropw p s = c :: r -> takew p (s ++ f) = takew p s.
Proof. induction s as [|x s IH]; cbn; [discriminate|]. destruct (p x); auto. intros; f_equal; auto. Qed.
Lemma dropw_nil_app p s f : dropw p s = [] -> dropw p (s ++ f) = dropw p f.
Proof. induction s as [|x s IH]; cbn; auto. destruct (p x); auto. discriminate. Qed.
Lemma dropw_nil_all p s : dropw p s = [] -> forallb p s = true.
Proof. induction s as [|x s IH]; cbn; auto. destruct (p x); auto; discriminate. Qed.

(** ** The literal model on a window [a ++ r] with position [length a] *)
Lemma skipn_here (a r : str) : skipn (length a) (a ++ r) = r.
Proof. induction a; cbn; auto. Qed.

Lemma scan_here p a r : scan p (a ++ r) (length a) = length (a ++ takew p r).
Proof. unfold scan. rewrite skipn_here, span_len_takew, app_length. reflexivity. Qed.

Lemma nth_here (a r : str) : nth_error (a ++ r) (length a) = hd_error r.
Proof. induction a; cbn; auto. Qed.

Lemma nth_scan p a r :
  nth_error (a ++ r) (scan p (a ++ r) (length a)) = hd_error (dropw p r).
Proof.
  rewrite scan_here. rewrite <- (takew_dropw p r) at 1. rewrite app_assoc. apply nth_here.
Qed.

Lemma slice_here (a b r : str) : slice (a ++ b ++ r) (length a) (length (a ++ b)) = b.
Proof.
  unfold slice. rewrite skipn_here, app_length.
  replace (length a + length b - length a)%nat with (length b) by lia.
  rewrite firstn_app, Nat.sub_diag, firstn_all. cbn. apply app_nil_r.
Qed.

Lemma slice_scan p a r :
  slice (a ++ r) (length a) (scan p (a ++ r) (length a)) = takew p r.
Proof.
  rewrite scan_here. rewrite <- (takew_dropw p r) at 1. apply slice_here.
Qed.

(** How results of the literal model correspond to results on the unread part. *)
Definition ref_abs (w : str) (r : refres) : sref :=
  match r with
  | RefOk c cur => SROk c (skipn (cur + 1) w)
  | RefNeed => SRNeed
  | RefRaise e => SRRaise e
  end.

Lemma skipn_next (a : str) c r : skipn (length a + 1) (a ++ c :: r) = r.
Proof. rewrite Nat.add_1_r. induction a; cbn; auto. Qed.

Lemma skipn_scan1 p a r c x :
  dropw p r = c :: x -> skipn (scan p (a ++ r) (length a) + 1) (a ++ r) = x.
Proof.
  intros H. rewrite scan_here. rewrite <- (takew_dropw p r) at 2. rewrite H, app_assoc.
  apply skipn_next.
Qed.

Lemma hexref_abs a r : ref_abs (a ++ r) (read_hexref (a ++ r) (length a)) = s_hexref r.
Proof.
  unfold read_hexref, s_hexref. cbv zeta. rewrite nth_scan, slice_scan.
  destruct (dropw is_hex r) as [|c x] eqn:E; cbn [hd_error]; [reflexivity|].
  destruct (c =? c_semi); [|reflexivity].
  destruct (int16 (takew is_hex r)) as [n|]; [|reflexivity].
  unfold s_charcheck.
  destruct (0x80000000 <=? n); [reflexivity|]. destruct (0x110000 <=? n); [reflexivity|].
  destruct (is_character n); [|reflexivity].
  cbn [ref_abs]. erewrite skipn_scan1 by exact E. reflexivity.
Qed.

Lemma namedref_abs a r : ref_abs (a ++ r) (read_namedref (a ++ r) (length a)) = s_namedref r.
Proof.
  unfold read_namedref, s_namedref. cbv zeta. rewrite nth_scan, slice_scan.
  destruct (dropw is_alnum r) as [|c x] eqn:E; cbn [hd_error]; [reflexivity|].
  destruct (c =? c_semi); [|reflexivity].
  destruct (lookup_charname charnames (takew is_alnum r)) as [n|]; [|reflexivity].
  cbn [ref_abs]. erewrite skipn_scan1 by exact E. reflexivity.
Qed.

Lemma app_cons_assoc {A} (a : list A) c r : a ++ c :: r = (a ++ [c]) ++ r.
Proof. rewrite <- app_assoc. reflexivity. Qed.
Lemma length_app1 {A} (a : list A) c : length (a ++ [c]) = (length a + 1)%nat.
Proof. rewrite app_length. reflexivity. Qed.

Lemma ref_abs_eq a r : ref_abs (a ++ r) (read_ref (a ++ r) (length a)) = s_ref r.
Proof.
  unfold read_ref, s_ref. rewrite nth_here.
  destruct r as [|c r]; cbn [hd_error]; [reflexivity|].
  destruct (c =? c_hash); [|apply namedref_abs].
  rewrite (app_cons_assoc a c r), <- (length_app1 a c), nth_here.
  destruct r as [|c2 r]; cbn [hd_error]; [reflexivity|].
  destruct (c2 =? c_x).
  - replace (length a + 2)%nat with (length ((a ++ [c]) ++ [c2])) by (rewrite !length_app1; lia).
    rewrite (app_cons_assoc (a ++ [c])). apply hexref_abs.
  - rewrite <- app_cons_assoc. apply namedref_abs.
Qed.

Definition cd_abs (w : str) (r : cdres) : option scd :=
  match r with
  | CDone d cur => Some (SCDone d (skipn cur w))
  | CNeed => Some SCNeed
  | CRaise e => Some (SCRaise e)
  | CFuel => None
  end.

(** Where a reference ends: it consumes at least one character. *)
Lemma s_hexref_suffix r c x : s_hexref r = SROk c x -> exists b, r = b ++ x /\ b <> [].
Proof.
  unfold s_hexref, s_charcheck. destruct (dropw is_hex r) as [|d y] eqn:E; [discriminate|].
  destruct (d =? c_semi); [|discriminate].
  destruct (int16 _) as [n|]; [|discriminate].
  destruct (0x80000000 <=? n); [discriminate|]. destruct (0x110000 <=? n); [discriminate|].
  destruct (is_character n); [|discriminate]. intros H; inversion H; subst.
  exists (takew is_hex r ++ [d]). rewrite <- app_assoc. cbn. rewrite <- E, takew_dropw.
  split; auto. intros X; apply app_eq_nil in X as [_ X]; discriminate.
Qed.
Lemma s_namedref_suffix r c x : s_namedref r = SROk c x -> exists b, r = b ++ x /\ b <> [].
Proof.
  unfold s_namedref. destruct (dropw is_alnum r) as [|d y] eqn:E; [discriminate|].
  destruct (d =? c_semi); [|discriminate].
  destruct (lookup_charname _ _) as [n|]; [|discriminate].
  intros H; inversion H; subst.
  exists (takew is_alnum r ++ [d]). rewrite <- app_assoc. cbn. rewrite <- E, takew_dropw.
  split; auto. intros X; apply app_eq_nil in X as [_ X]; discriminate.
Qed.
Lemma s_ref_suffix r c x : s_ref r = SROk c x -> exists b, r = b ++ x /\ b <> [].
Proof.
  unfold s_ref. destruct r as [|d r]; [discriminate|].
  destruct (d =? c_hash); [|apply s_namedref_suffix].
  destruct r as [|d2 r]; [discriminate|].
  destruct (d2 =? c_x); [|apply s_namedref_suffix].
  intros H; apply s_hexref_suffix in H as (b & -> & _).
  exists (d :: d2 :: b); split; [reflexivity|discriminate].
Qed.
Lemma s_ref_length r c x : s_ref r = SROk c x -> (length x < length r)%nat.
Proof.
  intros H; apply s_ref_suffix in H as (b & -> & Hb). rewrite app_length.
  destruct b; [congruence|cbn; lia].
Qed.

(** Fuel does not matter for [s_cdata_f]. *)
Lemma s_cdata_f_fuel p stop : forall n m s,
  (length s <= n)%nat -> (length s <= m)%nat -> s_cdata_f n p stop s = s_cdata_f m p stop s.
Proof.
  induction n as [|n IH]; intros m s Hn Hm.
  - destruct s; [|cbn in Hn; lia]. destruct m; reflexivity.
  - destruct m as [|m]. { destruct s; [reflexivity|cbn in Hm; lia]. }
    cbn [s_cdata_f]. destruct s as [|c s]; [reflexivity|]. cbn in Hn, Hm.
    destruct (p c). { f_equal. apply IH; lia. }
    destruct (char_in c stop); [reflexivity|].
    destruct (c =? c_amp).
    + destruct (s_ref s) as [r x| |e] eqn:E; try reflexivity.
      apply s_ref_length in E. f_equal. apply IH; lia.
    + apply IH; lia.
Qed.

(** The defining equation of [s_cdata]. *)
Lemma s_cdata_eq p stop s :
  s_cdata p stop s =
  match s with
  | [] => SCNeed
  | c :: s' =>
      if p c then scd_app [c] (s_cdata p stop s')
      else if char_in c stop then SCDone [] s
      else if c =? c_amp then
        match s_ref s' with
        | SROk r x => scd_app [r] (s_cdata p stop x)
        | SRNeed => SCNeed
        | SRRaise e => SCRaise e
        end
      else s_cdata p stop s'
  end.
Proof.
  unfold s_cdata. destruct s as [|c s]; [reflexivity|]. cbn [length s_cdata_f].
  destruct (p c); [reflexivity|]. destruct (char_in c stop); [reflexivity|].
  destruct (c =? c_amp); [|reflexivity].
  destruct (s_ref s) as [r x| |e] eqn:E; try reflexivity.
  apply s_ref_length in E. f_equal. apply s_cdata_f_fuel; lia.
Qed.

Lemma scd_app_app a b r : scd_app a (scd_app b r) = scd_app (a ++ b) r.
Proof. destruct r; cbn; auto. rewrite app_assoc. reflexivity. Qed.
Lemma scd_app_nil r : scd_app [] r = r.
Proof. destruct r; reflexivity. Qed.

Lemma s_cdata_span p stop s :
  s_cdata p stop s = scd_app (takew p s) (s_cdata p stop (dropw p s)).
Proof.
  induction s as [|c s IH]; [reflexivity|].
  cbn [takew dropw]. destruct (p c) eqn:E.
  - rewrite s_cdata_eq, E, IH, scd_app_app. reflexivity.
  - rewrite scd_app_nil. reflexivity.
Qed.

Lemma cdata_loop_abs p stop : forall fuel a r cd,
  (length r < fuel)%nat ->
  cd_abs (a ++ r) (cdata_loop fuel p stop (a ++ r) cd (length a)) = Some (scd_app cd (s_cdata p stop r)).
Proof.
  induction fuel as [|fuel IH]; intros a r cd Hf; [lia|].
  cbn [cdata_loop]. cbv zeta. rewrite nth_scan, slice_scan.
  rewrite (s_cdata_span p stop r), scd_app_app.
  rewrite (s_cdata_eq p stop (dropw p r)).
  destruct (dropw p r) as [|c x] eqn:E; cbn [hd_error]; [reflexivity|].
  rewrite (dropw_head _ _ _ _ E).
  assert (Hr : r = takew p r ++ c :: x) by (rewrite <- E, takew_dropw; reflexivity).
  assert (Hlen : length r = (length (takew p r) + S (length x))%nat)
    by (rewrite Hr at 1; rewrite app_length; reflexivity).
  destruct (char_in c stop).
  { cbn [cd_abs scd_app]. rewrite app_nil_r. do 2 f_equal.
    rewrite scan_here. rewrite Hr at 2. rewrite app_assoc. apply skipn_here. }
  assert (Hw : a ++ r = (a ++ takew p r ++ [c]) ++ x).
  { rewrite Hr at 1. rewrite <- !app_assoc. reflexivity. }
  assert (Hs : (scan p (a ++ r) (length a) + 1)%nat = length (a ++ takew p r ++ [c])).
  { rewrite scan_here, !app_length. cbn. lia. }
  destruct (c =? c_amp).
  - rewrite Hs, Hw. pose proof (ref_abs_eq (a ++ takew p r ++ [c]) x) as Hra.
    remember (a ++ takew p r ++ [c]) as A eqn:HA.
    destruct (read_ref (A ++ x) (length A)) as [n cur| |e] eqn:Err; cbn [ref_abs] in Hra.
    + symmetry in Hra.
      pose proof (s_ref_suffix _ _ _ Hra) as (b & Hx & Hb).
      pose proof (s_ref_length _ _ _ Hra) as HL.
      rewrite Hra.
      remember (skipn (cur + 1) (A ++ x)) as y eqn:Hy.
      assert (Hyl : length y = (length (A ++ x) - (cur + 1))%nat) by (subst y; apply skipn_length).
      assert (Hc : (cur + 1)%nat = length (A ++ b) \/ (y = [] /\ length (A++x) <= cur + 1)%nat).
      { rewrite Hx in Hyl. rewrite !app_length in *.
        destruct y as [|y0 y]; [right; split; [auto|]|left].
        - cbn in Hyl. rewrite Hx, !app_length. cbn in *. lia.
        - cbn in *. lia. }
      destruct Hc as [Hc|[Hc1 Hc2]].
      * rewrite Hc, Hx, (app_assoc A b y). rewrite IH by lia.
        rewrite !scd_app_app, <- !app_assoc. reflexivity.
      * (* the reference ends the window *)
        rewrite Hc1 in *. rewrite app_nil_r in Hx. subst b.
        destruct fuel as [|fuel]; [lia|].
        cbn [cdata_loop]. unfold scan. rewrite skipn_all2 by lia. cbn [span_len].
        rewrite Nat.add_0_r.
        assert (HN : nth_error (A ++ x) (cur + 1) = None) by (apply nth_error_None; lia).
        rewrite HN. rewrite !scd_app_app. reflexivity.
    + rewrite <- Hra. reflexivity.
    + rewrite <- Hra. reflexivity.
  - rewrite Hs, Hw. rewrite IH by lia. reflexivity.
Qed.

Lemma handle_cdata_abs p stop a r :
  cd_abs (a ++ r) (handle_cdata (length a) (a ++ r) p stop) = Some (s_cdata p stop r).
Proof.
  unfold handle_cdata. rewrite cdata_loop_abs by (rewrite app_length; lia). rewrite scd_app_nil. reflexivity.
Qed.

(** ** Simulation of the loop body *)
Definition abs (s : pst) : sst :=
  mkS (skipn (pos s) (window s)) (cstate s) (gi s) (pend s) (stack s) (attribs s).

Definition flow_map {A B} (f : A -> B) (x : flow A) : flow B :=
  match x with
  | Fall s e => Fall (f s) e
  | Again s e => Again (f s) e
  | Need s e => Need (f s) e
  | Break s e => Break (f s) e
  | Raise e l => Raise e l
  end.

Definition flow_all {A} (P : A -> Prop) (x : flow A) : Prop :=
  match x with
  | Fall s e | Again s e | Need s e | Break s e => P s
  | Raise e l => True
  end.

Definition ok_in (w : str) (s : pst) : Prop := window s = w /\ (pos s <= length w)%nat.

Definition sim_to (w : str) (x : flow pst) (y : flow sst) : Prop :=
  flow_all (ok_in w) x /\ flow_map abs x = y.

Lemma skipn_scan p a r : skipn (scan p (a ++ r) (length a)) (a ++ r) = dropw p r.
Proof.
  rewrite scan_here. rewrite <- (takew_dropw p r) at 2. rewrite app_assoc. apply skipn_here.
Qed.

Lemma scan_le p a r : (scan p (a ++ r) (length a) <= length (a ++ r))%nat.
Proof.
  rewrite scan_here, !app_length. rewrite <- (takew_dropw p r) at 2. rewrite app_length. lia.
Qed.
Lemma scan_lt p a r c x :
  dropw p r = c :: x -> (scan p (a ++ r) (length a) + 1 <= length (a ++ r))%nat.
Proof.
  intros H. rewrite scan_here, !app_length. rewrite <- (takew_dropw p r) at 2.
  rewrite H, app_length. cbn. lia.
Qed.

Lemma ok_in_split w s : ok_in w s ->
  exists a r, w = a ++ r /\ length a = pos s /\ window s = a ++ r.
Proof.
  intros [H1 H2]. exists (firstn (pos s) w), (skipn (pos s) w).
  rewrite firstn_skipn, firstn_length. repeat split; auto. lia.
Qed.

Ltac start_sec s Hok a r :=
  let Hw := fresh "Hw" in let Hp := fresh "Hp" in let Hw2 := fresh "Hw2" in
  apply ok_in_split in Hok as (a & r & Hw & Hp & Hw2);
  destruct s as [w0 p0 cs0 g0 pe0 st0 at0]; cbn in Hp, Hw2; subst; unfold abs; cbn [pos window cstate gi pend stack attribs];
  rewrite skipn_here.

Lemma sim_noa w done s t : ok_in w s -> abs s = t -> sim_to w (need_or_again done s) (s_noa done t).
Proof. intros H <-. unfold need_or_again, s_noa. destruct done; split; cbn; auto. Qed.

Lemma sim_pre_element w done s : ok_in w s ->
  sim_to w (sec_pre_element done s) (s_pre_element done (abs s)).
Proof.
  intros Hok. start_sec s Hok a r.
  unfold sec_pre_element, s_pre_element; cbn [pos window cstate gi pend stack attribs sc rest].
  destruct cs0; try (split; [split; [reflexivity|cbn; rewrite app_length; lia]|cbn; unfold abs; cbn; rewrite skipn_here; reflexivity]).
  cbv zeta. rewrite nth_scan. destruct (dropw is_ws r) as [|c x] eqn:E; cbn [hd_error].
  - apply sim_noa. { split; [reflexivity|apply scan_le]. }
    unfold abs, w_rest; cbn. rewrite skipn_scan, E. reflexivity.
  - destruct (c =? c_lt).
    + split. { split; [reflexivity|cbn; eapply scan_lt; eauto]. }
      cbn. unfold abs, w_sc, w_rest; cbn. erewrite skipn_scan1 by eauto. reflexivity.
    + split. { split; [reflexivity|cbn; apply scan_le]. }
      cbn. unfold abs, w_rest; cbn. rewrite skipn_scan, E. reflexivity.
Qed.

Lemma sim_tag_body w done s : ok_in w s ->
  sim_to w (tag_body done s) (s_tag_body done (abs s)).
Proof.
  intros Hok. start_sec s Hok a r.
  unfold tag_body, s_tag_body; cbn [pos window cstate gi pend stack attribs sc rest spend sgi sstk satt].
  cbv zeta. rewrite nth_scan. destruct (dropw is_ws r) as [|c x] eqn:E; cbn [hd_error].
  - apply sim_noa. { split; [reflexivity|apply scan_le]. }
    unfold abs, w_rest; cbn. rewrite skipn_scan, E. reflexivity.
  - destruct ((match cs0 with PreTagGi => true | _ => false end) && (c =? c_slash)).
    { split. { split; [reflexivity|cbn; eapply scan_lt; eauto]. }
      cbn. unfold abs, w_sc, w_rest, w_pend; cbn. erewrite skipn_scan1 by eauto. reflexivity. }
    assert (Hw : a ++ r = (a ++ takew is_ws r) ++ c :: x).
    { rewrite <- app_assoc, <- E, takew_dropw. reflexivity. }
    rewrite scan_here. rewrite Hw. set (A := a ++ takew is_ws r).
    destruct (is_namestart c) eqn:En.
    + assert (HA : A ++ c :: x = (A ++ [c]) ++ x) by apply app_cons_assoc.
      replace (length A + 1)%nat with (length (A ++ [c])) by apply length_app1.
      rewrite HA, nth_scan.
      destruct (dropw is_namechar x) as [|c' x'] eqn:E2; cbn [hd_error].
      * apply sim_noa. { split; [reflexivity|cbn [pos set_pos]; rewrite !app_length; lia]. }
        unfold abs, w_rest; cbn. rewrite <- HA, skipn_here. reflexivity.
      * split. { split; [reflexivity|cbn; apply scan_le]. }
        cbn. unfold abs; cbn. rewrite skipn_scan, E2. f_equal. f_equal.
        rewrite scan_here. rewrite <- (takew_dropw is_namechar x) at 1.
        rewrite <- !app_assoc. cbn [app].
        change (c :: takew is_namechar x ++ dropw is_namechar x)
          with ((c :: takew is_namechar x) ++ dropw is_namechar x).
        apply slice_here.
    + rewrite nth_here. cbn [hd_error].
      split. { split; [reflexivity|cbn; rewrite app_length; lia]. }
      cbn. unfold abs; cbn. rewrite skipn_here. f_equal. f_equal.
      unfold slice. rewrite Nat.sub_diag. reflexivity.
Qed.

Lemma sim_fall w s e t : ok_in w s -> abs s = t -> sim_to w (Fall s e) (Fall t e).
Proof. intros H <-. split; cbn; auto. Qed.

Lemma sim_tag w done s : ok_in w s -> sim_to w (sec_tag done s) (s_tag done (abs s)).
Proof.
  intros Hok. unfold sec_tag, s_tag.
  destruct s as [w0 p0 cs0 g0 pe0 st0 at0]. destruct Hok as [H1 H2]; cbn in H1, H2; subst w0.
  unfold abs; cbn [cstate sc]. destruct cs0; try (apply sim_fall; [split; auto|reflexivity]).
  - apply (sim_tag_body w done (mkP w p0 PreTagGi g0 PendStart st0 at0)). split; auto.
  - apply (sim_tag_body w done (mkP w p0 PreCompleteTagGi g0 PendEnd st0 at0)). split; auto.
Qed.

Lemma sim_after_gt w done s e t : ok_in w s -> abs s = t ->
  sim_to w (after_gt done s e) (s_after_gt done t e).
Proof.
  intros Hok <-. destruct Hok as [H1 H2]. unfold after_gt, s_after_gt. unfold abs at 1; cbn [rest].
  destruct (Nat.eqb_spec (pos s) (length (window s))) as [H|H].
  - rewrite H, skipn_all. destruct done; split; cbn; unfold ok_in; auto.
  - destruct (skipn (pos s) (window s)) as [|c r] eqn:E.
    + exfalso. assert (length (skipn (pos s) (window s)) = 0%nat) by (rewrite E; auto).
      rewrite skipn_length in H0. subst w. lia.
    + split; cbn; unfold ok_in; auto.
Qed.

Lemma sim_complete_tag w done s : ok_in w s ->
  sim_to w (sec_complete_tag done s) (s_complete_tag done (abs s)).
Proof.
  intros Hok. start_sec s Hok a r.
  unfold sec_complete_tag, s_complete_tag; cbn [pos window cstate gi pend stack attribs sc rest spend sgi sstk satt].
  destruct cs0; try (apply sim_fall; [split; [reflexivity|cbn; rewrite app_length; lia]|unfold abs; cbn; rewrite skipn_here; reflexivity]).
  cbv zeta. rewrite nth_scan. destruct (dropw is_ws r) as [|c x] eqn:E; cbn [hd_error].
  - apply sim_noa. { split; [reflexivity|apply scan_le]. }
    unfold abs, w_rest; cbn. rewrite skipn_scan, E. reflexivity.
  - destruct ((match pe0 with PendStart => true | PendEnd => false end) && is_namestart c).
    { split. { split; [reflexivity|cbn; apply scan_le]. }
      cbn. unfold abs, w_sc, w_rest; cbn. rewrite skipn_scan, E. reflexivity. }
    destruct (c =? c_gt); [|split; cbn; auto].
    destruct pe0.
    + apply sim_after_gt. { split; [reflexivity|cbn; eapply scan_lt; eauto]. }
      unfold abs; cbn. erewrite skipn_scan1 by eauto. reflexivity.
    + destruct st0 as [|opened stk]; [split; cbn; auto|].
      destruct (str_eqb opened g0); [|split; cbn; auto].
      apply sim_after_gt. { destruct stk; (split; [reflexivity|cbn; eapply scan_lt; eauto]). }
      destruct stk; unfold abs; cbn; erewrite skipn_scan1 by eauto; reflexivity.
Qed.

Lemma cd_abs_cases w r x : cd_abs w r = Some x ->
  match x with
  | SCDone d y => exists cur, r = CDone d cur /\ y = skipn cur w
  | SCNeed => r = CNeed
  | SCRaise e => r = CRaise e
  end.
Proof. destruct r; cbn; intros H; inversion H; subst; eauto. Qed.

Lemma s_cdata_rest p stop : forall n s d x, (length s <= n)%nat ->
  s_cdata p stop s = SCDone d x ->
  exists b c y, s = b ++ x /\ x = c :: y /\ char_in c stop = true.
Proof.
  induction n as [|n IH]; intros s d x Hn H; rewrite s_cdata_eq in H.
  - destruct s; [discriminate|cbn in Hn; lia].
  - destruct s as [|c s]; [discriminate|]. cbn in Hn.
    destruct (p c).
    { destruct (s_cdata p stop s) as [d' x'| |e] eqn:E; cbn in H; inversion H; subst.
      apply IH in E as (b & c' & y & -> & -> & Hc); [|lia]. exists (c :: b), c', y; auto. }
    destruct (char_in c stop) eqn:Ec.
    { inversion H; subst. exists [], c, s; auto. }
    destruct (c =? c_amp).
    + destruct (s_ref s) as [r0 x0| |e] eqn:Er; try discriminate.
      pose proof (s_ref_suffix _ _ _ Er) as (b0 & Hs & _). pose proof (s_ref_length _ _ _ Er).
      destruct (s_cdata p stop x0) as [d' x'| |e] eqn:E; cbn in H; inversion H; subst.
      apply IH in E as (b & c' & y & -> & -> & Hc); [|lia].
      exists (c :: b0 ++ b), c', y. split; [cbn [app]; rewrite <- app_assoc; reflexivity|auto].
    + apply IH in H as (b & c' & y & -> & -> & Hc); [|lia]. exists (c :: b), c', y; auto.
Qed.

Lemma skipn_cons_len {A} (w : list A) n c y : skipn n w = c :: y -> (n + 1 <= length w)%nat /\ skipn (n+1) w = y /\ nth_error w n = Some c.
Proof.
  revert n; induction w as [|x w IH]; intros n H.
  - destruct n; discriminate.
  - destruct n; cbn in H.
    + inversion H; subst. cbn. repeat split; auto; lia.
    + apply IH in H as (H1 & H2 & H3). cbn. repeat split; auto; lia.
Qed.

Lemma sim_attribute w done s : ok_in w s ->
  sim_to w (sec_attribute done s) (s_attribute done (abs s)).
Proof.
  intros Hok. start_sec s Hok a r.
  unfold sec_attribute, s_attribute; cbn [pos window cstate gi pend stack attribs sc rest spend sgi sstk satt].
  destruct cs0; try (apply sim_fall; [split; [reflexivity|cbn; rewrite app_length; lia]|unfold abs; cbn; rewrite skipn_here; reflexivity]).
  cbv zeta.
  set (s0 := mkP (a ++ r) (length a) Attribute g0 pe0 st0 at0).
  set (t0 := mkS r Attribute g0 pe0 st0 at0).
  assert (Hok0 : ok_in (a ++ r) s0) by (split; [reflexivity|cbn; rewrite app_length; lia]).
  assert (Habs0 : abs s0 = t0) by (unfold abs, s0, t0; cbn; rewrite skipn_here; reflexivity).
  destruct r as [|c0 r0].
  { assert (HN : nth_error (a ++ []) (scan is_namechar (a ++ []) (length a + 1)) = None).
    { apply nth_error_None. unfold scan. rewrite app_nil_r. lia. }
    rewrite HN. apply sim_noa; auto. }
  assert (HA : a ++ c0 :: r0 = (a ++ [c0]) ++ r0) by apply app_cons_assoc.
  replace (length a + 1)%nat with (length (a ++ [c0])) by apply length_app1.
  set (A := a ++ [c0]) in *.
  assert (Hs1 : nth_error (a ++ c0 :: r0) (scan is_namechar (a ++ c0 :: r0) (length A)) = hd_error (dropw is_namechar r0))
    by (rewrite HA; apply nth_scan).
  rewrite Hs1.
  destruct (dropw is_namechar r0) as [|c1 r1] eqn:E1; cbn [hd_error]. { apply sim_noa; auto. }
  set (B := A ++ takew is_namechar r0).
  assert (HB : a ++ c0 :: r0 = B ++ c1 :: r1).
  { unfold B. rewrite <- app_assoc, <- E1, takew_dropw. exact HA. }
  assert (Hadv : scan is_namechar (a ++ c0 :: r0) (length A) = length B) by (rewrite HA; apply scan_here).
  rewrite Hadv.
  assert (Hs2 : nth_error (a ++ c0 :: r0) (scan is_ws (a ++ c0 :: r0) (length B)) = hd_error (dropw is_ws (c1 :: r1)))
    by (rewrite HB; apply nth_scan).
  rewrite Hs2.
  destruct (dropw is_ws (c1 :: r1)) as [|c r2] eqn:E2; cbn [hd_error]. { apply sim_noa; auto. }
  destruct (c =? c_eq); [|split; cbn; auto].
  set (C := B ++ takew is_ws (c1 :: r1) ++ [c]).
  assert (HC : a ++ c0 :: r0 = C ++ r2).
  { unfold C. rewrite <- !app_assoc. cbn [app]. rewrite <- E2, takew_dropw. exact HB. }
  assert (Hp : (scan is_ws (a ++ c0 :: r0) (length B) + 1)%nat = length C).
  { unfold C. rewrite HB, scan_here, !app_length. cbn [length]. lia. }
  rewrite Hp.
  destruct r2 as [|q r3].
  { assert (HL : Nat.eqb (length C) (length (a ++ c0 :: r0)) = true) by (rewrite HC, app_nil_r; apply Nat.eqb_refl).
    rewrite HL. destruct done; cbn [negb andb].
    - assert (HN : nth_error (a ++ c0 :: r0) (length C) = None)
        by (apply nth_error_None; rewrite HC, app_nil_r; lia).
      rewrite HN. split; cbn; auto.
    - split; cbn; auto. f_equal; auto. }
  assert (HL : Nat.eqb (length C) (length (a ++ c0 :: r0)) = false).
  { rewrite HC, app_length. cbn [length]. apply Nat.eqb_neq. lia. }
  rewrite HL, andb_false_r.
  assert (HN : nth_error (a ++ c0 :: r0) (length C) = Some q) by (rewrite HC, nth_here; reflexivity).
  rewrite HN.
  destruct (is_quote q).
  - assert (HD : a ++ c0 :: r0 = (C ++ [q]) ++ r3) by (rewrite HC; apply app_cons_assoc).
    replace (length C + 1)%nat with (length (C ++ [q])) by apply length_app1.
    assert (Hcd : cd_abs (a ++ c0 :: r0) (handle_cdata (length (C ++ [q])) (a ++ c0 :: r0) (attr_pat q) [q])
              = Some (s_cdata (attr_pat q) [q] r3)).
    { rewrite HD. apply handle_cdata_abs. }
    apply cd_abs_cases in Hcd.
    destruct (s_cdata (attr_pat q) [q] r3) as [d x| |e] eqn:Es.
    + destruct Hcd as (cur & -> & ->).
      apply s_cdata_rest with (n := length r3) in Es as (b & c' & y & Hb & Hy & _); [|lia].
      apply skipn_cons_len in Hy as Hy'. destruct Hy' as (Hy1 & Hy2 & Hy3).
      apply sim_fall. { split; [reflexivity|cbn; lia]. }
      unfold abs; cbn. rewrite Hy2. rewrite Hy. cbn [tl]. f_equal. f_equal.
      replace (a ++ c0 :: r0) with (a ++ (c0 :: takew is_namechar r0) ++ c1 :: r1)
        by (rewrite <- E1; cbn [app]; rewrite takew_dropw; reflexivity).
      replace (length B) with (length (a ++ c0 :: takew is_namechar r0))
        by (unfold B, A; rewrite <- app_assoc; reflexivity).
      apply slice_here.
    + rewrite Hcd. apply sim_noa. { split; [reflexivity|]. cbn. rewrite HC, app_length. lia. }
      unfold abs, w_rest; cbn. rewrite HC, skipn_here. reflexivity.
    + rewrite Hcd. split; cbn; auto.
  - apply sim_fall. { split; [reflexivity|]. cbn. rewrite HC, app_length. lia. }
    unfold abs, w_rest; cbn. rewrite HC, skipn_here. reflexivity.
Qed.

Lemma sim_in_element w done s : ok_in w s ->
  sim_to w (sec_in_element done s) (s_in_element done (abs s)).
Proof.
  intros Hok. start_sec s Hok a r.
  unfold sec_in_element, s_in_element; cbn [pos window cstate gi pend stack attribs sc rest spend sgi sstk satt].
  destruct cs0; try (apply sim_fall; [split; [reflexivity|cbn; rewrite app_length; lia]|unfold abs; cbn; rewrite skipn_here; reflexivity]).
  pose proof (handle_cdata_abs is_datachar [c_lt] a r) as Hcd.
  apply cd_abs_cases in Hcd.
  destruct (s_cdata is_datachar [c_lt] r) as [d x| |e] eqn:Es.
  - destruct Hcd as (cur & -> & ->).
    apply s_cdata_rest with (n := length r) in Es as (b & c' & y & Hb & Hy & Hc); [|lia].
    apply skipn_cons_len in Hy as Hy'. destruct Hy' as (Hy1 & Hy2 & Hy3).
    rewrite Hy3. cbv zeta.
    assert (Hlt : c' =? c_lt = true). { cbn in Hc. rewrite orb_false_r in Hc. exact Hc. }
    rewrite Hlt. apply sim_fall. { split; [reflexivity|cbn; lia]. }
    unfold abs, w_sc, w_rest; cbn. rewrite Hy2, Hy. reflexivity.
  - rewrite Hcd. apply sim_noa. { split; [reflexivity|]. cbn. rewrite app_length. lia. }
    unfold abs; cbn. rewrite skipn_here. reflexivity.
  - rewrite Hcd. split; cbn; auto.
Qed.

Lemma sim_complete_doc w done s : ok_in w s ->
  sim_to w (sec_complete_doc done s) (s_complete_doc done (abs s)).
Proof.
  intros Hok. start_sec s Hok a r.
  unfold sec_complete_doc, s_complete_doc; cbn [pos window cstate gi pend stack attribs sc rest spend sgi sstk satt].
  destruct cs0; try (apply sim_fall; [split; [reflexivity|cbn; rewrite app_length; lia]|unfold abs; cbn; rewrite skipn_here; reflexivity]).
  destruct r as [|c0 r0].
  - rewrite app_nil_r, Nat.eqb_refl. split; cbn.
    + split; [reflexivity|cbn; lia].
    + unfold abs; cbn. rewrite skipn_all. reflexivity.
  - assert (HL : Nat.eqb (length a) (length (a ++ c0 :: r0)) = false).
    { rewrite app_length. cbn [length]. apply Nat.eqb_neq. lia. }
    rewrite HL. cbv zeta. rewrite nth_scan.
    destruct (dropw is_ws (c0 :: r0)) as [|c x] eqn:E; cbn [hd_error].
    + apply sim_noa. { split; [reflexivity|apply scan_le]. }
      unfold abs, w_rest; cbn [pos window set_pos cstate gi pend stack attribs]. rewrite skipn_scan, E. reflexivity.
    + split; cbn; auto.
Qed.

Lemma sim_and_then w x y k j : sim_to w x y ->
  (forall s, ok_in w s -> sim_to w (k s) (j (abs s))) ->
  sim_to w (and_then x k) (and_then y j).
Proof.
  intros [H1 <-] Hk. destruct x; cbn in *; try (split; cbn; auto; fail).
  destruct (Hk _ H1) as [H2 H3]. rewrite <- H3.
  destruct (k s); cbn in *; split; cbn; auto.
Qed.

Theorem iter_sim w done s : ok_in w s -> sim_to w (iter done s) (siter done (abs s)).
Proof.
  intros H. unfold iter, siter.
  apply sim_and_then; [apply sim_pre_element; auto|]. intros s1 H1.
  apply sim_and_then; [apply sim_tag; auto|]. intros s2 H2.
  apply sim_and_then; [apply sim_complete_tag; auto|]. intros s3 H3.
  apply sim_and_then; [apply sim_attribute; auto|]. intros s4 H4.
  apply sim_and_then; [apply sim_in_element; auto|]. intros s5 H5.
  apply sim_complete_doc; auto.
Qed.

Definition lres_map {A B} (f : A -> B) (x : lres A) : lres B :=
  match x with
  | LStop s e => LStop (f s) e
  | LRaise e l => LRaise e l
  | LHang l => LHang l
  end.
Definition lres_all {A} (P : A -> Prop) (x : lres A) : Prop :=
  match x with LStop s _ => P s | _ => True end.

Lemma loop_sim w done : forall fuel s, ok_in w s ->
  lres_all (ok_in w) (loop fuel done s) /\
  lres_map abs (loop fuel done s) = run_loop (siter done) fuel (abs s).
Proof.
  unfold loop. induction fuel as [|fuel IH]; intros s Hok; cbn [run_loop]; [split; cbn; auto|].
  destruct (iter_sim w done s Hok) as [H1 H2]. rewrite <- H2.
  destruct (iter done s) as [s' e|s' e|s' e|s' e|x e]; cbn in *; try (split; cbn; auto; fail);
    destruct (IH s' H1) as [H3 H4]; rewrite <- H4;
    destruct (run_loop (iter done) fuel s'); split; cbn; auto.
Qed.
