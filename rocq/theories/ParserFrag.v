(** Behaviour of the machine when more input is appended (chunking). *)
From Verif Require Import PyStr CharClass Parser ParserS ParserM ParserSpec.

Definition ext (s : sst) (f : str) : sst := w_rest s (rest s ++ f).

Lemma ext_rest s f : rest (ext s f) = rest s ++ f. Proof. reflexivity. Qed.
Lemma ext_nil s : ext s [] = s.
Proof. unfold ext, w_rest. rewrite app_nil_r. destruct s; reflexivity. Qed.
Lemma ext_app s f g : ext (ext s f) g = ext s (f ++ g).
Proof. unfold ext, w_rest; cbn. rewrite app_assoc. reflexivity. Qed.

(** ** Character data is stable under extension *)
Definition sref_ext (f : str) (r : sref) : sref :=
  match r with SROk c x => SROk c (x ++ f) | other => other end.
Definition scd_ext (f : str) (r : scd) : scd :=
  match r with SCDone d x => SCDone d (x ++ f) | other => other end.

Lemma s_hexref_ext f r : s_hexref r <> SRNeed -> s_hexref (r ++ f) = sref_ext f (s_hexref r).
Proof.
  unfold s_hexref. destruct (dropw is_hex r) as [|c x] eqn:E; [congruence|]. intros _.
  rewrite (dropw_app _ _ f _ _ E), (takew_app _ _ f _ _ E).
  destruct (c =? c_semi)%N; [|reflexivity]. destruct (int16 _); [|reflexivity].
  unfold s_charcheck. destruct (_ <=? _)%N; [reflexivity|]. destruct (_ <=? _)%N; [reflexivity|].
  destruct (is_character n); reflexivity.
Qed.
Lemma s_namedref_ext f r : s_namedref r <> SRNeed -> s_namedref (r ++ f) = sref_ext f (s_namedref r).
Proof.
  unfold s_namedref. destruct (dropw is_alnum r) as [|c x] eqn:E; [congruence|]. 
  rewrite (dropw_app _ _ f _ _ E), (takew_app _ _ f _ _ E).
  destruct (c =? c_semi)%N; [|congruence]. destruct (lookup_charname _ _); reflexivity.
Qed.
Lemma s_ref_ext f r : s_ref r <> SRNeed -> s_ref (r ++ f) = sref_ext f (s_ref r).
Proof.
  unfold s_ref. destruct r as [|c r]; [congruence|]. cbn [app].
  destruct (c =? c_hash)%N; [|apply (s_namedref_ext f (c :: r))].
  destruct r as [|c2 r]; [congruence|]. cbn [app].
  destruct (c2 =? c_x)%N; [apply s_hexref_ext|apply (s_namedref_ext f (c :: c2 :: r))].
Qed.

Lemma s_cdata_ext p stop f : forall n s, length s <= n ->
  s_cdata p stop s <> SCNeed -> s_cdata p stop (s ++ f) = scd_ext f (s_cdata p stop s).
Proof.
  assert (Happ : forall l r, scd_app l r <> SCNeed -> r <> SCNeed).
  { intros l r H X; subst; apply H; reflexivity. }
  assert (Hcom : forall l r, scd_app l (scd_ext f r) = scd_ext f (scd_app l r)).
  { intros l r; destruct r; reflexivity. }
  induction n as [|n IH]; intros s Hn H; rewrite (s_cdata_eq p stop (s ++ f)); rewrite (s_cdata_eq p stop s) in *;
    (destruct s as [|c s]; [congruence|]); cbn [length] in Hn; [lia|]; cbn [app].
  destruct (p c). { rewrite IH by (try lia; eauto). apply Hcom. }
  destruct (char_in c stop); [reflexivity|].
  destruct (c =? c_amp)%N.
  - destruct (s_ref s) as [r x| |e] eqn:E; [|congruence|].
    + rewrite s_ref_ext, E by congruence. cbn [sref_ext].
      rewrite IH; [apply Hcom| |eauto]. apply s_ref_length in E. lia.
    + rewrite s_ref_ext, E by congruence. reflexivity.
  - apply IH; [lia|auto].
Qed.

(** ** Steps are stable under extension *)
Definition flow_ext (f : str) (x : flow sst) : flow sst := flow_map (fun s => ext s f) x.

Ltac ext_cbn := unfold mstep, ext, flow_ext; cbn [sc rest w_rest w_sc w_pend flow_map].

Lemma mstep_ext s s' e f :
  mstep false s = Fall s' e \/ mstep false s = Again s' e -> mstep false (ext s f) = flow_ext f (mstep false s).
Proof.
  intros H. destruct s as [r c g pe st at0]. unfold mstep in *. cbn [sc ext w_rest] in *.
  destruct c.
  - unfold s_pre_element in *; cbn [sc rest] in *.
    destruct (dropw is_ws r) as [|c x] eqn:E; [destruct H as [H|H]; discriminate|].
    cbn [ext w_rest rest sc]. rewrite (dropw_app _ _ f _ _ E).
    destruct (c =? c_lt)%N; reflexivity.
  - unfold s_in_element in *; cbn [sc rest] in *.
    cbn [ext w_rest rest sc].
    destruct (s_cdata is_datachar [c_lt] r) as [d x| |x] eqn:E; try (destruct H as [H|H]; discriminate).
    rewrite (s_cdata_ext _ _ _ (length r)) by (try lia; congruence). rewrite E. cbn [scd_ext].
    eapply s_cdata_rest in E as (b & c & y & -> & -> & _); [|reflexivity]. reflexivity.
  - unfold s_tag, s_tag_body in *; cbn [sc rest w_pend w_rest ext] in *.
    destruct (dropw is_ws r) as [|c x] eqn:E; [destruct H as [H|H]; discriminate|].
    rewrite (dropw_app _ _ f _ _ E).
    destruct (true && (c =? c_slash)%N); [reflexivity|]. destruct (is_namestart c); [|reflexivity].
    destruct (dropw is_namechar x) as [|c2 x2] eqn:E2; [destruct H as [H|H]; discriminate|].
    rewrite (dropw_app _ _ f _ _ E2), (takew_app _ _ f _ _ E2). reflexivity.
  - unfold s_tag, s_tag_body in *; cbn [sc rest w_pend w_rest ext] in *.
    destruct (dropw is_ws r) as [|c x] eqn:E; [destruct H as [H|H]; discriminate|].
    rewrite (dropw_app _ _ f _ _ E).
    destruct (false && (c =? c_slash)%N); [reflexivity|]. destruct (is_namestart c); [|reflexivity].
    destruct (dropw is_namechar x) as [|c2 x2] eqn:E2; [destruct H as [H|H]; discriminate|].
    rewrite (dropw_app _ _ f _ _ E2), (takew_app _ _ f _ _ E2). reflexivity.
  - unfold s_complete_tag, s_after_gt in *; cbn [sc rest spend sgi sstk satt w_rest ext] in *.
    destruct (dropw is_ws r) as [|c x] eqn:E; [destruct H as [H|H]; discriminate|].
    rewrite (dropw_app _ _ f _ _ E).
    destruct (match pe with PendStart => true | PendEnd => false end && is_namestart c); [reflexivity|].
    destruct (c =? c_gt)%N; [|reflexivity].
    destruct pe.
    + destruct x as [|c1 x]; [destruct H as [H|H]; discriminate|]. reflexivity.
    + destruct st as [|o st]; [reflexivity|]. destruct (str_eqb o g); [|reflexivity].
      destruct x as [|c1 x]; [destruct H as [H|H]; discriminate|]. reflexivity.
  - unfold s_complete_doc in *; cbn [sc rest] in *.
    destruct r as [|c0 r0]; [destruct H as [H|H]; discriminate|].
    destruct (dropw is_ws (c0 :: r0)) as [|c x]; destruct H as [H|H]; discriminate.
  - unfold s_attribute in *; cbn [sc rest] in *. cbn [rest ext w_rest].
    destruct r as [|c0 r0]; [destruct H as [H|H]; discriminate|]. cbn [app].
    destruct (dropw is_namechar r0) as [|c1 r1] eqn:E1; [destruct H as [H|H]; discriminate|].
    rewrite (dropw_app _ _ f _ _ E1), (takew_app _ _ f _ _ E1).
    destruct (dropw is_ws (c1 :: r1)) as [|c r2] eqn:E2; [destruct H as [H|H]; discriminate|].
    change (c1 :: r1 ++ f) with ((c1 :: r1) ++ f). rewrite (dropw_app _ _ f _ _ E2).
    destruct (c =? c_eq)%N; [|reflexivity].
    destruct r2 as [|q r3]; [destruct H as [H|H]; discriminate|]. cbn [app].
    destruct (is_quote q); [|reflexivity].
    destruct (s_cdata (attr_pat q) [q] r3) as [d x| |x] eqn:E; try (destruct H as [H|H]; discriminate).
    rewrite (s_cdata_ext _ _ _ (length r3)) by (try lia; congruence). rewrite E. cbn [scd_ext].
    eapply s_cdata_rest in E as (b & c9 & y & -> & -> & _); [|reflexivity]. reflexivity.
Qed.

Lemma mstep_ext_raise s x e f :
  mstep false s = Raise x e -> mstep false (ext s f) = Raise x e.
Proof.
  intros H. destruct s as [r c g pe st at0]. unfold mstep in *. cbn [sc ext w_rest] in *.
  destruct c.
  - unfold s_pre_element in *; cbn [sc rest] in *.
    destruct (dropw is_ws r) as [|c y] eqn:E; [discriminate|]. destruct (c =? c_lt)%N; discriminate.
  - unfold s_in_element in *; cbn [sc rest] in *. cbn [ext w_rest rest sc].
    destruct (s_cdata is_datachar [c_lt] r) as [d y| |y] eqn:E; try discriminate.
    rewrite (s_cdata_ext _ _ _ (length r)) by (try lia; congruence). rewrite E. exact H.
  - unfold s_tag, s_tag_body in *; cbn [sc rest w_pend w_rest ext] in *.
    destruct (dropw is_ws r) as [|c y] eqn:E; [discriminate|].
    destruct (true && (c =? c_slash)%N); [discriminate|]. destruct (is_namestart c); [|discriminate].
    destruct (dropw is_namechar y); discriminate.
  - unfold s_tag, s_tag_body in *; cbn [sc rest w_pend w_rest ext] in *.
    destruct (dropw is_ws r) as [|c y] eqn:E; [discriminate|].
    destruct (false && (c =? c_slash)%N); [discriminate|]. destruct (is_namestart c); [|discriminate].
    destruct (dropw is_namechar y); discriminate.
  - unfold s_complete_tag, s_after_gt in *; cbn [sc rest spend sgi sstk satt w_rest ext] in *.
    destruct (dropw is_ws r) as [|c y] eqn:E; [discriminate|].
    rewrite (dropw_app _ _ f _ _ E).
    destruct (match pe with PendStart => true | PendEnd => false end && is_namestart c); [discriminate|].
    destruct (c =? c_gt)%N; [|exact H].
    destruct pe; [destruct y; discriminate|].
    destruct st as [|o st]; [exact H|]. destruct (str_eqb o g); [destruct y; discriminate|exact H].
  - unfold s_complete_doc in *; cbn [sc rest] in *. cbn [ext w_rest rest sc].
    destruct r as [|c0 r0]; [discriminate|].
    destruct (dropw is_ws (c0 :: r0)) as [|c y] eqn:E; [discriminate|].
    cbn [app]. change (c0 :: r0 ++ f) with ((c0 :: r0) ++ f). rewrite (dropw_app _ _ f _ _ E). exact H.
  - unfold s_attribute in *; cbn [sc rest] in *. cbn [rest ext w_rest].
    destruct r as [|c0 r0]; [discriminate|]. cbn [app].
    destruct (dropw is_namechar r0) as [|c1 r1] eqn:E1; [discriminate|].
    rewrite (dropw_app _ _ f _ _ E1).
    destruct (dropw is_ws (c1 :: r1)) as [|c r2] eqn:E2; [discriminate|].
    change (c1 :: r1 ++ f) with ((c1 :: r1) ++ f). rewrite (dropw_app _ _ f _ _ E2).
    destruct (c =? c_eq)%N; [|exact H].
    destruct r2 as [|q r3]; [discriminate|]. cbn [app].
    destruct (is_quote q); [|discriminate].
    destruct (s_cdata (attr_pat q) [q] r3) as [d y| |y] eqn:E; try discriminate.
    rewrite (s_cdata_ext _ _ _ (length r3)) by (try lia; congruence). rewrite E. exact H.
Qed.

(** The one kind of suspension that does not resume properly: in the attribute
    state, with an opening quote whose value is incomplete. *)
Definition value_incomplete (s : sst) : Prop :=
  sc s = Attribute /\
  exists c0 nm ws q r3,
    rest s = c0 :: nm ++ ws ++ c_eq :: q :: r3 /\
    forallb is_namechar nm = true /\ forallb is_ws ws = true /\
    is_quote q = true /\ s_cdata (attr_pat q) [q] r3 = SCNeed.

Lemma lprepend_flow_run k e f : lprepend e (flow_run k f) = flow_run k (flow_prepend e f).
Proof. destruct f; cbn; rewrite ?lprepend_app; reflexivity. Qed.

Lemma flow_prepend_nil {A} (x : flow A) : flow_prepend [] x = x.
Proof. destruct x; reflexivity. Qed.

(** Any other suspension resumes as if it had not happened. *)
Lemma mstep_ext_need s s' e f : f <> [] ->
  mstep false s = Need s' e \/ mstep false s = Break s' e ->
  M false (ext s f) = lprepend e (M false (ext s' f)) \/ value_incomplete s.
Proof.
  intros Hf H.
  assert (Hs : forall x, Need x [] = Need s' e \/ Need x [] = Break s' e -> x = s' /\ e = []).
  { intros x [X|X]; inversion X; auto. }
  destruct s as [r c g pe st at0]. unfold mstep in H. cbn [sc] in H.
  destruct c.
  - left. unfold s_pre_element in H; cbn [sc rest] in H.
    destruct (dropw is_ws r) as [|c x] eqn:E; [|destruct (c =? c_lt)%N; destruct H; discriminate].
    apply Hs in H as [<- ->]. rewrite lprepend_nil.
    rewrite (M_eq false (ext _ f)), (M_eq false (ext (w_rest _ _) f)). f_equal.
    unfold mstep, ext; cbn [sc w_rest rest]. unfold s_pre_element; cbn [sc rest w_rest].
    rewrite (dropw_nil_app _ _ _ E). reflexivity.
  - left. unfold s_in_element in H; cbn [sc rest] in H.
    destruct (s_cdata is_datachar [c_lt] r) as [d x| |x] eqn:E; try (destruct H; discriminate).
    apply Hs in H as [<- ->]. rewrite lprepend_nil. reflexivity.
  - left. unfold s_tag, s_tag_body in H; cbn [sc rest w_pend] in H.
    destruct (dropw is_ws r) as [|c x] eqn:E.
    + apply Hs in H as [<- ->]. rewrite lprepend_nil.
      rewrite (M_eq false (ext _ f)), (M_eq false (ext (w_rest _ _) f)). f_equal.
      unfold mstep, ext; cbn [sc w_rest rest w_pend]. unfold s_tag, s_tag_body; cbn [sc rest w_rest w_pend].
      rewrite (dropw_nil_app _ _ _ E). reflexivity.
    + destruct (true && (c =? c_slash)%N) eqn:Esl; [destruct H; discriminate|].
      destruct (is_namestart c) eqn:En; [|destruct H; discriminate].
      destruct (dropw is_namechar x) as [|c2 x2] eqn:E2; [|destruct H; discriminate].
      apply Hs in H as [<- ->]. rewrite lprepend_nil.
      rewrite (M_eq false (ext _ f)), (M_eq false (ext (w_rest _ _) f)). f_equal.
      unfold mstep, ext; cbn [sc w_rest rest w_pend]. unfold s_tag, s_tag_body; cbn [sc rest w_rest w_pend].
      rewrite (dropw_app _ _ f _ _ E).
      assert (Ews : is_ws c = false) by (eapply dropw_head; eauto).
      cbn [app dropw]. rewrite Ews. reflexivity.
  - left. unfold s_tag, s_tag_body in H; cbn [sc rest w_pend] in H.
    destruct (dropw is_ws r) as [|c x] eqn:E.
    + apply Hs in H as [<- ->]. rewrite lprepend_nil.
      rewrite (M_eq false (ext _ f)), (M_eq false (ext (w_rest _ _) f)). f_equal.
      unfold mstep, ext; cbn [sc w_rest rest w_pend]. unfold s_tag, s_tag_body; cbn [sc rest w_rest w_pend].
      rewrite (dropw_nil_app _ _ _ E). reflexivity.
    + destruct (false && (c =? c_slash)%N) eqn:Esl; [destruct H; discriminate|].
      destruct (is_namestart c) eqn:En; [|destruct H; discriminate].
      destruct (dropw is_namechar x) as [|c2 x2] eqn:E2; [|destruct H; discriminate].
      apply Hs in H as [<- ->]. rewrite lprepend_nil.
      rewrite (M_eq false (ext _ f)), (M_eq false (ext (w_rest _ _) f)). f_equal.
      unfold mstep, ext; cbn [sc w_rest rest w_pend]. unfold s_tag, s_tag_body; cbn [sc rest w_rest w_pend].
      rewrite (dropw_app _ _ f _ _ E).
      assert (Ews : is_ws c = false) by (eapply dropw_head; eauto).
      cbn [app dropw]. rewrite Ews. reflexivity.
  - left. unfold s_complete_tag in H; cbn [sc rest spend sgi sstk satt] in H.
    destruct (dropw is_ws r) as [|c x] eqn:E.
    { apply Hs in H as [<- ->]. rewrite lprepend_nil.
      rewrite (M_eq false (ext _ f)), (M_eq false (ext (w_rest _ _) f)). f_equal.
      unfold mstep, ext; cbn [sc w_rest rest]. unfold s_complete_tag; cbn [sc rest w_rest spend sgi sstk satt].
      rewrite (dropw_nil_app _ _ _ E). reflexivity. }
    rewrite (M_eq false (ext _ f)).
    unfold mstep, ext; cbn [sc w_rest rest]. unfold s_complete_tag; cbn [sc rest w_rest spend sgi sstk satt].
    rewrite (dropw_app _ _ f _ _ E).
    destruct (match pe with PendStart => true | PendEnd => false end && is_namestart c); [destruct H; discriminate|].
    destruct (c =? c_gt)%N; [|destruct H; discriminate].
    unfold s_after_gt in *.
    destruct pe; cbn [rest] in *.
    + destruct x as [|c1 x]; [|destruct H; discriminate]. cbn [app].
      destruct H as [H|H]; inversion H; subst.
      destruct f as [|f0 f]; [congruence|]. cbn [flow_run]. reflexivity.
    + destruct st as [|o st]; [destruct H; discriminate|].
      destruct (str_eqb o g); [|destruct H; discriminate].
      destruct x as [|c1 x]; [|destruct H; discriminate]. cbn [app].
      destruct H as [H|H]; inversion H; subst.
      destruct f as [|f0 f]; [congruence|]. cbn [flow_run]. reflexivity.
  - left. unfold s_complete_doc in H; cbn [sc rest] in H.
    destruct r as [|c0 r0].
    { destruct H as [H|H]; inversion H; subst. rewrite lprepend_nil. reflexivity. }
    destruct (dropw is_ws (c0 :: r0)) as [|c x] eqn:E; [|destruct H; discriminate].
    apply Hs in H as [<- ->]. rewrite lprepend_nil.
    rewrite (M_eq false (ext _ f)), (M_eq false (ext (w_rest _ _) f)).
    unfold mstep, ext; cbn [sc w_rest rest]. unfold s_complete_doc; cbn [sc rest w_rest].
    rewrite (dropw_nil_app _ _ _ E). destruct f as [|f0 f]; [congruence|]. cbn [app].
    destruct (dropw is_ws (f0 :: f)); reflexivity.
  - unfold s_attribute in H; cbn [sc rest] in H.
    destruct r as [|c0 r0]. { left. apply Hs in H as [<- ->]. rewrite lprepend_nil; reflexivity. }
    destruct (dropw is_namechar r0) as [|c1 r1] eqn:E1.
    { left. apply Hs in H as [<- ->]. rewrite lprepend_nil; reflexivity. }
    destruct (dropw is_ws (c1 :: r1)) as [|c r2] eqn:E2.
    { left. apply Hs in H as [<- ->]. rewrite lprepend_nil; reflexivity. }
    destruct (c =? c_eq)%N eqn:Eeq; [|destruct H; discriminate].
    destruct r2 as [|q r3].
    { left. apply Hs in H as [<- ->]. rewrite lprepend_nil; reflexivity. }
    destruct (is_quote q) eqn:Eq; [|destruct H; discriminate].
    destruct (s_cdata (attr_pat q) [q] r3) as [d x| |x] eqn:E; try (destruct H; discriminate).
    right. split; [reflexivity|]. cbn [rest].
    exists c0, (takew is_namechar r0), (takew is_ws (c1 :: r1)), q, r3.
    apply N.eqb_eq in Eeq; subst c.
    repeat split; auto using takew_all. f_equal.
    rewrite <- (takew_dropw is_namechar r0) at 1. rewrite E1. f_equal.
    rewrite <- (takew_dropw is_ws (c1 :: r1)) at 1. rewrite E2. reflexivity.
Qed.

(** ** The scanner follows the machine *)
Lemma qscan_app m a b : qscan m (a ++ b) = qscan (qscan m a) b.
Proof. unfold qscan. apply fold_left_app. Qed.

(** All characters of a list keep a mode. *)
Lemma qscan_const m p s : (forall c, p c = true -> qstep m c = m) -> forallb p s = true -> qscan m s = m.
Proof.
  intros H. induction s as [|c s IH]; [reflexivity|]. cbn. intros Hp.
  apply andb_true_iff in Hp as [H1 H2]. rewrite (H _ H1). apply IH, H2.
Qed.

(** Tactic for goals over the concrete ranges of the character classes. *)
Lemma is_namechar_not c : is_namechar c = true ->
  (c =? c_gt)%N = false /\ (c =? c_eq)%N = false /\ (c =? c_lt)%N = false /\ is_ws c = false /\ (c =? c_slash)%N = false.
Proof.
  intros H.
  assert (A : forall k, is_namechar k = false -> (c =? k)%N = false).
  { intros k Hk. destruct (N.eqb_spec c k); [subst; congruence|reflexivity]. }
  rewrite !A by reflexivity. repeat split.
  unfold is_ws, char_in, existsb. rewrite !A by reflexivity. reflexivity.
Qed.
Lemma is_namestart_not c : is_namestart c = true ->
  (c =? c_gt)%N = false /\ (c =? c_eq)%N = false /\ (c =? c_lt)%N = false /\ is_ws c = false /\ (c =? c_slash)%N = false
  /\ is_quote c = false.
Proof.
  intros H.
  assert (A : forall k, is_namestart k = false -> (c =? k)%N = false).
  { intros k Hk. destruct (N.eqb_spec c k); [subst; congruence|reflexivity]. }
  rewrite !A by reflexivity. repeat split;
  unfold is_ws, is_quote, char_in, existsb; rewrite !A by reflexivity; reflexivity.
Qed.
Lemma is_ws_cases c : is_ws c = true -> c = c_sp \/ c = c_cr \/ c = c_nl \/ c = c_tab.
Proof.
  unfold is_ws, char_in, existsb. rewrite !orb_true_iff, !N.eqb_eq. intuition. discriminate.
Qed.
Lemma qstep_ws_tag c : is_ws c = true -> qstep MTag c = MTag.
Proof. intros H. apply is_ws_cases in H as [->|[->|[->| ->]]]; reflexivity. Qed.
Lemma qstep_ws_text c : is_ws c = true -> qstep MText c = MText.
Proof. intros H. apply is_ws_cases in H as [->|[->|[->| ->]]]; reflexivity. Qed.
Lemma qstep_name_tag c : is_namechar c = true -> qstep MTag c = MTag.
Proof. intros H. apply is_namechar_not in H as (H1 & H2 & _). cbn. rewrite H1, H2. reflexivity. Qed.
Lemma qstep_start_tag c : is_namestart c = true -> qstep MTag c = MTag.
Proof. intros H. apply is_namestart_not in H as (H1 & H2 & _). cbn. rewrite H1, H2. reflexivity. Qed.

Lemma is_hex_alnum c : is_hex c = true -> is_alnum c = true.
Proof.
  unfold is_hex, is_alnum, in_range. rewrite !orb_true_iff, !andb_true_iff, !N.leb_le. lia.
Qed.
Lemma alnum_not c : is_alnum c = true -> (c =? c_hash)%N = false /\ (c =? c_lt)%N = false.
Proof.
  intros H.
  assert (A : forall k, is_alnum k = false -> (c =? k)%N = false).
  { intros k Hk. destruct (N.eqb_spec c k); [subst; congruence|reflexivity]. }
  rewrite !A by reflexivity. auto.
Qed.

Lemma forallb_impl {A} (p q : A -> bool) l :
  (forall x, p x = true -> q x = true) -> forallb p l = true -> forallb q l = true.
Proof. intros H. rewrite !forallb_forall. auto. Qed.

(** References: the text of a completed reference leads the scanner back to the value,
    and contains no '<'. *)
Lemma s_ref_scan r c x : s_ref r = SROk c x ->
  exists b, r = b ++ x /\ (forall q, qscan (MAmp q) b = MQuote q) /\ qscan MText b = MText.
Proof.
  assert (Hn : forall r, s_namedref r = SROk c x ->
    exists b, r = b ++ x /\ (forall q, qscan (MAmp q) b = MQuote q) /\ qscan MText b = MText).
  { clear r. intros r. unfold s_namedref. destruct (dropw is_alnum r) as [|d y] eqn:E; [discriminate|].
    destruct (N.eqb_spec d c_semi) as [->|]; [|discriminate].
    destruct (lookup_charname _ _) as [n|] eqn:El; [|discriminate]. intros H; inversion H; subst.
    exists (takew is_alnum r ++ [c_semi]). split; [rewrite <- app_assoc; cbn; rewrite <- E, takew_dropw; reflexivity|].
    pose proof (takew_all is_alnum r) as Ha. destruct (takew is_alnum r) as [|a al] eqn:Et; [discriminate El|].
    cbn in Ha. apply andb_true_iff in Ha as [Ha1 Ha2]. split.
    - intros q. cbn [app]. cbn [qscan fold_left]. cbn [qstep]. destruct (alnum_not _ Ha1) as [-> _]. rewrite Ha1.
      change (fold_left qstep (al ++ [c_semi]) (MRef q)) with (qscan (MRef q) (al ++ [c_semi])).
      rewrite qscan_app. rewrite (qscan_const (MRef q) is_alnum); [reflexivity| |auto].
      intros z Hz. cbn. rewrite Hz. reflexivity.
    - rewrite qscan_app. rewrite (qscan_const MText is_alnum); [reflexivity| |cbn; rewrite Ha1; auto].
      intros z Hz. cbn. destruct (alnum_not _ Hz) as [_ ->]. reflexivity. }
  unfold s_ref. destruct r as [|d r]; [discriminate|].
  destruct (d =? c_hash)%N eqn:Ed; [|apply Hn].
  destruct r as [|d2 r]; [discriminate|].
  destruct (N.eqb_spec d2 c_x) as [->|]; [|apply Hn].
  apply N.eqb_eq in Ed; subst d.
  unfold s_hexref, s_charcheck. destruct (dropw is_hex r) as [|d y] eqn:E; [discriminate|].
  destruct (N.eqb_spec d c_semi) as [->|]; [|discriminate].
  destruct (int16 _) as [n|]; [|discriminate].
  destruct (_ <=? n)%N; [discriminate|]. destruct (_ <=? n)%N; [discriminate|].
  destruct (is_character n); [|discriminate]. intros H; inversion H; subst.
  assert (Hal : forallb is_alnum (takew is_hex r) = true).
  { eapply forallb_impl; [apply is_hex_alnum|apply takew_all]. }
  exists (c_hash :: c_x :: takew is_hex r ++ [c_semi]).
  split; [cbn; rewrite <- app_assoc; cbn; rewrite <- E, takew_dropw; reflexivity|]. split.
  - intros q. change (qscan (MAmp q) (c_hash :: c_x :: takew is_hex r ++ [c_semi]))
      with (qscan (MRef q) (takew is_hex r ++ [c_semi])).
    rewrite qscan_app, (qscan_const (MRef q) is_alnum); [reflexivity| |auto].
    intros z Hz. cbn. rewrite Hz. reflexivity.
  - change (qscan MText (c_hash :: c_x :: takew is_hex r ++ [c_semi]))
      with (qscan MText (takew is_hex r ++ [c_semi])).
    rewrite qscan_app, (qscan_const MText is_alnum); [reflexivity| |auto].
    intros z Hz. cbn. destruct (alnum_not _ Hz) as [_ ->]. reflexivity.
Qed.

(** An unfinished reference leaves the scanner inside the value. *)
Lemma qscan_bad s : qscan MBad s = MBad.
Proof. induction s; auto. Qed.
Lemma s_ref_need_scan q r : s_ref r = SRNeed -> in_value (qscan (MAmp q) r) = true.
Proof.
  assert (Hn : forall r, s_namedref r = SRNeed -> (hd_error r = Some c_hash -> (exists d, nth_error r 1 = Some d /\ d <> c_x)) -> in_value (qscan (MAmp q) r) = true).
  { clear r. intros r. unfold s_namedref. intros H Hh.
    destruct r as [|a r]; [reflexivity|]. cbn [qscan fold_left]. cbn [qstep].
    destruct (a =? c_hash)%N eqn:Ea.
    { apply N.eqb_eq in Ea; subst a. destruct Hh as (d & Hd & Hx); [reflexivity|].
      destruct r as [|d' r]; [discriminate|]. cbn in Hd. inversion Hd; subst d'.
      cbn [fold_left qstep]. apply N.eqb_neq in Hx. rewrite Hx. 
      change (fold_left qstep r MBad) with (qscan MBad r). rewrite qscan_bad. reflexivity. }
    cbn [dropw takew] in H. destruct (is_alnum a) eqn:Ha.
    - destruct (dropw is_alnum r) as [|d y] eqn:E.
      + change (fold_left qstep r (MRef q)) with (qscan (MRef q) r).
        rewrite (qscan_const (MRef q) is_alnum); [reflexivity| |apply dropw_nil_all; auto].
        intros z Hz; cbn; rewrite Hz; reflexivity.
      + destruct (d =? c_semi)%N eqn:Ed; [destruct (lookup_charname _ _); discriminate|].
        change (fold_left qstep r (MRef q)) with (qscan (MRef q) r).
        rewrite <- (takew_dropw is_alnum r), E, qscan_app.
        rewrite (qscan_const (MRef q) is_alnum); [| |apply takew_all].
        * cbn [qscan fold_left qstep]. rewrite (dropw_head _ _ _ _ E), Ed.
          change (fold_left qstep y MBad) with (qscan MBad y). rewrite qscan_bad. reflexivity.
        * intros z Hz; cbn; rewrite Hz; reflexivity.
    - destruct (a =? c_semi)%N; [discriminate|].
      change (fold_left qstep r MBad) with (qscan MBad r). rewrite qscan_bad. reflexivity. }
  unfold s_ref. destruct r as [|d r]; [reflexivity|].
  destruct (d =? c_hash)%N eqn:Ed.
  - apply N.eqb_eq in Ed; subst d. destruct r as [|d2 r]; [reflexivity|].
    destruct (d2 =? c_x)%N eqn:Ex.
    + apply N.eqb_eq in Ex; subst d2. intros H.
      change (qscan (MAmp q) (c_hash :: c_x :: r)) with (qscan (MRef q) r).
      unfold s_hexref in H. destruct (dropw is_hex r) as [|d y] eqn:E.
      * rewrite (qscan_const (MRef q) is_alnum); [reflexivity| |].
        -- intros z Hz; cbn; rewrite Hz; reflexivity.
        -- eapply forallb_impl; [apply is_hex_alnum|apply dropw_nil_all; auto].
      * destruct (d =? c_semi)%N; [|discriminate]. destruct (int16 _) as [n|]; [|discriminate].
        unfold s_charcheck in H. destruct (_ <=? n)%N; [discriminate|]. destruct (_ <=? n)%N; [discriminate|].
        destruct (is_character n); discriminate.
    + intros H. apply Hn; auto. intros _. exists d2. split; [reflexivity|]. apply N.eqb_neq in Ex; auto.
  - intros H. apply Hn; auto. intros Hh. cbn in Hh. inversion Hh; subst. discriminate.
Qed.

(** Completed values lead from [MQuote q] to [MQuote q]; unfinished ones stay inside. *)
Lemma char_in_single c q : char_in c [q] = (c =? q)%N.
Proof. unfold char_in, existsb. apply orb_false_r. Qed.

Lemma quote_not_amp q : is_quote q = true -> q = c_dq \/ q = c_sq.
Proof. unfold is_quote, char_in, existsb. rewrite !orb_true_iff, !N.eqb_eq. intuition; discriminate. Qed.

Lemma attr_pat_not q c : is_quote q = true -> attr_pat q c = true -> (c =? q)%N = false /\ (c =? c_amp)%N = false.
Proof.
  intros Hq H.
  assert (A : forall k, attr_pat q k = false -> (c =? k)%N = false).
  { intros k Hk. destruct (N.eqb_spec c k); [subst; congruence|reflexivity]. }
  apply quote_not_amp in Hq as [->| ->]; rewrite !A by reflexivity; auto.
Qed.
Lemma datachar_not c : is_datachar c = true -> (c =? c_lt)%N = false /\ (c =? c_amp)%N = false.
Proof.
  intros H.
  assert (A : forall k, is_datachar k = false -> (c =? k)%N = false).
  { intros k Hk. destruct (N.eqb_spec c k); [subst; congruence|reflexivity]. }
  rewrite !A by reflexivity; auto.
Qed.

Lemma value_done_scan q : is_quote q = true -> forall n s d x, length s <= n ->
  s_cdata (attr_pat q) [q] s = SCDone d x ->
  exists b y, s = b ++ q :: y /\ x = q :: y /\ qscan (MQuote q) b = MQuote q.
Proof.
  intros Hq. induction n as [|n IH]; intros s d x Hn H; rewrite s_cdata_eq in H;
    (destruct s as [|c s]; [discriminate|]); cbn [length] in Hn; [lia|].
  destruct (attr_pat q c) eqn:Ep.
  - destruct (s_cdata (attr_pat q) [q] s) as [d' x'| |e] eqn:E; cbn in H; inversion H; subst.
    apply IH in E as (b & y & -> & -> & Hb); [|lia].
    exists (c :: b), y. repeat split. cbn [qscan fold_left]. cbn [qstep].
    destruct (attr_pat_not _ _ Hq Ep) as [-> ->]. exact Hb.
  - rewrite char_in_single in H. destruct (c =? q)%N eqn:Ec.
    { apply N.eqb_eq in Ec; subst c. inversion H; subst. exists [], s. auto. }
    destruct (c =? c_amp)%N eqn:Ea.
    + destruct (s_ref s) as [r x0| |e] eqn:Er; try discriminate.
      pose proof (s_ref_length _ _ _ Er). apply s_ref_scan in Er as (b0 & -> & Hb0 & _).
      destruct (s_cdata (attr_pat q) [q] x0) as [d' x'| |e] eqn:E; cbn in H; inversion H; subst.
      apply IH in E as (b & y & -> & -> & Hb); [|lia].
      exists (c :: b0 ++ b), y. split; [cbn [app]; rewrite <- app_assoc; reflexivity|]. split; [reflexivity|].
      change (qscan (qstep (MQuote q) c) (b0 ++ b) = MQuote q). cbn [qstep]. rewrite Ec, Ea.
      rewrite qscan_app, Hb0. exact Hb.
    + apply IH in H as (b & y & -> & -> & Hb); [|lia]. exists (c :: b), y. repeat split.
      change (qscan (qstep (MQuote q) c) b = MQuote q). cbn [qstep]. rewrite Ec, Ea. exact Hb.
Qed.

Lemma value_need_scan q : is_quote q = true -> forall n s, length s <= n ->
  s_cdata (attr_pat q) [q] s = SCNeed -> in_value (qscan (MQuote q) s) = true.
Proof.
  intros Hq. induction n as [|n IH]; intros s Hn H; rewrite s_cdata_eq in H;
    (destruct s as [|c s]; [reflexivity|]); cbn [length] in Hn; [lia|].
  destruct (attr_pat q c) eqn:Ep.
  - destruct (s_cdata (attr_pat q) [q] s) as [d' x'| |e] eqn:E; cbn in H; inversion H; subst.
    cbn [qscan fold_left]. cbn [qstep]. destruct (attr_pat_not _ _ Hq Ep) as [-> ->]. apply IH; auto; lia.
  - rewrite char_in_single in H. destruct (c =? q)%N eqn:Ec; [discriminate|].
    destruct (c =? c_amp)%N eqn:Ea.
    + change (in_value (qscan (qstep (MQuote q) c) s) = true). cbn [qstep]. rewrite Ec, Ea.
      destruct (s_ref s) as [r x0| |e] eqn:Er; try discriminate.
      * pose proof (s_ref_length _ _ _ Er). apply s_ref_scan in Er as (b0 & -> & Hb0 & _).
        destruct (s_cdata (attr_pat q) [q] x0) as [d' x'| |e] eqn:E; cbn in H; inversion H; subst.
        rewrite qscan_app, Hb0. apply IH; auto; lia.
      * apply s_ref_need_scan; auto.
    + change (in_value (qscan (qstep (MQuote q) c) s) = true). cbn [qstep]. rewrite Ec, Ea. apply IH; auto; lia.
Qed.

Lemma text_done_scan : forall n s d x, length s <= n ->
  s_cdata is_datachar [c_lt] s = SCDone d x ->
  exists b y, s = b ++ c_lt :: y /\ x = c_lt :: y /\ qscan MText b = MText.
Proof.
  induction n as [|n IH]; intros s d x Hn H; rewrite s_cdata_eq in H;
    (destruct s as [|c s]; [discriminate|]); cbn [length] in Hn; [lia|].
  destruct (is_datachar c) eqn:Ep.
  - destruct (s_cdata is_datachar [c_lt] s) as [d' x'| |e] eqn:E; cbn in H; inversion H; subst.
    apply IH in E as (b & y & -> & -> & Hb); [|lia].
    exists (c :: b), y. repeat split. cbn [qscan fold_left]. cbn [qstep].
    destruct (datachar_not _ Ep) as [-> _]. exact Hb.
  - rewrite char_in_single in H. destruct (c =? c_lt)%N eqn:Ec.
    { apply N.eqb_eq in Ec; subst c. inversion H; subst. exists [], s. auto. }
    destruct (c =? c_amp)%N eqn:Ea.
    + destruct (s_ref s) as [r x0| |e] eqn:Er; try discriminate.
      pose proof (s_ref_length _ _ _ Er). apply s_ref_scan in Er as (b0 & -> & _ & Hb0).
      destruct (s_cdata is_datachar [c_lt] x0) as [d' x'| |e] eqn:E; cbn in H; inversion H; subst.
      apply IH in E as (b & y & -> & -> & Hb); [|lia].
      exists (c :: b0 ++ b), y. split; [cbn [app]; rewrite <- app_assoc; reflexivity|]. split; [reflexivity|].
      change (qscan (qstep MText c) (b0 ++ b) = MText). cbn [qstep]. rewrite Ec.
      rewrite qscan_app, Hb0. exact Hb.
    + apply IH in H as (b & y & -> & -> & Hb); [|lia]. exists (c :: b), y. repeat split.
      change (qscan (qstep MText c) b = MText). cbn [qstep]. rewrite Ec. exact Hb.
Qed.

(** The invariant: the mode reached by the consumed text fits the machine state. *)
Definition mode_inv (m : qmode) (s : sst) : Prop :=
  match sc s with
  | PreElement | InElement | CompleteDoc => m = MText
  | PreTagGi | PreCompleteTagGi | CompleteTag => m = MTag
  | Attribute => exists c0 r0, rest s = c0 :: r0 /\
      ((m = MTag /\ is_namestart c0 = true) \/ (m = MAfterEq /\ is_quote c0 = false))
  end.

Lemma mode_step m s s' e : mode_inv m s ->
  mstep false s = Fall s' e \/ mstep false s = Again s' e ->
  exists b, rest s = b ++ rest s' /\ mode_inv (qscan m b) s'.
Proof.
  intros Hm H. destruct s as [r c g pe st at0]. unfold mstep in H. cbn [sc] in H.
  unfold mode_inv in Hm; cbn [sc rest] in *.
  destruct c.
  - subst m. unfold s_pre_element in H; cbn [sc rest] in H.
    destruct (dropw is_ws r) as [|c x] eqn:E; [destruct H; discriminate|].
    assert (Hws : qscan MText (takew is_ws r) = MText) by (apply (qscan_const MText is_ws); [apply qstep_ws_text|apply takew_all]).
    destruct (c =? c_lt)%N eqn:Ec; destruct H as [H|H]; inversion H; subst; clear H.
    + exists (takew is_ws r ++ [c]). cbn [rest w_sc w_rest]. split.
      * rewrite <- app_assoc. cbn. rewrite <- E, takew_dropw. reflexivity.
      * unfold mode_inv; cbn [sc w_sc]. rewrite qscan_app, Hws. cbn. rewrite Ec. reflexivity.
    + exists (takew is_ws r). cbn [rest w_rest]. rewrite <- E, takew_dropw. split; auto.
  - subst m. unfold s_in_element in H; cbn [sc rest] in H.
    destruct (s_cdata is_datachar [c_lt] r) as [d x| |x] eqn:E; try (destruct H; discriminate).
    eapply text_done_scan in E as (b & y & -> & -> & Hb); [|reflexivity].
    destruct H as [H|H]; inversion H; subst; clear H. exists (b ++ [c_lt]). cbn [rest w_sc w_rest tl].
    rewrite <- app_assoc. split; [reflexivity|]. unfold mode_inv; cbn [sc w_sc]. rewrite qscan_app, Hb. reflexivity.
  - subst m. unfold s_tag, s_tag_body in H; cbn [sc rest w_pend] in H.
    assert (Hws : qscan MTag (takew is_ws r) = MTag) by (apply (qscan_const MTag is_ws); [apply qstep_ws_tag|apply takew_all]).
    destruct (dropw is_ws r) as [|c x] eqn:E; [destruct H; discriminate|].
    assert (Hr : r = takew is_ws r ++ c :: x) by (rewrite <- E, takew_dropw; reflexivity).
    destruct (c =? c_slash)%N eqn:Ec; cbn [andb] in H.
    { destruct H as [H|H]; inversion H; subst; clear H. exists (takew is_ws r ++ [c]). cbn [rest w_pend w_sc w_rest].
      rewrite <- app_assoc. split; [exact Hr|]. unfold mode_inv; cbn [sc w_pend w_sc].
      rewrite qscan_app, Hws. apply N.eqb_eq in Ec; subst c. reflexivity. }
    destruct (is_namestart c) eqn:En.
    + destruct (dropw is_namechar x) as [|c2 x2] eqn:E2; [destruct H; discriminate|].
      destruct H as [H|H]; inversion H; subst; clear H. exists (takew is_ws r ++ c :: takew is_namechar x). cbn [rest].
      rewrite <- E2. split.
      * rewrite <- app_assoc. cbn [app]. rewrite takew_dropw. exact Hr.
      * unfold mode_inv; cbn [sc]. rewrite qscan_app, Hws.
        change (qscan (qstep MTag c) (takew is_namechar x) = MTag). rewrite (qstep_start_tag _ En).
        apply (qscan_const MTag is_namechar); [apply qstep_name_tag|apply takew_all].
    + destruct H as [H|H]; inversion H; subst; clear H. exists (takew is_ws r). cbn [rest]. split; auto.
  - subst m. unfold s_tag, s_tag_body in H; cbn [sc rest w_pend] in H.
    assert (Hws : qscan MTag (takew is_ws r) = MTag) by (apply (qscan_const MTag is_ws); [apply qstep_ws_tag|apply takew_all]).
    destruct (dropw is_ws r) as [|c x] eqn:E; [destruct H; discriminate|].
    assert (Hr : r = takew is_ws r ++ c :: x) by (rewrite <- E, takew_dropw; reflexivity).
    cbn [andb] in H.
    destruct (is_namestart c) eqn:En.
    + destruct (dropw is_namechar x) as [|c2 x2] eqn:E2; [destruct H; discriminate|].
      destruct H as [H|H]; inversion H; subst; clear H. exists (takew is_ws r ++ c :: takew is_namechar x). cbn [rest].
      rewrite <- E2. split.
      * rewrite <- app_assoc. cbn [app]. rewrite takew_dropw. exact Hr.
      * unfold mode_inv; cbn [sc]. rewrite qscan_app, Hws.
        change (qscan (qstep MTag c) (takew is_namechar x) = MTag). rewrite (qstep_start_tag _ En).
        apply (qscan_const MTag is_namechar); [apply qstep_name_tag|apply takew_all].
    + destruct H as [H|H]; inversion H; subst; clear H. exists (takew is_ws r). cbn [rest]. split; auto.
  - subst m. unfold s_complete_tag, s_after_gt in H; cbn [sc rest spend sgi sstk satt] in H.
    assert (Hws : qscan MTag (takew is_ws r) = MTag) by (apply (qscan_const MTag is_ws); [apply qstep_ws_tag|apply takew_all]).
    destruct (dropw is_ws r) as [|c x] eqn:E; [destruct H; discriminate|].
    assert (Hr : r = takew is_ws r ++ c :: x) by (rewrite <- E, takew_dropw; reflexivity).
    destruct (match pe with PendStart => true | PendEnd => false end && is_namestart c) eqn:Ea.
    { destruct H as [H|H]; inversion H; subst; clear H. exists (takew is_ws r). cbn [rest w_sc w_rest]. split; [exact Hr|].
      unfold mode_inv; cbn [sc w_sc rest w_rest]. exists c, x. split; [reflexivity|]. left.
      apply andb_true_iff in Ea as [_ Ea]. auto. }
    destruct (c =? c_gt)%N eqn:Ec; [|destruct H; discriminate]. apply N.eqb_eq in Ec; subst c.
    assert (Hb : r = (takew is_ws r ++ [c_gt]) ++ x) by (rewrite <- app_assoc; exact Hr).
    assert (Hq : qscan MTag (takew is_ws r ++ [c_gt]) = MText) by (rewrite qscan_app, Hws; reflexivity).
    destruct pe.
    + destruct x as [|c1 x]; [destruct H; discriminate|].
      destruct H as [H|H]; inversion H; subst; clear H. eexists; split; [exact Hb|]. rewrite Hq. reflexivity.
    + destruct st as [|o st]; [destruct H; discriminate|].
      destruct (str_eqb o g); [|destruct H; discriminate].
      destruct x as [|c1 x]; [destruct H; discriminate|].
      destruct H as [H|H]; inversion H; subst; clear H. eexists; split; [exact Hb|]. rewrite Hq.
      destruct st; reflexivity.
  - unfold s_complete_doc in H; cbn [sc rest] in H.
    destruct r as [|c0 r0]; [destruct H; discriminate|].
    destruct (dropw is_ws (c0 :: r0)); destruct H; discriminate.
  - destruct Hm as (c0 & r0 & -> & Hm).
    unfold s_attribute in H; cbn [sc rest] in H.
    assert (H1 : qstep m c0 = MTag).
    { destruct Hm as [[-> Hc]|[-> Hc]]; [apply qstep_start_tag; auto|cbn [qstep]; rewrite Hc; reflexivity]. }
    destruct (dropw is_namechar r0) as [|c1 r1] eqn:E1; [destruct H; discriminate|].
    destruct (dropw is_ws (c1 :: r1)) as [|c r2] eqn:E2; [destruct H; discriminate|].
    destruct (c =? c_eq)%N eqn:Ec; [|destruct H; discriminate]. apply N.eqb_eq in Ec; subst c.
    set (b := c0 :: takew is_namechar r0 ++ takew is_ws (c1 :: r1) ++ [c_eq]).
    assert (Hb : c0 :: r0 = b ++ r2).
    { unfold b. cbn [app]. rewrite <- !app_assoc. f_equal.
      rewrite <- (takew_dropw is_namechar r0) at 1. rewrite E1. f_equal.
      rewrite <- (takew_dropw is_ws (c1 :: r1)) at 1. rewrite E2. reflexivity. }
    assert (Hq : qscan m b = MAfterEq).
    { unfold b. change (qscan (qstep m c0) (takew is_namechar r0 ++ takew is_ws (c1 :: r1) ++ [c_eq]) = MAfterEq).
      rewrite H1, !qscan_app.
      rewrite (qscan_const MTag is_namechar); [|apply qstep_name_tag|apply takew_all].
      rewrite (qscan_const MTag is_ws); [|apply qstep_ws_tag|apply takew_all]. reflexivity. }
    destruct r2 as [|q r3]; [destruct H; discriminate|].
    destruct (is_quote q) eqn:Eq.
    + destruct (s_cdata (attr_pat q) [q] r3) as [d x| |x] eqn:E; try (destruct H; discriminate).
      eapply value_done_scan in E as (b2 & y & -> & -> & Hb2); [|auto|reflexivity].
      destruct H as [H|H]; inversion H; subst; clear H.
      exists (b ++ q :: b2 ++ [q]). cbn [rest tl]. split.
      * rewrite Hb. rewrite <- !app_assoc. cbn [app]. rewrite <- app_assoc. reflexivity.
      * unfold mode_inv; cbn [sc]. rewrite qscan_app, Hq.
        change (qscan (qstep MAfterEq q) (b2 ++ [q]) = MTag). cbn [qstep]. rewrite Eq, qscan_app, Hb2.
        cbn. rewrite N.eqb_refl. reflexivity.
    + destruct H as [H|H]; inversion H; subst; clear H. exists b. cbn [rest w_rest]. split; auto.
      unfold mode_inv; cbn [sc w_rest rest]. exists q, r3. split; auto.
Qed.

Lemma incomplete_in_value m s : mode_inv m s -> value_incomplete s -> in_value (qscan m (rest s)) = true.
Proof.
  intros Hm (Hsc & c0 & nm & ws & q & r3 & Hr & Hnm & Hws & Hq & Hcd).
  unfold mode_inv in Hm. rewrite Hsc in Hm. destruct Hm as (c0' & r0 & Hr' & Hm).
  rewrite Hr in *. inversion Hr'; subst c0'.
  assert (Hq0 : qstep m c0 = MTag).
  { destruct Hm as [[-> Hc]|[-> Hc]]; [apply qstep_start_tag; auto|cbn [qstep]; rewrite Hc; reflexivity]. }
  change (in_value (qscan (qstep m c0) (nm ++ ws ++ c_eq :: q :: r3)) = true).
  rewrite Hq0, !qscan_app.
  rewrite (qscan_const MTag is_namechar); [|apply qstep_name_tag|auto].
  rewrite (qscan_const MTag is_ws); [|apply qstep_ws_tag|auto].
  change (in_value (qscan (qstep MAfterEq q) r3) = true). cbn [qstep]. rewrite Hq.
  eapply value_need_scan; eauto.
Qed.

(** ** Chunking at the level of the machine *)
Definition resume (f : str) (r : lres sst) : lres sst :=
  match r with
  | LStop s e => lprepend e (M false (ext s f))
  | LRaise x e => LRaise x e
  | LHang e => LHang e
  end.

Lemma resume_prepend f e r : resume f (lprepend e r) = lprepend e (resume f r).
Proof. destruct r; cbn; rewrite ?lprepend_app; reflexivity. Qed.

Lemma M_ext f : f <> [] -> forall k m s, mu s <= k -> mode_inv m s ->
  in_value (qscan m (rest s)) = false -> M false (ext s f) = resume f (M false s).
Proof.
  intros Hf.
  assert (Hstep : forall m s s' e, mode_inv m s -> in_value (qscan m (rest s)) = false ->
    (mstep false s = Fall s' e \/ mstep false s = Again s' e) ->
    M false (ext s' f) = resume f (M false s') ->
    M false (ext s f) = resume f (M false s)).
  { intros m s s' e Hm Hv Hs IH. rewrite (M_eq false (ext s f)), (M_eq false s).
    rewrite (mstep_ext _ _ _ f Hs).
    destruct Hs as [Hs|Hs]; rewrite Hs; cbn [flow_ext flow_map flow_run];
      rewrite resume_prepend; f_equal; exact IH. }
  assert (Hstuck : forall s, stuck (mstep false) s -> M false (ext s f) = resume f (M false s)).
  { intros s Hs. rewrite (M_stuck false s Hs). cbn. apply M_stuck.
    destruct Hs as [Hs|Hs].
    - left. rewrite (mstep_ext s s [] f) by auto. rewrite Hs. reflexivity.
    - right. rewrite (mstep_ext s s [] f) by auto. rewrite Hs. reflexivity. }
  induction k as [k IHk] using lt_wf_ind. intros m s Hk Hm Hv.
  destruct (mstep false s) as [s' e|s' e|s' e|s' e|x e] eqn:E.
  - destruct (mode_step m s s' e Hm (or_introl E)) as (b & Hb & Hm').
    destruct (mstep_decreasing false s s' e (or_introl E)) as [Hd|Hd].
    + eapply Hstep; eauto. eapply (IHk (mu s')); eauto; try lia.
      rewrite <- qscan_app, <- Hb. exact Hv.
    + eapply Hstep; eauto.
  - destruct (mode_step m s s' e Hm (or_intror E)) as (b & Hb & Hm').
    destruct (mstep_decreasing false s s' e (or_intror E)) as [Hd|Hd].
    + eapply Hstep; eauto. eapply (IHk (mu s')); eauto; try lia.
      rewrite <- qscan_app, <- Hb. exact Hv.
    + eapply Hstep; eauto.
  - destruct (mstep_ext_need s s' e f Hf (or_introl E)) as [H|H].
    + rewrite (M_eq false s), E. cbn [flow_run resume]. exact H.
    + exfalso. apply (incomplete_in_value m) in H; auto. congruence.
  - destruct (mstep_ext_need s s' e f Hf (or_intror E)) as [H|H].
    + rewrite (M_eq false s), E. cbn [flow_run resume]. exact H.
    + exfalso. apply (incomplete_in_value m) in H; auto. congruence.
  - rewrite (M_eq false (ext s f)), (mstep_ext_raise _ _ _ f E), (M_eq false s), E. reflexivity.
Qed.

(** ** Chunking for the coroutine *)
Definition start_state (text : str) : sst := mkS text PreElement [] PendStart [] [].

(** What [send] does, in terms of the machine. *)
Lemma send_M w s f done : ok_in w s -> f <> [] ->
  match M done (ext (abs s) f) with
  | LStop t e => exists g, send (GRun s) f done = SOk g e /\
      (if done then g = GFinal else exists s', g = GRun s' /\ ok_in (w ++ f) s' /\ abs s' = t)
  | LRaise x e => send (GRun s) f done = SRaise x e
  | LHang e => send (GRun s) f done = SHang e
  end.
Proof.
  intros [Hw Hp] Hf. unfold send. destruct f as [|f0 f]; [congruence|]. set (F := f0 :: f) in *.
  set (s1 := mkP (window s ++ F) (pos s) (cstate s) (gi s) (pend s) (stack s) (attribs s)).
  assert (Hok : ok_in (w ++ F) s1) by (split; cbn; [congruence|rewrite app_length; lia]).
  assert (Habs : abs s1 = ext (abs s) F).
  { unfold abs, ext, w_rest, s1; cbn [pos window cstate gi pend stack attribs rest sc sgi spend sstk satt].
    rewrite skipn_app. replace (pos s - length (window s)) with 0 by (subst w; lia). reflexivity. }
  destruct (loop_M (w ++ F) done (enough s1) s1 Hok (enough_mu _ _ Hok)) as [H1 H2].
  rewrite Habs in H2. rewrite <- H2.
  destruct (loop (enough s1) done s1) as [s' e|x e|e]; cbn [lres_map lres_all] in *; [|reflexivity|reflexivity].
  eexists; split; [reflexivity|]. destruct done; [reflexivity|]. eauto.
Qed.

Lemma ok_init : ok_in [] init_pst. Proof. split; cbn; auto. Qed.
Lemma abs_init f : ext (abs init_pst) f = start_state f. Proof. reflexivity. Qed.

(** The reachable suspended states: those obtained from a single piece. *)
Definition reaches (text : str) (evs : list event) (s : pst) : Prop :=
  ok_in text s /\
  match text with
  | [] => s = init_pst /\ evs = []
  | _ => M false (start_state text) = LStop (abs s) evs
  end.

Lemma mode_start text : mode_inv MText (start_state text).
Proof. reflexivity. Qed.

Lemma M_more text f evs s : f <> [] -> reaches text evs s -> ends_in_value text = false ->
  M false (start_state (text ++ f)) = lprepend evs (M false (ext (abs s) f)).
Proof.
  intros Hf [Hok Hr] Hv. destruct text as [|c text].
  - destruct Hr as [-> ->]. rewrite lprepend_nil. reflexivity.
  - change (start_state ((c :: text) ++ f)) with (ext (start_state (c :: text)) f).
    rewrite (M_ext f Hf (mu (start_state (c :: text))) MText); [|lia|apply mode_start|exact Hv].
    rewrite Hr. reflexivity.
Qed.

Definition add_events (e : list event) (r : list event * outcome) : list event * outcome :=
  (e ++ fst r, snd r).

Lemma sends_cons g f d l : sends g ((f, d) :: l) =
  match send g f d with
  | SOk g' evs => add_events evs (sends g' l)
  | SRaise e evs => (evs, Raised e)
  | SHang evs => (evs, Hung)
  end.
Proof.
  cbn [sends]. destruct (send g f d); try reflexivity. unfold add_events. destruct (sends g0 l); reflexivity.
Qed.

Definition nf (l : list str) : list (str * bool) := map (fun f => (f, false)) l.

Lemma sends_pieces : forall pieces text evs s,
  reaches text evs s ->
  safe_cuts_from text pieces = true -> (ends_in_value text = false \/ concat pieces = []) ->
  add_events evs (sends (GRun s) (nf pieces)) = sends new_parser (nf [text ++ concat pieces]).
Proof.
  (* feeding the empty piece list from a reachable state *)
  assert (Hnil : forall text evs s, reaches text evs s ->
     (evs, Suspended (GRun s)) = sends new_parser (nf [text])).
  { intros text evs s [Hok Hr]. cbn [nf map]. rewrite sends_cons.
    destruct text as [|c text]. { destruct Hr as [-> ->]. reflexivity. }
    pose proof (send_M [] init_pst (c :: text) false ok_init ltac:(discriminate)) as Hs.
    rewrite abs_init, Hr in Hs. destruct Hs as (g & Hsend & s' & -> & Hok' & Ha).
    change new_parser with (GRun init_pst). rewrite Hsend. cbn [sends]. cbn [app] in Hok'. rewrite (abs_inj _ _ _ Hok' Hok Ha). unfold add_events. cbn. rewrite app_nil_r. reflexivity. }
  induction pieces as [|p pieces IH]; intros text evs s Hr Hsafe Hv.
  - cbn [concat nf map sends]. unfold add_events. cbn. rewrite !app_nil_r. apply Hnil; auto.
  - cbn [nf map]. rewrite sends_cons. cbn [concat] in *.
    destruct p as [|c p].
    { (* empty piece *)
      cbn [send]. unfold add_events at 2; cbn [app]. rewrite <- surjective_pairing.
      apply IH; auto. cbn [safe_cuts_from] in Hsafe. destruct pieces; auto.
      rewrite app_nil_r in Hsafe. apply andb_true_iff in Hsafe as [_ Hs]. exact Hs. }
    assert (Hv' : ends_in_value text = false) by (destruct Hv as [Hv|Hv]; [auto|discriminate]).
    set (P := c :: p) in *.
    pose proof (M_more text P evs s ltac:(discriminate) Hr Hv') as HM.
    destruct Hr as [Hok Hr].
    pose proof (send_M text s P false Hok ltac:(discriminate)) as Hs.
    pose proof (send_M [] init_pst (text ++ P) false ok_init ltac:(unfold P; destruct text; discriminate)) as Hs0.
    rewrite abs_init, HM in Hs0.
    destruct (M false (ext (abs s) P)) as [t e|x e|e] eqn:EM; cbn [lprepend] in Hs0.
    + destruct Hs as (g & -> & s' & -> & Hok' & Ha).
      assert (Hr' : reaches (text ++ P) (evs ++ e) s').
      { split; auto. subst t. cbn [lprepend] in HM.
        destruct (text ++ P) eqn:Et; [exfalso; destruct text; discriminate|]. exact HM. }
      transitivity (sends new_parser (nf [(text ++ P) ++ concat pieces])); [|rewrite <- app_assoc; reflexivity].
      rewrite <- (IH (text ++ P) (evs ++ e) s' Hr').
      * unfold add_events. cbn [fst snd]. rewrite app_assoc. reflexivity.
      * cbn [safe_cuts_from] in Hsafe. destruct pieces; auto. apply andb_true_iff in Hsafe as [_ H]; exact H.
      * cbn [safe_cuts_from] in Hsafe. destruct pieces as [|p2 ps]; [right; reflexivity|].
        apply andb_true_iff in Hsafe as [H _]. left. destruct (ends_in_value (text ++ P)); auto; discriminate.
    + rewrite Hs. unfold add_events; cbn [fst snd].
      assert (Hext : forall g, send new_parser (text ++ P ++ g) false = SRaise x (evs ++ e)).
      { intros g. destruct g as [|g0 g].
        - rewrite app_nil_r. exact Hs0.
        - set (G := g0 :: g).
          pose proof (send_M [] init_pst (text ++ P ++ G) false ok_init ltac:(unfold P; destruct text; discriminate)) as Hs1.
          rewrite abs_init in Hs1.
          assert (HMr : M false (start_state (text ++ P ++ G)) = LRaise x (evs ++ e)).
          { pose proof (M_more text (P ++ G) evs s ltac:(discriminate) (conj Hok Hr) Hv') as HM2.
            rewrite HM2, <- ext_app.
            (* the run on P raised; it raises with more input as well *)
            assert (Hraise : forall k s0 x0 e0, mu s0 <= k -> M false s0 = LRaise x0 e0 -> M false (ext s0 G) = LRaise x0 e0).
            { clear. intros k. induction k as [k IHk] using lt_wf_ind. intros s0 x0 e0 Hk H.
              rewrite (M_eq false s0) in H. rewrite (M_eq false (ext s0 G)).
              destruct (mstep false s0) as [s' e'|s' e'|s' e'|s' e'|x' e'] eqn:E; cbn [flow_run] in H; try discriminate.
              - rewrite (mstep_ext s0 s' e' G (or_introl E)), E. cbn.
                destruct (M false s') as [?|x1 e1|?] eqn:E1; cbn in H; try discriminate.
                destruct (mstep_decreasing false s0 s' e' (or_introl E)) as [Hd|Hd].
                + rewrite (IHk (mu s') ltac:(lia) s' x1 e1 ltac:(lia) E1). exact H.
                + rewrite (M_stuck _ _ Hd) in E1. discriminate.
              - rewrite (mstep_ext s0 s' e' G (or_intror E)), E. cbn.
                destruct (M false s') as [?|x1 e1|?] eqn:E1; cbn in H; try discriminate.
                destruct (mstep_decreasing false s0 s' e' (or_intror E)) as [Hd|Hd].
                + rewrite (IHk (mu s') ltac:(lia) s' x1 e1 ltac:(lia) E1). exact H.
                + rewrite (M_stuck _ _ Hd) in E1. discriminate.
              - rewrite (mstep_ext_raise _ _ _ G E). exact H. }
            rewrite (Hraise _ _ x e (le_n _) EM). reflexivity. }
          rewrite HMr in Hs1. exact Hs1. }
      cbn [nf map]. rewrite sends_cons. rewrite Hext. reflexivity.
    + rewrite Hs. unfold add_events; cbn [fst snd].
      assert (Hext : forall g, send new_parser (text ++ P ++ g) false = SHang (evs ++ e)).
      { intros g. destruct g as [|g0 g].
        - rewrite app_nil_r. exact Hs0.
        - set (G := g0 :: g).
          pose proof (send_M [] init_pst (text ++ P ++ G) false ok_init ltac:(unfold P; destruct text; discriminate)) as Hs1.
          rewrite abs_init in Hs1.
          assert (HMr : M false (start_state (text ++ P ++ G)) = LHang (evs ++ e)).
          { pose proof (M_more text (P ++ G) evs s ltac:(discriminate) (conj Hok Hr) Hv') as HM2.
            rewrite HM2, <- ext_app.
            assert (Hhang : forall k s0 e0, mu s0 <= k -> M false s0 = LHang e0 -> M false (ext s0 G) = LHang e0).
            { clear. intros k. induction k as [k IHk] using lt_wf_ind. intros s0 e0 Hk H.
              rewrite (M_eq false s0) in H. rewrite (M_eq false (ext s0 G)).
              destruct (mstep false s0) as [s' e'|s' e'|s' e'|s' e'|x' e'] eqn:E; cbn [flow_run] in H; try discriminate.
              - rewrite (mstep_ext s0 s' e' G (or_introl E)), E. cbn.
                destruct (M false s') as [?|?|e1] eqn:E1; cbn in H; try discriminate.
                destruct (mstep_decreasing false s0 s' e' (or_introl E)) as [Hd|Hd].
                + rewrite (IHk (mu s') ltac:(lia) s' e1 ltac:(lia) E1). exact H.
                + rewrite (M_stuck _ _ Hd) in E1. inversion E1; subst e1.
                  rewrite M_stuck; [exact H|]. destruct Hd as [Hd|Hd];
                    [left|right]; rewrite (mstep_ext s' s' [] G) by auto; rewrite Hd; reflexivity.
              - rewrite (mstep_ext s0 s' e' G (or_intror E)), E. cbn.
                destruct (M false s') as [?|?|e1] eqn:E1; cbn in H; try discriminate.
                destruct (mstep_decreasing false s0 s' e' (or_intror E)) as [Hd|Hd].
                + rewrite (IHk (mu s') ltac:(lia) s' e1 ltac:(lia) E1). exact H.
                + rewrite (M_stuck _ _ Hd) in E1. inversion E1; subst e1.
                  rewrite M_stuck; [exact H|]. destruct Hd as [Hd|Hd];
                    [left|right]; rewrite (mstep_ext s' s' [] G) by auto; rewrite Hd; reflexivity. }
            rewrite (Hhang _ _ e (le_n _) EM). reflexivity. }
          rewrite HMr in Hs1. exact Hs1. }
      cbn [nf map]. rewrite sends_cons. rewrite Hext. reflexivity.
Qed.

Theorem feed_pieces pieces : safe_cuts pieces = true -> feed pieces = feed [concat pieces].
Proof.
  intros H. unfold feed.
  assert (Hr : reaches [] [] init_pst) by (split; [apply ok_init|auto]).
  pose proof (sends_pieces pieces [] [] init_pst Hr H (or_introl eq_refl)) as Hs.
  unfold add_events in Hs. cbn [app] in Hs. rewrite <- surjective_pairing in Hs. exact Hs.
Qed.
