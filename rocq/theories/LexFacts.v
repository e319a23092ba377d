(** Proofs about the scanner. *)
From Verif Require Import PyStr CharClass TreeUtil XTree Grammar Lex LexSpec.
Local Open Scope N_scope.

(** ** Line ends *)
Lemma crlf_lines n : forall s, (length s <= n)%nat -> lines s (normalise s).
Proof.
  induction n as [|n IH]; intros s Hl.
  - destruct s; [constructor|inversion Hl].
  - destruct s as [|c r]; [constructor|]. cbn [length] in Hl. unfold normalise. destruct r as [|d r'].
    + cbn. destruct (N.eqb_spec c c_cr) as [-> | Hc]; [apply ln_cr; [discriminate|constructor]|apply ln_other; [exact Hc|constructor]].
    + cbn [replace_crlf]. destruct (N.eqb_spec c c_cr) as [-> | Hc]; cbn [andb].
      * destruct (N.eqb_spec d c_nl) as [-> | Hd].
        -- cbn [replace_char flat_map]. change (c_nl =? c_cr) with false. cbn [app]. apply ln_crlf. apply IH. cbn [length] in Hl. lia.
        -- cbn [replace_char flat_map]. change (c_cr =? c_cr) with true. cbn [app]. apply ln_cr; [intros r E; inversion E; congruence|]. apply IH. lia.
      * cbn [replace_char flat_map]. rewrite (proj2 (N.eqb_neq _ _) Hc). cbn [app]. apply ln_other; [exact Hc|]. apply IH. lia.
Qed.
Lemma lines_fun s : forall t u, lines s t -> lines s u -> t = u.
Proof.
  intros t u H. revert u. induction H as [|s t H IH|s t Hn H IH|c s t Hc H IH]; intros u H'; inversion H'; subst; try congruence; try (f_equal; apply IH; assumption); exfalso; eauto.
Qed.
Lemma normalise_lines s t : normalise s = t <-> lines s t.
Proof. split; [intros <-; apply (crlf_lines (length s)); lia|]. intros H. eapply lines_fun; [apply (crlf_lines (length s)); lia|exact H]. Qed.
Lemma lines_no_cr s t : lines s t -> ~ In c_cr t.
Proof. induction 1; cbn [In]; [tauto| | |]; intros [E|E]; try discriminate; auto. Qed.
Lemma no_cr_lines s : ~ In c_cr s -> lines s s.
Proof. induction s as [|c s IH]; intros H; [constructor|]. apply ln_other; [intros ->; apply H; left; reflexivity|]. apply IH. intros Hc. apply H. right. exact Hc. Qed.
Lemma normalise_id s : ~ In c_cr s -> normalise s = s.
Proof. intros H. apply normalise_lines. apply no_cr_lines. exact H. Qed.

(** ** Regular expressions *)
Fixpoint dropw (f : chr -> bool) (s : str) : str := match s with c :: r => if f c then dropw f r else s | [] => [] end.
Fixpoint takew (f : chr -> bool) (s : str) : str := match s with c :: r => if f c then c :: takew f r else [] | [] => [] end.
Lemma take_drop f s : s = takew f s ++ dropw f s.
Proof. induction s as [|c s IH]; [reflexivity|]. cbn [takew dropw]. destruct (f c); [cbn [app]; f_equal; exact IH|reflexivity]. Qed.
Lemma takew_all f s c : In c (takew f s) -> f c = true.
Proof. induction s as [|d s IH]; cbn [takew]; [intros []|]. destruct (f d) eqn:E; [|intros []]. intros [<- | H]; auto. Qed.
Lemma dropw_head f s : ~ head_is f (dropw f s).
Proof. induction s as [|d s IH]; cbn [dropw]; [intros (c & r & E & _); discriminate|]. destruct (f d) eqn:E; [exact IH|]. intros (c & r & E' & Hc). inversion E'; subst. congruence. Qed.
Lemma dropw_app f a b : (forall c, In c a -> f c = true) -> ~ head_is f b -> dropw f (a ++ b) = b.
Proof.
  intros Ha Hb. induction a as [|c a IH]; cbn [app dropw].
  - destruct b as [|c b]; [reflexivity|]. cbn [dropw]. destruct (f c) eqn:E; [|reflexivity]. exfalso. apply Hb. exists c, b. auto.
  - rewrite Ha by (left; reflexivity). apply IH. intros d Hd. apply Ha. right. exact Hd.
Qed.
Lemma many_some f s : many f Some s = Some (dropw f s).
Proof. induction s as [|c s IH]; [reflexivity|]. cbn [many dropw]. rewrite IH. destruct (f c); reflexivity. Qed.
Lemma many_none f k s : (forall c r, f c = true -> k (c :: r) = None) -> many f k s = k (dropw f s).
Proof. intros H. induction s as [|c s IH]; [reflexivity|]. cbn [many dropw]. rewrite IH. destruct (f c) eqn:E; [|reflexivity]. destruct (k (dropw f s)); [reflexivity|]. apply H. exact E. Qed.
Lemma many_sound f k s x : many f k s = Some x -> exists a b, s = a ++ b /\ (forall c, In c a -> f c = true) /\ k b = Some x.
Proof.
  induction s as [|c s IH]; cbn [many]; intros H.
  - exists [], []. repeat split; [intros ? []|exact H].
  - destruct (f c) eqn:E; [|exists [], (c :: s); repeat split; [intros ? []|exact H]]. destruct (many f k s) as [y|].
    + inversion H; subst y. destruct (IH eq_refl) as (a & b & -> & Ha & Hk). exists (c :: a), b. repeat split; [intros d [<- | Hd]; auto|exact Hk].
    + exists [], (c :: s). repeat split; [intros ? []|exact H].
Qed.
Lemma many_complete f k s a b x : s = a ++ b -> (forall c, In c a -> f c = true) -> k b = Some x -> exists y, many f k s = Some y.
Proof.
  revert s. induction a as [|c a IH]; intros s -> Ha Hk; cbn [app].
  - destruct b as [|c b]; cbn [many]; [eauto|]. destruct (f c); [|eauto]. destruct (many f k b); eauto.
  - cbn [many]. rewrite Ha by (left; reflexivity). destruct (IH (a ++ b) eq_refl) as (y & Hy); [intros d Hd; apply Ha; right; exact Hd|exact Hk|]. rewrite Hy. eauto.
Qed.
Lemma rmatch_plus f s : rmatch (plus f) s = match s with c :: r => if f c then Some (dropw f r) else None | [] => None end.
Proof. destruct s as [|c r]; [reflexivity|]. unfold plus. cbn [rmatch]. destruct (f c); [|reflexivity]. apply many_some. Qed.

(** Disjoint classes *)
Lemma ws_cases c : lex_ws c = true -> c = 9 \/ c = 10 \/ c = 32.
Proof. unfold lex_ws, char_in. cbn [existsb]. rewrite !orb_true_iff, !N.eqb_eq. unfold c_tab, c_nl, c_sp. intuition discriminate. Qed.
Lemma ws_not_start c : lex_ws c = true -> is_namestart c = false.
Proof. intros H. destruct (ws_cases c H) as [-> | [-> | ->]]; reflexivity. Qed.
Lemma ws_not_name c : lex_ws c = true -> is_namechar c = false.
Proof. intros H. destruct (ws_cases c H) as [-> | [-> | ->]]; reflexivity. Qed.
Lemma ws_data c : lex_ws c = true -> is_datachar c = true.
Proof. intros H. destruct (ws_cases c H) as [-> | [-> | ->]]; reflexivity. Qed.
Lemma lex_ws_spec c : lex_ws c = true <-> In c (lit " " ++ [c_tab; c_nl]).
Proof.
  split; [intros H; destruct (ws_cases c H) as [-> | [-> | ->]]; cbn; tauto|]. cbn. intros H. repeat (destruct H as [<- | H]; [reflexivity|]). destruct H.
Qed.
Lemma wsp_spec s : wsp s <-> forall c, In c s -> lex_ws c = true.
Proof. unfold wsp. rewrite Forall_forall. split; intros H c Hc; apply lex_ws_spec; auto. Qed.
Lemma name_not c : is_namechar c = true -> c <> 0x3E /\ c <> 0x2F.
Proof. intros H. split; intros ->; discriminate. Qed.
Lemma hex_not c : is_hex c = true -> (59 =? c) = false.
Proof. intros H. destruct (N.eqb_spec 59 c) as [<- |]; [discriminate|reflexivity]. Qed.
Lemma gt_ws c : lex_ws c = true -> (62 =? c) = false.
Proof. intros H. destruct (ws_cases c H) as [-> | [-> | ->]]; reflexivity. Qed.

(** ** The rules *)
Definition ws_name (p : list atom) : list atom := [Many lex_ws] ++ name_pat ++ p.
Lemma match_ws_name p s : (forall c r, is_namechar c = true -> rmatch p (c :: r) = None) \/ (exists f, p = [Many f]) ->
  rmatch (ws_name p) s = match dropw lex_ws s with c :: r => if is_namestart c then rmatch p (dropw is_namechar r) else None | [] => None end.
Proof.
  intros Hp. unfold ws_name, name_pat. cbn [app rmatch]. rewrite many_none.
  - destruct (dropw lex_ws s) as [|c r]; [reflexivity|]. destruct (is_namestart c); [|reflexivity]. destruct Hp as [Hp|(f & ->)]; [apply many_none; exact Hp|].
    cbn [rmatch]. clear. induction r as [|d r IH]; [reflexivity|]. cbn [many dropw]. rewrite IH. destruct (is_namechar d); [|reflexivity].
    rewrite many_some. reflexivity.
  - intros c r Hc. rewrite (ws_not_start c Hc). reflexivity.
Qed.
Lemma match_close s : rmatch ([Many lex_ws] ++ chars ">") s = match dropw lex_ws s with c :: r => if 62 =? c then Some r else None | [] => None end.
Proof. cbn [app rmatch chars map lit]. apply many_none. intros c r Hc. change (N_of_ascii ">") with 62. rewrite (gt_ws c Hc). reflexivity. Qed.
Lemma start_rule s : rmatch (ws_name [Many lex_ws]) s = match dropw lex_ws s with c :: r => if is_namestart c then Some (dropw lex_ws (dropw is_namechar r)) else None | [] => None end.
Proof. rewrite match_ws_name by (right; eauto). destruct (dropw lex_ws s) as [|c r]; [reflexivity|]. cbn [rmatch]. rewrite many_some. reflexivity. Qed.
Lemma end_rule s : rmatch (ws_name ([Many lex_ws] ++ chars ">")) s =
  match dropw lex_ws s with
  | c :: r => if is_namestart c then match dropw lex_ws (dropw is_namechar r) with d :: r' => if 62 =? d then Some r' else None | [] => None end else None
  | [] => None
  end.
Proof.
  rewrite match_ws_name.
  - destruct (dropw lex_ws s) as [|c r]; [reflexivity|]. rewrite match_close. reflexivity.
  - left. intros c r Hc. rewrite match_close. cbn [dropw]. destruct (lex_ws c) eqn:E; [rewrite (ws_not_name c E) in Hc; discriminate|].
    destruct (N.eqb_spec 62 c) as [<- |]; [discriminate|reflexivity].
Qed.
Lemma num_rule s : rmatch (plus is_hex ++ chars ";") s = match s with c :: r => if is_hex c then match dropw is_hex r with d :: r' => if 59 =? d then Some r' else None | [] => None end else None | [] => None end.
Proof.
  unfold plus. cbn [app rmatch]. destruct s as [|c r]; [reflexivity|]. destruct (is_hex c); [|reflexivity]. apply many_none. intros d r' Hd. cbn [chars map lit rmatch]. 
  change (N_of_ascii ";") with 59. rewrite (hex_not d Hd). reflexivity.
Qed.
Lemma dash_end_unique a1 r1 a2 r2 : (forall c, In c a1 -> is_datachar c = true) -> (forall c, In c a2 -> is_datachar c = true) ->
  a1 ++ lit "-->" ++ r1 = a2 ++ lit "-->" ++ r2 -> a1 = a2 /\ r1 = r2.
Proof.
  intros H1 H2 E.
  assert (K : forall b1 b2 s1 s2, (forall c, In c b1 -> is_datachar c = true) -> (forall c, In c b2 -> is_datachar c = true) -> b1 ++ 62 :: s1 = b2 ++ 62 :: s2 -> b1 = b2 /\ s1 = s2).
  { intros b1. induction b1 as [|x b1 IH]; intros [|y b2] s1 s2 Hb1 Hb2 Eq; cbn [app] in Eq.
    - inversion Eq; auto.
    - inversion Eq; subst y. specialize (Hb2 62 (or_introl eq_refl)). discriminate.
    - inversion Eq; subst x. specialize (Hb1 62 (or_introl eq_refl)). discriminate.
    - inversion Eq as [[E1 E2]]; subst y. destruct (IH b2 s1 s2) as (-> & ->); auto; intros c Hc; [apply Hb1|apply Hb2]; right; exact Hc. }
  change (lit "-->" ++ r1) with (lit "--" ++ 62 :: r1) in E. change (lit "-->" ++ r2) with (lit "--" ++ 62 :: r2) in E. rewrite !app_assoc in E.
  assert (D : forall a, (forall c, In c a -> is_datachar c = true) -> forall c, In c (a ++ lit "--") -> is_datachar c = true).
  { intros a Ha c Hc. apply in_app_or in Hc as [Hc|[<- |[<- |[]]]]; auto. }
  destruct (K (a1 ++ lit "--") (a2 ++ lit "--") r1 r2 (D a1 H1) (D a2 H2) E) as (E1 & ->). split; [|reflexivity]. eapply app_inv_tail. exact E1.
Qed.
Lemma comment_rule s r : rmatch ([Many is_datachar] ++ chars "-->") s = Some r <-> exists a, s = a ++ lit "-->" ++ r /\ forall c, In c a -> is_datachar c = true.
Proof.
  assert (K : forall b x, rmatch (chars "-->") b = Some x <-> b = lit "-->" ++ x).
  { intros b x. cbn [chars map lit rmatch]. split.
    - intros H. repeat (destruct b as [|? b]; [discriminate|]; match type of H with (if ?x =? ?y then _ else _) = _ => destruct (N.eqb_spec x y) as [<- |]; [|discriminate] end).
      inversion H. reflexivity.
    - intros ->. reflexivity. }
  cbn [app rmatch]. split.
  - intros H. destruct (many_sound _ _ _ _ H) as (a & b & -> & Ha & Hb). apply K in Hb as ->. eauto.
  - intros (a & -> & Ha). destruct (many_complete is_datachar (rmatch (chars "-->")) (a ++ lit "-->" ++ r) a (lit "-->" ++ r) r eq_refl Ha) as (y & Hy); [reflexivity|].
    rewrite Hy. destruct (many_sound _ _ _ _ Hy) as (a' & b' & E & Ha' & Hb'). apply K in Hb' as ->. destruct (dash_end_unique a r a' y Ha Ha' E) as (_ & ->). reflexivity.
Qed.
Lemma rmatch_app_chars l p s : rmatch (map (fun c => One (N.eqb c)) l ++ p) s =
  (fix go l s := match l with [] => rmatch p s | c :: l => match s with d :: r => if c =? d then go l r else None | [] => None end end) l s.
Proof. revert s. induction l as [|c l IH]; intros s; [reflexivity|]. cbn [map app rmatch]. destruct s as [|d r]; [reflexivity|]. destruct (c =? d); [apply IH|reflexivity]. Qed.
Lemma chars_some l p s r : rmatch (chars l ++ p) s = Some r <-> exists s', s = lit l ++ s' /\ rmatch p s' = Some r.
Proof.
  unfold chars. revert s. induction (lit l) as [|c m IH]; intros s.
  - cbn [map app]. split; [eauto|intros (s' & -> & H); exact H].
  - cbn [map app rmatch]. destruct s as [|d s]; [split; [discriminate|intros (s' & E & _); discriminate]|]. destruct (N.eqb_spec c d) as [<- | Hd].
    + rewrite IH. split; intros (s' & E & H); exists s'; split; auto; [rewrite E; reflexivity|inversion E; reflexivity].
    + split; [discriminate|]. intros (s' & E & _). inversion E. congruence.
Qed.
Lemma chars_exact l s r : rmatch (chars l) s = Some r <-> s = lit l ++ r.
Proof. rewrite <- (app_nil_r (chars l)), chars_some. cbn [rmatch]. split; [intros (s' & -> & H); inversion H; reflexivity|intros ->; eauto]. Qed.
