(** The lexer of MicroXPath cuts texts as XLexSpec says. *)
From Verif Require Import PyStr XPath Lalr XGram XGramSpec XTok XLex XLexSpec.
From Verif Require ParserInv.
Local Open Scope N_scope.

Lemma between_iff a b c : between a b c = true <-> a <= c <= b.
Proof. unfold between. rewrite andb_true_iff, !N.leb_le. reflexivity. Qed.
Lemma in_ranges_cons a b l c : in_ranges ((a, b) :: l) c <-> (a <= c <= b) \/ in_ranges l c.
Proof.
  unfold in_ranges. split.
  - intros (x & y & [E|I] & R); [injection E as -> ->; auto|right; eauto].
  - intros [R|(x & y & I & R)]; [exists a, b; split; [now left|auto]|exists x, y; split; [now right|auto]].
Qed.
Lemma in_ranges_nil c : in_ranges [] c <-> False.
Proof. split; [intros (a & b & [] & _)|tauto]. Qed.
Lemma start_char_iff c : start_char c = true <-> begins [c].
Proof.
  unfold start_char. rewrite !orb_true_iff, !between_iff, N.eqb_eq. split.
  - intros H. apply B_char. rewrite !in_ranges_cons. intuition lia.
  - intros H. inversion H as [x R|]; subst. rewrite !in_ranges_cons, in_ranges_nil in R. intuition lia.
Qed.
Lemma extra_char_iff c : start_char c || extra_char c = true <-> continues [c].
Proof.
  rewrite orb_true_iff, start_char_iff. unfold extra_char. rewrite !orb_true_iff, !between_iff, !N.eqb_eq. split.
  - intros [H|H]; [now apply C_begins|]. apply C_char. rewrite !in_ranges_cons. intuition lia.
  - intros H. inversion H as [x R|x R]; subst; [now left|]. right. rewrite !in_ranges_cons, in_ranges_nil in R. intuition lia.
Qed.
Lemma begins_cases u : begins u -> (exists c, u = [c] /\ start_char c = true) \/ u = odd_start.
Proof. intros H. inversion H; subst; [left; eexists; split; [reflexivity|]; now apply start_char_iff|now right]. Qed.
Lemma continues_cases u : continues u -> (exists c, u = [c] /\ start_char c || extra_char c = true) \/ u = odd_start.
Proof.
  intros H. inversion H as [x R|x R]; subst.
  - destruct (begins_cases _ R) as [(c & -> & E)| ->]; [left; exists c; now rewrite E|now right].
  - left. exists x. split; [reflexivity|]. now apply extra_char_iff.
Qed.
Lemma odd_continues : continues odd_start.
Proof. apply C_begins, B_odd. Qed.

(** *** names *)
Lemma name_tail_S c r : name_tail (c :: r) =
  if start_char c || extra_char c then let '(m, t) := name_tail r in (c :: m, t)
  else match r with
       | c2 :: c3 :: c4 :: r' =>
           if str_eqb [c; c2; c3; c4] odd_start then let '(m, t) := name_tail r' in (c :: c2 :: c3 :: c4 :: m, t)
           else ([], c :: r)
       | _ => ([], c :: r)
       end.
Proof. reflexivity. Qed.
Lemma name_tail_sound : forall n s m t, (length s <= n)%nat -> name_tail s = (m, t) -> s = m ++ t /\ exists us, m = concat us /\ Forall continues us.
Proof.
  induction n as [|n IH]; intros s m t L H.
  - destruct s; [|cbn [length] in L; lia]. injection H as <- <-. split; [reflexivity|]. now exists [].
  - destruct s as [|c r]; [injection H as <- <-; split; [reflexivity|now exists []]|]. rewrite name_tail_S in H. cbn [length] in L.
    destruct (start_char c || extra_char c) eqn:E.
    + destruct (name_tail r) as [m' t'] eqn:T. injection H as <- <-. apply IH in T as (-> & us & -> & F); [|lia].
      split; [reflexivity|]. exists ([c] :: us). split; [reflexivity|]. constructor; [now apply extra_char_iff|assumption].
    + assert (D : (m, t) = ([], c :: r) -> c :: r = m ++ t /\ exists us, m = concat us /\ Forall continues us).
      { intros [= -> ->]. split; [reflexivity|]. now exists []. }
      destruct r as [|c2 [|c3 [|c4 r']]]; try (apply D; congruence).
      destruct (str_eqb [c; c2; c3; c4] odd_start) eqn:O; [|apply D; congruence].
      apply (proj1 (ParserInv.str_eqb_eq _ _)) in O. destruct (name_tail r') as [m' t'] eqn:T. injection H as <- <-.
      apply IH in T as (-> & us & -> & F); [|cbn [length] in L; lia]. split; [reflexivity|]. exists (odd_start :: us). cbn [concat].
      rewrite <- O. split; [reflexivity|]. constructor; [rewrite O; apply odd_continues|assumption].
Qed.
Lemma name_tail_greedy : forall us r, Forall continues us -> exists m t, name_tail (concat us ++ r) = (m, t) /\ (length (concat us) <= length m)%nat.
Proof.
  induction us as [|u us IH]; intros r F.
  - destruct (name_tail (concat [] ++ r)) as [m t]. exists m, t. split; [reflexivity|]. cbn. lia.
  - inversion F as [|? ? Fu Fus]; subst. destruct (IH r Fus) as (m & t & E & L). cbn [concat]. rewrite <- app_assoc.
    destruct (continues_cases _ Fu) as [(c & -> & Ec)| ->].
    + cbn [app]. rewrite name_tail_S, Ec, E. exists (c :: m), t. split; [reflexivity|]. cbn [length app]. lia.
    + unfold odd_start. cbn [app]. rewrite name_tail_S. change (start_char 192 || extra_char 192) with false. cbv iota.
      change (str_eqb [192; 45; 214; 93] odd_start) with true. cbv iota. rewrite E. eexists _, t. split; [reflexivity|]. cbn [length app]. lia.
Qed.
Lemma m_name_sound s m t : m_name s = Some (m, t) -> s = m ++ t /\ name m.
Proof.
  destruct s as [|c r]; [discriminate|]. unfold m_name. destruct (start_char c) eqn:E.
  - destruct (name_tail r) as [m' t'] eqn:T. intros [= <- <-]. apply (name_tail_sound _ _ _ _ (le_n _)) in T as (-> & us & -> & F).
    split; [reflexivity|]. exists [c], us. split; [reflexivity|]. split; [now apply start_char_iff|assumption].
  - destruct r as [|c2 [|c3 [|c4 r']]]; try discriminate. destruct (str_eqb [c; c2; c3; c4] odd_start) eqn:O; [|discriminate].
    apply (proj1 (ParserInv.str_eqb_eq _ _)) in O. destruct (name_tail r') as [m' t'] eqn:T. intros [= <- <-].
    apply (name_tail_sound _ _ _ _ (le_n _)) in T as (-> & us & -> & F).
    split; [reflexivity|]. exists odd_start, us. rewrite <- O. split; [reflexivity|]. split; [rewrite O; apply B_odd|assumption].
Qed.
Lemma m_name_greedy n r : name n -> exists m t, m_name (n ++ r) = Some (m, t) /\ (length n <= length m)%nat.
Proof.
  intros (u & us & -> & B & F). destruct (name_tail_greedy us r F) as (m & t & E & L). rewrite <- app_assoc.
  destruct (begins_cases _ B) as [(c & -> & Ec)| ->].
  - cbn [app]. unfold m_name. rewrite Ec, E. eexists _, t. split; [reflexivity|]. cbn [length]. lia.
  - unfold odd_start. cbn [app]. unfold m_name. change (start_char 192) with false. cbv iota.
    change (str_eqb [192; 45; 214; 93] odd_start) with true. cbv iota. rewrite E. eexists _, t. split; [reflexivity|]. cbn [length app]. lia.
Qed.
Lemma m_name_none s : m_name s = None <-> ~ like_name s.
Proof.
  split.
  - intros H (u & r & -> & B). destruct (m_name_greedy u r) as (m & t & E & _); [|congruence].
    exists u, []. split; [now rewrite app_nil_r|]. auto.
  - intros H. destruct (m_name s) as [[m t]|] eqn:E; [|reflexivity]. exfalso. apply H.
    apply m_name_sound in E as (-> & u & us & -> & B & F). exists u, (concat us ++ t). split; [now rewrite app_assoc|assumption].
Qed.
Lemma name_nonempty n : name n -> n <> [].
Proof. intros (u & us & -> & B & _). destruct (begins_cases _ B) as [(c & -> & _)| ->]; discriminate. Qed.

(** *** quotes *)
Lemma until_iff q s m t : until q s = Some (m, t) <-> s = m ++ q :: t /\ ~ In q m.
Proof.
  revert m t. induction s as [|c r IH]; intros m t; cbn [until].
  - split; [discriminate|]. intros (E & _). destruct m; discriminate.
  - destruct (N.eqb_spec c q) as [->|N].
    + split.
      * intros [= <- <-]. split; [reflexivity|]. intros [].
      * intros (E & I). destruct m as [|x m]; [now injection E as ->|]. injection E as <- _. exfalso. apply I. now left.
    + destruct (until q r) as [[m' t']|] eqn:U.
      * specialize (proj1 (IH m' t') eq_refl) as (-> & I'). split.
        -- intros [= <- <-]. split; [reflexivity|]. intros [X|X]; [congruence|contradiction].
        -- intros (E & I). destruct m as [|x m]; [injection E as ->; contradiction|]. injection E as -> E.
           assert (Some (m', t') = Some (m, t)) as [= -> ->]; [|reflexivity]. apply IH. split; [assumption|]. intros X. apply I. now right.
      * split; [discriminate|]. intros (E & I). destruct m as [|x m]; [injection E as -> _; contradiction|]. injection E as -> E.
        assert (@None lexeme = Some (m, t)) as X; [|discriminate]. apply IH. split; [assumption|]. intros X. apply I. now right.
Qed.

(** *** numbers *)
Section Numbers.
  Variable v : lexenv.
  Lemma digit_iff c d : digit v c = Some d <-> has_value (wide_digit v) c d.
  Proof.
    unfold digit. split.
    - destruct (between 48 57 c) eqn:B; [intros [= <-]; apply V_ascii; now apply between_iff|]. destruct (N.ltb_spec c 256); [discriminate|]. intros E. now apply V_wide.
    - intros H. inversion H as [x R|x y R E]; subst.
      + apply between_iff in R. now rewrite R.
      + replace (between 48 57 c) with false by (symmetry; apply not_true_iff_false; rewrite between_iff; lia).
        destruct (N.ltb_spec c 256); [lia|assumption].
  Qed.
  Lemma is_digit_iff c : is_digit v c = true <-> exists d, has_value (wide_digit v) c d.
  Proof.
    unfold is_digit. destruct (digit v c) as [d|] eqn:E.
    - split; [|auto]. intros _. exists d. now apply digit_iff.
    - split; [discriminate|]. intros (d & H). apply digit_iff in H. congruence.
  Qed.
  Lemma int_of_snoc s c : int_of v (s ++ [c]) = (10 * int_of v s + match digit v c with Some d => d | None => 0 end).
  Proof. unfold int_of. now rewrite fold_left_app. Qed.
  Lemma number_iff s z : number (wide_digit v) s z <-> forallb (is_digit v) s = true /\ z = int_of v s.
  Proof.
    split.
    - intros H. induction H as [|s z c d H IH D]; [split; reflexivity|]. destruct IH as (F & ->). split.
      + rewrite forallb_app, F. cbn. rewrite andb_true_r. apply is_digit_iff. eauto.
      + rewrite int_of_snoc. apply digit_iff in D. now rewrite D.
    - intros (F & ->). induction s as [|c s IH] using rev_ind; [apply N_none|]. rewrite forallb_app in F. apply andb_true_iff in F as (F & C).
      cbn in C. rewrite andb_true_r in C. unfold is_digit in C. destruct (digit v c) as [d|] eqn:D; [|discriminate].
      rewrite int_of_snoc, D. apply N_more; [now apply IH|now apply digit_iff].
  Qed.
  Lemma m_digits_spec s m t : m_digits v s = (m, t) <-> s = m ++ t /\ forallb (is_digit v) m = true /\ (forall c r, t = c :: r -> is_digit v c = false).
  Proof.
    revert m t. induction s as [|c r IH]; intros m t; cbn [m_digits].
    - split.
      + intros [= <- <-]. repeat split. discriminate.
      + intros (E & _ & _). destruct m; [|discriminate]. cbn in E. now subst.
    - destruct (is_digit v c) eqn:D.
      + destruct (m_digits v r) as [m' t'] eqn:E. specialize (proj1 (IH m' t') eq_refl) as (-> & F & T). split.
        * intros [= <- <-]. cbn [forallb]. rewrite D, F. auto.
        * intros (E' & F' & T'). destruct m as [|x m].
          -- cbn in E'. subst t. specialize (T' _ _ eq_refl). congruence.
          -- injection E' as <- E'. cbn [forallb] in F'. apply andb_true_iff in F' as (_ & F').
             assert ((m', t') = (m, t)) as [= -> ->]; [|reflexivity]. apply IH. auto.
      + split.
        * intros [= <- <-]. split; [reflexivity|]. split; [reflexivity|]. intros x y [= -> ->]. assumption.
        * intros (E' & F' & T'). destruct m as [|x m]; [cbn in E'; now subst|]. injection E' as <- _. cbn [forallb] in F'. rewrite D in F'. discriminate.
  Qed.
  Lemma m_digits_greedy m r : forallb (is_digit v) m = true -> exists m2 t, r = m2 ++ t /\ forallb (is_digit v) m2 = true /\ m_digits v (m ++ r) = (m ++ m2, t).
  Proof.
    intros F. destruct (m_digits v r) as [m2 t] eqn:E. apply m_digits_spec in E as (-> & F2 & T). exists m2, t. repeat split; auto.
    apply m_digits_spec. rewrite forallb_app, F, F2, app_assoc. auto.
  Qed.
  Lemma m_digits_exact m r : forallb (is_digit v) m = true -> (forall c t, r = c :: t -> is_digit v c = false) -> m_digits v (m ++ r) = (m, r).
  Proof. intros F T. apply m_digits_spec. auto. Qed.
End Numbers.

(** *** fixed texts *)
Lemma m_exactly_iff p s m t : m_exactly p s = Some (m, t) <-> m = p /\ s = p ++ t.
Proof.
  revert s m t. induction p as [|a p IH]; intros s m t; cbn [m_exactly].
  - split; [intros [= <- <-]; auto|intros (-> & ->); reflexivity].
  - destruct s as [|c r]; [split; [discriminate|intros (_ & X); discriminate]|].
    destruct (N.eqb_spec a c) as [->|N].
    + destruct (m_exactly p r) as [[m' t']|] eqn:E.
      * apply IH in E as (-> & ->). split; [intros [= <- <-]; auto|intros (-> & [= X]); apply app_inv_head in X; now subst].
      * split; [discriminate|]. intros (-> & [= ->]). assert (@None lexeme = Some (p, t)) as X; [|discriminate]. rewrite <- E. now apply IH.
    + split; [discriminate|]. intros (_ & [= -> _]). contradiction.
Qed.
Lemma name_type_word n : name_type n = word_kind n.
Proof.
  unfold name_type, word_kind, operator_names. cbn [dict_get].
  assert (S : forall a b, str_eqb a b = str_eqb b a).
  { intros a b. destruct (str_eqb a b) eqn:E.
    - apply (proj1 (ParserInv.str_eqb_eq _ _)) in E. subst. symmetry. apply ParserInv.str_eqb_refl.
    - symmetry. apply not_true_iff_false. intros X. apply (proj1 (ParserInv.str_eqb_eq _ _)) in X. subst. rewrite ParserInv.str_eqb_refl in E. discriminate. }
  rewrite (S n (lit "or")), (S n (lit "and")), (S n (lit "div")), (S n (lit "mod")).
  destruct (str_eqb (lit "or") n), (str_eqb (lit "and") n), (str_eqb (lit "div") n), (str_eqb (lit "mod") n); reflexivity.
Qed.

Section Lexer.
  Variable v : lexenv.
  Notation spells := (spells (wide_digit v) (float_of v)).
  Notation scans := (scans (wide_digit v) (float_of v)).
  Notation longest := (longest (wide_digit v) (float_of v)).

  Lemma m_first_in l x : m_first l = Some x -> In (Some x) l.
  Proof. induction l as [|[y|] l IH]; cbn [m_first]; [discriminate|intros [= ->]; now left|intros H; right; auto]. Qed.
  Lemma by_string_sound s x t : by_string string_rules s = Some (x, t) -> exists p, s = punct_text p ++ t /\ x = emb (P p).
  Proof.
    unfold string_rules. cbn [by_string]. unfold m_rel, m_equal.
    repeat match goal with
    | |- context [match ?m with Some _ => _ | None => _ end] => let E := fresh in destruct m as [[? ?]|] eqn:E
    end; intros HH; try discriminate; injection HH as <- <-;
    match goal with
    | H : m_first _ = Some _ |- _ => apply m_first_in in H; cbn [In] in H; repeat destruct H as [H|H]; try contradiction; apply m_exactly_iff in H as (-> & ->)
    | H : m_exactly _ _ = Some _ |- _ => apply m_exactly_iff in H as (-> & ->)
    end.
    - now exists Le_. - now exists Ge_. - now exists Lt_. - now exists Gt_. - now exists Dots. - now exists Ne_. - now exists Eq_.
    - now exists Slashes. - now exists Dot. - now exists Colons. - now exists LPar. - now exists RPar. - now exists LBrk. - now exists RBrk.
    - now exists Bar. - now exists Plus. - now exists Dollar. - now exists Star. - now exists Slash. - now exists At. - now exists Minus. - now exists Comma.
  Qed.
  Lemma like_name_app s r : like_name s -> like_name (s ++ r).
  Proof. intros (u & r' & -> & B). exists u, (r' ++ r). split; [now rewrite app_assoc|assumption]. Qed.

  Lemma next_sound s x t : next_token v s = Some (x, t) -> exists k m, s = m ++ t /\ x = emb k /\ spells k m.
  Proof.
    unfold next_token. destruct (m_name s) as [[n t1]|] eqn:EN.
    { intros [= <- <-]. apply m_name_sound in EN as (-> & N). exists (Word n), n. rewrite name_type_word. split; [reflexivity|]. split; [reflexivity|]. now apply Sp_word. }
    destruct (m_literal s) as [[q t1]|] eqn:EL.
    { intros [= <- <-]. unfold m_literal in EL. destruct s as [|c r]; [discriminate|]. destruct ((c =? c_dq) || (c =? c_sq)) eqn:Q; [|discriminate].
      apply until_iff in EL as (-> & I). exists (Quoted q), (c :: q ++ [c]). split; [cbn [app]; rewrite <- app_assoc; reflexivity|]. split; [reflexivity|].
      apply Sp_quoted; [|assumption]. apply orb_true_iff in Q. rewrite !N.eqb_eq in Q. exact Q. }
    apply m_name_none in EN.
    destruct (m_float v s) as [[f t1]|] eqn:EF.
    { intros [= <- <-]. unfold m_float in EF. destruct (m_digits v s) as [a ta] eqn:A. apply m_digits_spec in A as (-> & Fa & _).
      destruct ta as [|c ta]; [discriminate|]. destruct (N.eq_dec c 46) as [->|N].
      - destruct (m_digits v ta) as [b tb] eqn:B. apply m_digits_spec in B as (-> & Fb & _).
        destruct (match a, b with [], [] => true | _, _ => false end) eqn:Z; [discriminate|]. injection EF as <- <-.
        exists (Flt (float_of v (a ++ lit "." ++ b))), (a ++ lit "." ++ b). split; [change (lit ".") with [46]; rewrite <- !app_assoc; reflexivity|].
        split; [reflexivity|]. eapply Sp_flt; try (apply number_iff; split; [assumption|reflexivity]).
        + destruct a; [destruct b; [discriminate|discriminate]|discriminate].
        + intros L. apply EN. change (46 :: b ++ tb) with (lit "." ++ b ++ tb). rewrite !app_assoc. apply like_name_app. now rewrite <- app_assoc.
      - exfalso. revert EF. destruct c as [|p]; [discriminate|]. repeat (destruct p as [p|p|]; try discriminate). contradiction. }
    destruct (m_integer v s) as [[i t1]|] eqn:EI.
    { intros [= <- <-]. unfold m_integer in EI. destruct (m_digits v s) as [a ta] eqn:A. destruct a as [|c a]; [discriminate|]. injection EI as <- <-.
      apply m_digits_spec in A as (-> & Fa & _). exists (Int (Z.of_N (int_of v (c :: a)))), (c :: a). split; [reflexivity|]. split; [reflexivity|].
      apply Sp_int; [discriminate|apply number_iff; auto|]. intros L. apply EN. now apply like_name_app. }
    destruct (m_nodetext s) as [[i t1]|] eqn:ET.
    { exfalso. apply EN. unfold m_nodetext in ET. apply m_first_in in ET. cbn [In] in ET.
      destruct ET as [E|[E|[]]]; apply m_exactly_iff in E as (-> & ->).
      - exists [116], (lit "ext()" ++ t1). split; [reflexivity|]. now apply start_char_iff.
      - exists [110], (lit "ode()" ++ t1). split; [reflexivity|]. now apply start_char_iff. }
    intros H. apply by_string_sound in H as (p & -> & ->). exists (P p), (punct_text p). split; [reflexivity|]. split; [reflexivity|]. apply Sp_punct.
  Qed.

  Lemma m_name_not c r : start_char c = false -> c <> 192 -> m_name (c :: r) = None.
  Proof.
    intros S N. unfold m_name. rewrite S. destruct r as [|c2 [|c3 [|c4 r]]]; try reflexivity.
    destruct (str_eqb [c; c2; c3; c4] odd_start) eqn:E; [|reflexivity]. apply (proj1 (ParserInv.str_eqb_eq _ _)) in E. injection E as -> _. contradiction.
  Qed.
  Lemma digit_not_quote c r : is_digit v c = true -> m_literal (c :: r) = None.
  Proof.
    intros D. unfold m_literal. destruct ((c =? c_dq) || (c =? c_sq)) eqn:Q; [|reflexivity]. exfalso. apply orb_true_iff in Q. rewrite !N.eqb_eq in Q.
    destruct Q as [-> | ->]; discriminate.
  Qed.
  (** Extending something that is not like a name to something that is. *)
  Lemma like_name_ext s r : like_name (s ++ r) -> ~ like_name s -> s = [] \/ s = [192] \/ exists r', s = 192 :: 45 :: r' /\ ~ In 46 s.
  Proof.
    intros (u & r' & E & B) N. destruct (begins_cases _ B) as [(c & -> & S)| ->].
    - destruct s as [|c' s]; [now left|]. injection E as -> _. exfalso. apply N. exists [c], s. auto.
    - destruct s as [|c0 s]; [now left|]. injection E as -> E. destruct s as [|c1 s]; [auto|]. injection E as -> E.
      right. right. exists s. split; [reflexivity|]. destruct s as [|c2 s]; [cbn; intuition lia|]. injection E as -> E.
      destruct s as [|c3 s]; [cbn; intuition lia|]. injection E as -> E. exfalso. apply N. exists odd_start, s. auto.
  Qed.
  Definition next_covers (s r : str) : Prop := exists x t m, next_token v (s ++ r) = Some (x, t) /\ s ++ r = m ++ t /\ (length s <= length m)%nat.
  Lemma covers_name s r m t : m_name (s ++ r) = Some (m, t) -> (length s <= length m)%nat -> next_covers s r.
  Proof. intros E L. unfold next_covers, next_token. rewrite E. apply m_name_sound in E as (E & _). eauto 8. Qed.

  Lemma next_string c r : m_name (c :: r) = None -> m_literal (c :: r) = None -> is_digit v c = false -> c <> 46 -> m_nodetext (c :: r) = None ->
    next_token v (c :: r) = by_string string_rules (c :: r).
  Proof.
    intros A B C N E. unfold next_token. rewrite A, B. unfold m_float, m_integer. cbn [m_digits]. rewrite C.
    replace (match c with 46 => _ | _ => None end) with (@None lexeme); [rewrite E; reflexivity|].
    destruct c as [|p']; [reflexivity|]. repeat (destruct p' as [p'|p'|]; try reflexivity). contradiction.
  Qed.
  Ltac by_char := rewrite next_string; [|apply m_name_not; [reflexivity|lia]|reflexivity|reflexivity|lia|reflexivity].
  Lemma m_exactly_one a r : m_exactly [a] (a :: r) = Some ([a], r).
  Proof. now apply m_exactly_iff. Qed.
  Lemma m_exactly_two a b r : m_exactly [a; b] (a :: r) = match r with c :: r' => if b =? c then Some ([a; c], r') else None | [] => None end.
  Proof. cbn [m_exactly]. rewrite N.eqb_refl. destruct r as [|c r]; [reflexivity|]. destruct (b =? c); reflexivity. Qed.
  Lemma covers_end c r : next_token v (c :: r) <> None -> next_covers [c] r.
  Proof.
    intros H. destruct (next_token v (c :: r)) as [[x t]|] eqn:E; [|contradiction]. exists x, t. pose proof E as E'. apply next_sound in E' as (k & m & A & B & C).
    exists m. split; [exact E|]. split; [exact A|]. cbn [length]. destruct m as [|m0 m]; [|cbn [length]; lia]. exfalso. inversion C as [n N|q s Q I|s z N M L|a b y z N M L K|p]; subst.
    - now apply name_nonempty in N.
    - contradiction.
    - destruct a; discriminate.
    - destruct p; discriminate.
  Qed.
  Lemma punct_covers p r : next_covers (punct_text p) r.
  Proof.
    destruct p; unfold punct_text;
    match goal with |- next_covers ?s _ => let x := eval vm_compute in s in change s with x end.
    all: try (apply covers_end; by_char; discriminate).
    all: try (unfold next_covers; cbn [app]; by_char; eexists _, _, [_; _]; split; [reflexivity|]; split; [reflexivity|cbn [length]; lia]).
    - apply covers_end. by_char. cbv [string_rules by_string m_rel m_equal m_first]. change (lit "//") with [47; 47]. rewrite m_exactly_two.
      change (lit "/") with [47]. rewrite m_exactly_one. destruct r as [|c r]; [discriminate|]. destruct (47 =? c); discriminate.
    - apply covers_end. unfold next_token.
      destruct (m_name (46 :: r)) as [[? ?]|]; [discriminate|]. destruct (m_literal (46 :: r)) as [[? ?]|]; [discriminate|].
      destruct (m_float v (46 :: r)) as [[? ?]|]; [discriminate|]. destruct (m_integer v (46 :: r)) as [[? ?]|]; [discriminate|].
      destruct (m_nodetext (46 :: r)) as [[? ?]|]; [discriminate|].
      cbv [string_rules by_string m_rel m_equal m_first]. change (lit "..") with [46; 46]. rewrite m_exactly_two.
      change (lit ".") with [46]. rewrite m_exactly_one. destruct r as [|c r]; [discriminate|]. destruct (46 =? c); discriminate.
    - unfold next_covers; cbn [app]. unfold next_token.
      rewrite m_name_not by (reflexivity || lia). change (m_literal (46 :: 46 :: r)) with (@None lexeme).
      change (m_float v (46 :: 46 :: r)) with (@None lexeme). change (m_integer v (46 :: 46 :: r)) with (@None lexeme).
      change (m_nodetext (46 :: 46 :: r)) with (@None lexeme). eexists _, _, [46; 46]. split; [reflexivity|]. split; [reflexivity|]. cbn [length]. lia.
    - apply covers_end. by_char. cbv [string_rules by_string m_rel m_first]. change (lit "<=") with [60; 61]. rewrite m_exactly_two.
      change (lit "<") with [60]. rewrite m_exactly_one. destruct r as [|c r]; [discriminate|]. destruct (61 =? c); discriminate.
    - apply covers_end. by_char. cbv [string_rules by_string m_rel m_first]. change (lit ">=") with [62; 61]. rewrite m_exactly_two.
      change (lit ">") with [62]. rewrite m_exactly_one. destruct r as [|c r]; [discriminate|]. destruct (61 =? c); discriminate.
  Qed.
  Lemma next_covers_all k s r : spells k s -> next_covers s r.
  Proof.
    intros H. inversion H as [n N|q s' Q I|s' z NE M L|a b y z Ma Mb NE L|p]; subst.
    - destruct (m_name_greedy s r N) as (m & t & E & Le). eapply covers_name; eauto.
    - cbn [app]. unfold next_covers. rewrite <- app_comm_cons, <- app_assoc. cbn [app]. unfold next_token.
      rewrite m_name_not by (destruct Q as [-> | ->]; (reflexivity || lia)).
      replace (m_literal (q :: s' ++ q :: r)) with (Some (s', r)).
      + eexists _, _, (q :: s' ++ [q]). split; [reflexivity|]. split; [cbn [app]; rewrite <- app_assoc; reflexivity|lia].
      + unfold m_literal. destruct Q as [-> | ->]; cbn [N.eqb c_dq c_sq Pos.eqb orb]; symmetry; now apply until_iff.
    - apply number_iff in M as (F & ->). destruct (m_name (s ++ r)) as [[m t]|] eqn:E.
      + eapply covers_name; [eassumption|]. assert (LN : like_name (s ++ r)).
        { destruct (m_name_none (s ++ r)) as (_ & X). destruct s as [|c s]; [contradiction|].
          pose proof E as E'. apply m_name_sound in E' as (A & u & us & -> & B & _). exists u, (concat us ++ t). split; [rewrite A, app_assoc; reflexivity|assumption]. }
        destruct (like_name_ext _ _ LN L) as [-> | [-> | (r' & -> & _)]]; [contradiction| |].
        * cbn [length]. apply m_name_sound in E as (_ & N). apply name_nonempty in N. destruct m; [contradiction|cbn [length]; lia].
        * cbn [forallb] in F. rewrite !andb_true_iff in F. destruct F as (_ & X & _). discriminate.
      + unfold next_covers, next_token. rewrite E. destruct s as [|c s]; [contradiction|]. cbn [app].
        rewrite digit_not_quote by (cbn [forallb] in F; now apply andb_true_iff in F).
        change (c :: s ++ r) with ((c :: s) ++ r). destruct (m_digits_greedy v (c :: s) r F) as (m2 & t & -> & F2 & D).
        unfold m_float, m_integer. rewrite D. cbn [app].
        assert (I : exists x t0 m, Some (mkX INTEGER (TInt (Z.of_N (int_of v (c :: s ++ m2)))), t) = Some (x, t0) /\ c :: s ++ m2 ++ t = m ++ t0 /\ (length (c :: s) <= length m)%nat).
        { eexists _, _, (c :: s ++ m2). split; [reflexivity|]. split; [cbn [app]; now rewrite <- app_assoc|]. cbn [length]. rewrite app_length. lia. }
        destruct t as [|d t]; [exact I|]. destruct (N.eq_dec d 46) as [->|ND].
        * destruct (m_digits v t) as [b tb] eqn:Db. apply m_digits_spec in Db as (-> & _ & _).
          eexists _, _, ((c :: s ++ m2) ++ 46 :: b). split; [reflexivity|]. split; [cbn [app]; now rewrite <- !app_assoc|]. cbn [length app]. rewrite !app_length. lia.
        * replace (match d with 46 => _ | _ => None end) with (@None lexeme); [exact I|].
          destruct d as [|p']; [reflexivity|]. repeat (destruct p' as [p'|p'|]; try reflexivity). contradiction.
    - apply number_iff in Ma as (Fa & ->), Mb as (Fb & ->). change (lit ".") with [46] in *. cbn [app] in *.
      assert (E : m_name ((a ++ 46 :: b) ++ r) = None).
      { apply m_name_none. intros LN. destruct (like_name_ext _ _ LN L) as [X|[X|(r' & X & Y)]].
        - destruct a; discriminate.
        - destruct a as [|a0 [|]]; discriminate.
        - apply Y. apply in_or_app. right. now left. }
      unfold next_covers, next_token. rewrite E.
      replace (m_literal ((a ++ 46 :: b) ++ r)) with (@None lexeme).
      + rewrite <- app_assoc. cbn [app]. unfold m_float.
        rewrite (m_digits_exact v a (46 :: b ++ r) Fa) by (intros x y [= <- _]; reflexivity).
        destruct (m_digits_greedy v b r Fb) as (m2 & t & -> & F2 & D). rewrite D.
        replace (match a, b ++ m2 with [], [] => true | _, _ => false end) with false by (destruct a; [destruct b; [contradiction|reflexivity]|reflexivity]).
        eexists _, _, (a ++ 46 :: b ++ m2). split; [reflexivity|]. split; [rewrite <- app_assoc; cbn [app]; now rewrite <- app_assoc|].
        rewrite !app_length. cbn [length]. rewrite app_length. lia.
      + destruct a as [|c a]; [reflexivity|]. cbn [app]. symmetry. apply digit_not_quote. cbn [forallb] in Fa. now apply andb_true_iff in Fa.
    - apply punct_covers.
  Qed.

  Lemma app_length_inv (a b c d : str) : a ++ b = c ++ d -> length a = length c -> a = c /\ b = d.
  Proof.
    revert c. induction a as [|x a IH]; intros [|y c] E L; try discriminate; [auto|]. injection E as -> E. injection L as L. destruct (IH _ E L) as (-> & ->). auto.
  Qed.
  Lemma spells_nonempty k s : spells k s -> s <> [].
  Proof.
    intros H ->. inversion H as [n N|q s Q I|s z N M L|a b y z N M L K|p]; subst.
    - now apply name_nonempty in N.
    - contradiction.
    - destruct a; discriminate.
    - destruct p; discriminate.
  Qed.
  (** One token: exactly the longest piece that is one. *)
  Lemma next_longest s x t : next_token v s = Some (x, t) -> exists k m, s = m ++ t /\ x = emb k /\ spells k m /\ longest m t.
  Proof.
    intros H. pose proof H as H'. apply next_sound in H' as (k & m & -> & -> & S). exists k, m. split; [reflexivity|]. split; [reflexivity|]. split; [exact S|].
    intros k' m' t' E S'. destruct (next_covers_all k' m' t' S') as (x & t2 & m2 & E2 & A & L). rewrite <- E, H in E2. injection E2 as <- <-.
    rewrite <- E in A. apply app_inv_tail in A. now subst.
  Qed.
  Lemma next_nothing s : next_token v s = None -> forall k m t, s = m ++ t -> ~ spells k m.
  Proof. intros H k m t -> S. destruct (next_covers_all k m t S) as (x & t2 & m2 & E2 & _). congruence. Qed.
  Lemma word_kind_range s : word_kind s = LOGICAL_OP \/ word_kind s = DIVMOD_OP \/ word_kind s = NAME.
  Proof. unfold word_kind. destruct (str_eqb s (lit "or") || str_eqb s (lit "and")); [auto|]. destruct (str_eqb s (lit "div") || str_eqb s (lit "mod")); auto. Qed.
  Lemma emb_inj k k' : emb k = emb k' -> k = k'.
  Proof.
    intros H. destruct k as [s|s|z|f|p], k' as [s'|s'|z'|f'|p']; cbn [emb] in H; injection H; intros; subst; try congruence;
      try (destruct (word_kind_range s) as [X|[X|X]]; (congruence || (rewrite X in *; destruct p'; discriminate)));
      try (destruct (word_kind_range s') as [X|[X|X]]; (congruence || (rewrite X in *; destruct p; discriminate)));
      try (destruct p; discriminate); try (destruct p'; discriminate).
    destruct p, p'; try reflexivity; discriminate.
  Qed.
  Lemma next_exact k s : spells k s -> next_token v s = Some (emb k, []).
  Proof.
    intros H. inversion H as [n N|q s' Q I|s' z NE M L|a b y z Ma Mb NE L|p]; subst.
    - destruct (m_name_greedy s [] N) as (m & t & E & Le). rewrite app_nil_r in E. unfold next_token. rewrite E. pose proof E as E'.
      apply m_name_sound in E' as (A & _). destruct t as [|c t].
      + rewrite app_nil_r in A. subst m. now rewrite name_type_word.
      + exfalso. apply (f_equal (@length _)) in A. rewrite app_length in A. cbn [length] in A. lia.
    - unfold next_token. rewrite m_name_not by (destruct Q as [-> | ->]; (reflexivity || lia)).
      replace (m_literal (q :: s' ++ [q])) with (Some (s', @nil N)); [reflexivity|].
      unfold m_literal. destruct Q as [-> | ->]; cbn [N.eqb c_dq c_sq Pos.eqb orb]; symmetry; now apply until_iff.
    - apply number_iff in M as (F & ->). apply m_name_none in L. unfold next_token. rewrite L. destruct s as [|c s]; [contradiction|].
      rewrite digit_not_quote by (cbn [forallb] in F; now apply andb_true_iff in F).
      pose proof (m_digits_exact v (c :: s) [] F ltac:(discriminate)) as D. rewrite app_nil_r in D. unfold m_float, m_integer. rewrite D. reflexivity.
    - apply number_iff in Ma as (Fa & ->), Mb as (Fb & ->). change (lit ".") with [46] in *. cbn [app] in *. apply m_name_none in L.
      unfold next_token. rewrite L. replace (m_literal (a ++ 46 :: b)) with (@None lexeme).
      + unfold m_float. rewrite (m_digits_exact v a (46 :: b) Fa) by (intros x y [= <- _]; reflexivity).
        pose proof (m_digits_exact v b [] Fb ltac:(discriminate)) as D. rewrite app_nil_r in D. rewrite D.
        replace (match a, b with [], [] => true | _, _ => false end) with false by (destruct a; [destruct b; [contradiction|reflexivity]|reflexivity]). reflexivity.
      + destruct a as [|c a]; [reflexivity|]. cbn [app]. symmetry. apply digit_not_quote. cbn [forallb] in Fa. now apply andb_true_iff in Fa.
    - destruct p; reflexivity.
  Qed.
  (** The same piece is never two tokens. *)
  Lemma spells_fun k k' s : spells k s -> spells k' s -> k = k'.
  Proof. intros H H'. apply next_exact in H, H'. apply emb_inj. congruence. Qed.
  Lemma next_of_longest k s r : spells k s -> longest s r -> next_token v (s ++ r) = Some (emb k, r).
  Proof.
    intros S L. destruct (next_covers_all k s r S) as (x & t & m & E & A & Le). pose proof E as E'. apply next_longest in E' as (k' & m' & A' & -> & S' & L').
    rewrite A in A'. apply app_inv_tail in A'. subst m'. assert (length m <= length s)%nat by (eapply L; [exact A|exact S']).
    destruct (app_length_inv _ _ _ _ A) as (-> & ->); [lia|]. rewrite E. now rewrite (spells_fun _ _ _ S S').
  Qed.

  (** *** the whole text *)
  Lemma ignored_iff c : ignored c = true <-> blank c.
  Proof. unfold ignored, blank. rewrite !orb_true_iff, !N.eqb_eq. unfold c_sp, c_tab, c_cr, c_nl. tauto. Qed.
  Lemma spells_not_blank k c s : spells k (c :: s) -> ~ blank c.
  Proof.
    intros H B. apply next_exact in H. assert (c = 32 \/ c = 9 \/ c = 13 \/ c = 10) as X by exact B.
    revert H. unfold next_token. rewrite m_name_not by (destruct X as [-> | [-> | [-> | ->]]]; (reflexivity || lia)).
    destruct X as [-> | [-> | [-> | ->]]]; discriminate.
  Qed.
  Lemma lex_S n s : lex v (S n) s =
      match s with
      | [] => mkI [] false
      | c :: r =>
          if ignored c then lex v n r
          else match next_token v s with
               | Some (t, r') => let i := lex v n r' in mkI (t :: toks i) (broken i)
               | None => mkI [] true
               end
      end.
  Proof. reflexivity. Qed.
  Lemma scans_blank c s l b : blank c -> scans s l b -> scans (c :: s) l b.
  Proof.
    intros B H. destruct H as [w F|w t s rest l b F S L H|w c' rest F N X].
    - apply S_end. now constructor.
    - apply (S_token _ _ (c :: w)); auto.
    - apply (S_bad _ _ (c :: w)); auto.
  Qed.
  Lemma lex_sound n : forall s, (length s < n)%nat -> exists l b, lex v n s = mkI (map emb l) b /\ scans s l b.
  Proof.
    induction n as [|n IH]; intros s Hn; [lia|]. rewrite lex_S. destruct s as [|c r].
    - exists [], false. split; [reflexivity|]. now apply S_end.
    - cbn [length] in Hn. destruct (ignored c) eqn:I.
      + destruct (IH r) as (l & b & E & S); [lia|]. exists l, b. split; [exact E|]. apply scans_blank; [now apply ignored_iff|assumption].
      + destruct (next_token v (c :: r)) as [[x t]|] eqn:E.
        * apply next_longest in E as (k & m & A & -> & S & L). pose proof (spells_nonempty _ _ S) as NE.
          destruct (IH t) as (l & b & E & H). { apply (f_equal (@length _)) in A. rewrite app_length in A. cbn [length] in A. destruct m; [contradiction|cbn [length] in A; lia]. }
          exists (k :: l), b. rewrite E. split; [reflexivity|]. rewrite A. apply (S_token _ _ [] k m); auto.
        * exists [], true. split; [reflexivity|]. apply (S_bad _ _ [] c r); auto; [intros B; apply ignored_iff in B; congruence|].
          intros k m t A. eapply next_nothing; eassumption.
  Qed.
  Lemma lex_blank w : forall n s, Forall blank w -> lex v (length w + n) (w ++ s) = lex v n s.
  Proof.
    induction w as [|c w IH]; intros n s F; [reflexivity|]. inversion F as [|? ? B F']; subst. cbn [length Nat.add app]. rewrite lex_S.
    apply ignored_iff in B. rewrite B. now apply IH.
  Qed.
  Lemma lex_complete s l b : scans s l b -> forall n, (length s < n)%nat -> lex v n s = mkI (map emb l) b.
  Proof.
    intros H. induction H as [w F|w t s rest l b F S L H IH|w c rest F N X]; intros n Hn.
    - replace n with (length w + (n - length w))%nat by lia. rewrite <- (app_nil_r w) at 3. rewrite lex_blank by assumption.
      destruct (n - length w)%nat eqn:E; [lia|reflexivity].
    - rewrite !app_length in Hn. replace n with (length w + (n - length w))%nat by lia. rewrite lex_blank by assumption.
      destruct (n - length w)%nat as [|n'] eqn:E; [lia|]. rewrite lex_S. destruct s as [|c s]; [now apply spells_nonempty in S|].
      pose proof (spells_not_blank _ _ _ S) as NB. cbn [app].
      replace (ignored c) with false by (symmetry; apply not_true_iff_false; rewrite ignored_iff; exact NB).
      change (c :: s ++ rest) with ((c :: s) ++ rest). rewrite (next_of_longest t (c :: s) rest S L). cbn [map]. rewrite IH by (cbn [length] in Hn; lia). reflexivity.
    - rewrite !app_length in Hn. replace n with (length w + (n - length w))%nat by lia. rewrite lex_blank by assumption.
      destruct (n - length w)%nat as [|n'] eqn:E; [cbn [length] in Hn; lia|]. rewrite lex_S.
      replace (ignored c) with false by (symmetry; apply not_true_iff_false; rewrite ignored_iff; exact N).
      destruct (next_token v (c :: rest)) as [[x t]|] eqn:T; [|reflexivity].
      apply next_longest in T as (k & m & A & _ & S & _). exfalso. eapply X; eassumption.
  Qed.
  Lemma map_emb_inj l : forall l', map emb l = map emb l' -> l = l'.
  Proof. induction l as [|k l IH]; intros [|k' l'] H; try discriminate; [reflexivity|]. injection H as E H. apply emb_inj in E. subst. f_equal. auto. Qed.
  Theorem tokens_scans s l b : tokens v s = mkI (map emb l) b <-> scans s l b.
  Proof.
    split.
    - intros H. destruct (lex_sound (S (length s)) s) as (l' & b' & E & S); [lia|]. unfold tokens in H. rewrite H in E. injection E as E <-.
      apply map_emb_inj in E. now subst.
    - intros H. apply lex_complete; [assumption|lia].
  Qed.
  Theorem tokens_total s : exists l b, tokens v s = mkI (map emb l) b /\ scans s l b.
  Proof. apply lex_sound. lia. Qed.
  Theorem scans_fun s l b l' b' : scans s l b -> scans s l' b' -> l = l' /\ b = b'.
  Proof. intros H H'. apply tokens_scans in H, H'. rewrite H in H'. injection H' as E ->. apply map_emb_inj in E. auto. Qed.
End Lexer.
