(** Expressions as texts: reading, spacing, and what serialize writes. *)
From Verif Require Import PyStr XPath Lalr XGram XGramSpec XTok XParse XSim XParseFacts XReads XCompose XLex XLexSpec XLexFacts.
From Verif Require ParserInv.
Local Open Scope N_scope.

(** ** Texts *)
Section Text.
  Variable v : lexenv.
  Notation spells := (spells (wide_digit v) (float_of v)).
  Notation scans := (scans (wide_digit v) (float_of v)).
  Notation longest := (longest (wide_digit v) (float_of v)).

  Theorem parse_text_reads s e : parse_text v s = POk e <-> exists l, scans s l false /\ reads 0 l e.
  Proof.
    unfold parse_text. destruct (tokens_total v s) as (l & b & E & S). rewrite E. split.
    - intros H. exists l. destruct b.
      + destruct (parse_broken l) as (x & X & _). congruence.
      + split; [assumption|]. now apply parse_reads.
    - intros (l' & S' & R). destruct (scans_fun v _ _ _ _ _ S S') as (-> & ->). now apply parse_reads.
  Qed.
  Theorem parse_text_total s : (exists e, parse_text v s = POk e) \/ parse_text v s = PExn RuntimeErr \/ parse_text v s = PExn TypeErr.
  Proof.
    unfold parse_text. destruct (tokens_total v s) as (l & b & E & S). rewrite E. destruct b.
    - destruct (parse_broken l) as (x & -> & [-> | ->]); auto.
    - destruct (parse_tokens (mkI (map emb l) false)) as [e|x|] eqn:P; [eauto| |].
      + right. left. rewrite <- P. apply parse_otherwise. intros e R. apply parse_reads in R. congruence.
      + assert (PFuel = PExn RuntimeErr) as X; [|discriminate]. rewrite <- P. apply parse_otherwise. intros e R. apply parse_reads in R. congruence.
  Qed.
  (** Without anything that is not a token, a RuntimeError. *)
  Theorem parse_text_syntax s l : scans s l false -> (forall e, ~ reads 0 l e) -> parse_text v s = PExn RuntimeErr.
  Proof. intros S H. unfold parse_text. apply tokens_scans in S. rewrite S. now apply parse_otherwise. Qed.
  (** Something that is not a token in front: a TypeError. *)
  Theorem parse_text_bad s : scans s [] true -> parse_text v s = PExn TypeErr.
  Proof. intros S. unfold parse_text. apply tokens_scans in S. rewrite S. reflexivity. Qed.

  (** ** What may follow a token without changing it *)
  Definition can_follow (k : token) (c : chr) : bool :=
    match k with
    | Word _ => negb (start_char c || extra_char c || (c =? 192))
    | Int _ => negb (is_digit v c || (c =? 46))
    | Flt _ => negb (is_digit v c)
    | P Slash => negb (c =? 47)
    | P Dot => negb (is_digit v c || (c =? 46))
    | P Lt_ | P Gt_ => negb (c =? 61)
    | _ => true
    end.
  Lemma name_tail_exact us c r : Forall continues us -> start_char c || extra_char c || (c =? 192) = false -> name_tail (concat us ++ c :: r) = (concat us, c :: r).
  Proof.
    intros F C. apply orb_false_iff in C as (C & N). induction us as [|u us IH].
    - cbn [concat app]. rewrite name_tail_S, C. destruct r as [|c2 [|c3 [|c4 r]]]; try reflexivity.
      destruct (str_eqb [c; c2; c3; c4] odd_start) eqn:E; [|reflexivity]. apply (proj1 (ParserInv.str_eqb_eq _ _)) in E. injection E as -> _. discriminate.
    - inversion F as [|? ? Fu Fus]; subst. specialize (IH Fus). cbn [concat]. rewrite <- app_assoc.
      destruct (continues_cases _ Fu) as [(c' & -> & Ec)| ->].
      + cbn [app]. rewrite name_tail_S, Ec, IH. reflexivity.
      + unfold odd_start. cbn [app]. rewrite name_tail_S. change (start_char 192 || extra_char 192) with false. cbv iota.
        change (str_eqb [192; 45; 214; 93] odd_start) with true. cbv iota. rewrite IH. reflexivity.
  Qed.
  Lemma m_name_exact n c r : name n -> start_char c || extra_char c || (c =? 192) = false -> m_name (n ++ c :: r) = Some (n, c :: r).
  Proof.
    intros (u & us & -> & B & F) C. rewrite <- app_assoc. destruct (begins_cases _ B) as [(c' & -> & Ec)| ->].
    - cbn [app]. unfold m_name. rewrite Ec, name_tail_exact by assumption. reflexivity.
    - unfold odd_start. cbn [app]. unfold m_name. change (start_char 192) with false. cbv iota.
      change (str_eqb [192; 45; 214; 93] odd_start) with true. cbv iota. rewrite name_tail_exact by assumption. reflexivity.
  Qed.
  Lemma digits_not_name s r : s <> [] -> forallb (is_digit v) s = true -> ~ like_name s -> m_name (s ++ r) = None.
  Proof.
    intros NE F L. apply m_name_none. intros LN. destruct (like_name_ext s r LN L) as [-> | [-> | (r' & -> & _)]]; [contradiction| |].
    - discriminate.
    - discriminate.
  Qed.
  Lemma no_dot_match {A} (c : N) (x y : A) : c <> 46 -> match c with 46 => x | _ => y end = y.
  Proof. intros N. destruct c as [|p]; [reflexivity|]. repeat (destruct p as [p|p|]; try reflexivity). contradiction. Qed.
  Lemma next_follow k s c r : spells k s -> can_follow k c = true -> next_token v (s ++ c :: r) = Some (emb k, c :: r).
  Proof.
    intros H C. inversion H as [n N|q s' Q I|s' z NE M L|a b y z Ma Mb NE L|p]; subst.
    - cbn [can_follow] in C. apply negb_true_iff in C. unfold next_token. rewrite m_name_exact by assumption. now rewrite name_type_word.
    - cbn [app]. rewrite <- app_assoc. cbn [app]. unfold next_token. rewrite m_name_not by (destruct Q as [-> | ->]; (reflexivity || lia)).
      replace (m_literal (q :: s' ++ q :: c :: r)) with (Some (s', c :: r)); [reflexivity|].
      unfold m_literal. destruct Q as [-> | ->]; cbn [N.eqb c_dq c_sq Pos.eqb orb]; symmetry; now apply until_iff.
    - cbn [can_follow] in C. apply negb_true_iff, orb_false_iff in C as (C & C46). apply N.eqb_neq in C46.
      apply number_iff in M as (F & ->). unfold next_token. rewrite digits_not_name by assumption. destruct s as [|d s]; [contradiction|].
      cbn [app]. rewrite (digit_not_quote v) by (cbn [forallb] in F; now apply andb_true_iff in F).
      change (d :: s ++ c :: r) with ((d :: s) ++ c :: r).
      unfold m_float, m_integer. rewrite (m_digits_exact v (d :: s) (c :: r) F) by (intros x y [= <- _]; assumption).
      rewrite no_dot_match by assumption. reflexivity.
    - cbn [can_follow] in C. apply negb_true_iff in C.
      apply number_iff in Ma as (Fa & ->), Mb as (Fb & ->). change (lit ".") with [46] in *. cbn [app] in *.
      assert (E : m_name ((a ++ 46 :: b) ++ c :: r) = None).
      { apply m_name_none. intros LN. destruct (like_name_ext _ _ LN L) as [X|[X|(r' & X & Y)]].
        - destruct a; discriminate.
        - destruct a as [|a0 [|]]; discriminate.
        - apply Y. apply in_or_app. right. now left. }
      unfold next_token. rewrite E. replace (m_literal ((a ++ 46 :: b) ++ c :: r)) with (@None lexeme).
      + rewrite <- app_assoc. cbn [app]. unfold m_float. rewrite (m_digits_exact v a (46 :: b ++ c :: r) Fa) by (intros x y [= <- _]; reflexivity).
        rewrite (m_digits_exact v b (c :: r) Fb) by (intros x y [= <- _]; assumption).
        replace (match a, b with [], [] => true | _, _ => false end) with false by (destruct a; [destruct b; [contradiction|reflexivity]|reflexivity]). reflexivity.
      + destruct a as [|x a]; [reflexivity|]. cbn [app]. symmetry. apply (digit_not_quote v). cbn [forallb] in Fa. now apply andb_true_iff in Fa.
    - assert (X : forall c0 c1, (c0 =? c1) = false -> (c1 =? c0) = false) by (intros; now rewrite N.eqb_sym).
      destruct p; unfold punct_text; match goal with |- context [next_token v (?s ++ _)] => let x := eval vm_compute in s in change s with x end;
      cbn [app]; try (rewrite next_string; [reflexivity|apply m_name_not; [reflexivity|lia]|reflexivity|reflexivity|lia|reflexivity]).
      + rewrite next_string; [|apply m_name_not; [reflexivity|lia]|reflexivity|reflexivity|lia|reflexivity].
        cbv [string_rules by_string m_rel m_equal m_first]. change (lit "//") with [47; 47]. rewrite m_exactly_two.
        change (lit "/") with [47]. rewrite m_exactly_one. cbn [can_follow] in C. apply negb_true_iff, X in C. rewrite C. reflexivity.
      + cbn [can_follow] in C. apply negb_true_iff, orb_false_iff in C as (C & C46). apply X in C46.
        unfold next_token. rewrite m_name_not by (reflexivity || lia). change (m_literal (46 :: c :: r)) with (@None lexeme).
        unfold m_float, m_integer. cbn [m_digits]. change (is_digit v 46) with false. cbv iota. cbn [m_digits]. rewrite C. change (m_nodetext (46 :: c :: r)) with (@None lexeme).
        cbv [string_rules by_string m_rel m_equal m_first]. change (lit "..") with [46; 46]. rewrite m_exactly_two, C46.
        change (lit ".") with [46]. rewrite m_exactly_one. reflexivity.
      + unfold next_token. rewrite m_name_not by (reflexivity || lia). reflexivity.
      + rewrite next_string; [|apply m_name_not; [reflexivity|lia]|reflexivity|reflexivity|lia|reflexivity].
        cbv [string_rules by_string m_rel m_first]. change (lit "<=") with [60; 61]. rewrite m_exactly_two.
        change (lit "<") with [60]. rewrite m_exactly_one. cbn [can_follow] in C. apply negb_true_iff, X in C. rewrite C. reflexivity.
      + rewrite next_string; [|apply m_name_not; [reflexivity|lia]|reflexivity|reflexivity|lia|reflexivity].
        cbv [string_rules by_string m_rel m_first]. change (lit ">=") with [62; 61]. rewrite m_exactly_two.
        change (lit ">") with [62]. rewrite m_exactly_one. cbn [can_follow] in C. apply negb_true_iff, X in C. rewrite C. reflexivity.
  Qed.
  Definition free (k : token) (rest : str) : Prop := match rest with [] => True | c :: _ => can_follow k c = true end.
  Lemma longest_free k s rest : spells k s -> free k rest -> longest s rest.
  Proof.
    intros S F. assert (E : next_token v (s ++ rest) = Some (emb k, rest)).
    { destruct rest as [|c r]; [rewrite app_nil_r; now apply next_exact|]. now apply next_follow. }
    apply next_longest in E as (k' & m & A & _ & S' & L). apply app_inv_tail in A. now subst.
  Qed.
  Lemma scans_token k s rest l b : spells k s -> free k rest -> scans rest l b -> scans (s ++ rest) (k :: l) b.
  Proof. intros S F H. apply (S_token _ _ [] k s rest); auto. eapply longest_free; eassumption. Qed.
  Lemma free_blank k c r : blank c -> free k (c :: r).
  Proof.
    intros B. unfold free. destruct k as [s|s|z|f|p]; [| | | |destruct p]; try reflexivity; destruct B as [-> | [-> | [-> | ->]]]; reflexivity.
  Qed.

  (** ** Tokens with blanks between them *)
  Theorem spaced l : forall ss, Forall2 spells l ss -> scans (flat_map (fun s => s ++ [32]) ss) l false.
  Proof.
    induction l as [|k l IH]; intros ss F; inversion F as [|? s ? ss' Sp F']; subst; [apply S_end; constructor|].
    cbn [flat_map]. rewrite <- app_assoc. cbn [app]. apply scans_token; [assumption|apply free_blank; now left|].
    apply scans_blank; [now left|]. now apply IH.
  Qed.
  (** Blanks anywhere between tokens do not matter. *)
  Theorem blanks_anywhere s l b w : scans s l b -> Forall blank w -> scans (w ++ s) l b.
  Proof. intros H F. induction F as [|c w B F IH]; [exact H|]. cbn [app]. now apply scans_blank. Qed.
End Text.
