(** What the syntax of MicroXPath does not let through, or reads as something else. *)
From Verif Require Import PyStr XPath Lalr XGram XGramSpec XTok XParse XSim XParseFacts XReads XCompose XLex XLexSpec XLexFacts XText XSerial.
From Verif Require ParserInv.
Local Open Scope N_scope.

Notation parsed l := (parse_tokens (mkI (map emb l) false)).
Lemma kind_of_word s : exists k, emb (Word s) = mkX k (TStr s) /\ In k [LOGICAL_OP; DIVMOD_OP; NAME].
Proof. exists (word_kind s). split; [reflexivity|]. destruct (word_kind_range s) as [-> | [-> | ->]]; cbn; tauto. Qed.
Ltac word_kinds :=
  cbn [map]; repeat match goal with |- context [emb (Word ?s)] => let k := fresh "k" in let E := fresh "E" in let I := fresh "I" in
    destruct (kind_of_word s) as (k & E & I); rewrite E; clear E; cbn [In] in I; destruct I as [<- | [<- | [<- | []]]] end.
(** Words after [/] are steps, also the operators. *)
Lemma root_operator x s : parsed [P Slash; Word x; Word s] = PExn RuntimeErr.
Proof. word_kinds; vm_compute; reflexivity. Qed.

(** In what is read, [::] comes after the name of an axis. *)
Definition no_colons (l : list token) : Prop := match l with P Colons :: _ => False | _ => True end.
Fixpoint axes_ok (l : list token) : Prop :=
  match l with
  | [] => True
  | t :: r => (match r with P Colons :: _ => exists ax, t = Word (axis_word ax) | _ => True end) /\ axes_ok r
  end.
Lemma axes_app l r : axes_ok l -> axes_ok r -> no_colons r -> axes_ok (l ++ r).
Proof.
  intros A B N. induction l as [|t l IH]; [exact B|]. cbn [axes_ok app] in *. destruct A as (A & A'). split; [|now apply IH].
  destruct l as [|t' l]; [|exact A]. cbn [app]. destruct r as [|[s|s|z|f|p] r]; try exact I. destruct p; try exact I. contradiction.
Qed.
Lemma axes_cons t l : axes_ok l -> no_colons l -> axes_ok (t :: l).
Proof. intros A N. apply (axes_app [t] l); [cbn; auto|assumption|assumption]. Qed.
Definition fine (l : list token) : Prop := axes_ok l /\ no_colons l.
Lemma fine_app l r : fine l -> fine r -> fine (l ++ r).
Proof. intros (A & B) (C & D). split; [now apply axes_app|]. destruct l as [|t l]; [exact D|exact B]. Qed.
Lemma fine_one t l : t <> P Colons -> fine l -> fine (t :: l).
Proof. intros N (A & B). split; [now apply axes_cons|]. destruct t as [s|s|z|f|p]; try exact I. destruct p; try exact I. congruence. Qed.
Lemma fine_nil : fine [].
Proof. split; exact I. Qed.
Lemma operator_colons o op : operator o = Some op -> o <> P Colons.
Proof. intros E ->. discriminate. Qed.
Lemma sep_colons d : sep d <> P Colons.
Proof. destruct d; discriminate. Qed.
Lemma axes_all :
  (forall m l e, reads m l e -> fine l) /\ (forall l es, arguments l es -> fine l) /\ (forall l es, listed l es -> fine l)
  /\ (forall l es, predicates l es -> fine l) /\ (forall l t, node_type l t -> fine l) /\ (forall l t, node_test l t -> fine l)
  /\ (forall f l e, one_step f l e -> fine l) /\ (forall f l e, path f l e -> fine l).
Proof.
  apply syntax_min; intros; try solve [repeat (assumption || apply fine_nil || (apply fine_one; [first [discriminate|apply sep_colons|eapply operator_colons; eassumption]|]) || apply fine_app)].
  split; [|exact I]. cbn [axes_ok]. split; [eauto|]. destruct H0 as (A & B). apply axes_cons; assumption.
Qed.
Lemma unknown_axis x l1 l2 : (forall ax, x <> axis_word ax) -> parsed (l1 ++ Word x :: P Colons :: l2) = PExn RuntimeErr.
Proof.
  intros N. apply parse_otherwise. intros e R. apply axes_all in R as (A & _). induction l1 as [|t l1 IH].
  - cbn in A. destruct A as ((ax & [= X]) & _). exact (N ax X).
  - cbn [app axes_ok] in A. apply IH. apply A.
Qed.

(** *** Letters *)
Section Letters.
  Variable v : lexenv.
  (** The capital letters from U+00C0 to U+00D6 do not begin a name. *)
  Lemma capital_letter c s : 192 <= c <= 214 -> (forall r, c :: s <> odd_start ++ r) -> parse_text v (c :: s) = PExn TypeErr.
  Proof.
    intros C O. apply parse_text_bad. apply (S_bad _ _ [] c s); [constructor|unfold blank; lia|].
    intros t s' r E Sp. assert (next_token v (c :: s) <> None) as X.
    { rewrite E. destruct (next_covers_all v t s' r Sp) as (x & t' & m & E' & _). congruence. }
    apply X. clear X E Sp.
    assert (S0 : start_char c = false).
    { unfold start_char, between. assert (H : forall a b, b < 192 \/ 214 < a -> (a <=? c) && (c <=? b) = false).
      { intros a b [H|H]; apply andb_false_iff; [right|left]; apply N.leb_gt; lia. }
      rewrite !H by lia. replace (c =? 95) with false by (symmetry; apply N.eqb_neq; lia). reflexivity. }
    assert (NM : m_name (c :: s) = None).
    { unfold m_name. rewrite S0. destruct s as [|c2 [|c3 [|c4 s]]]; try reflexivity. destruct (str_eqb [c; c2; c3; c4] odd_start) eqn:Q; [|reflexivity].
      apply (proj1 (ParserInv.str_eqb_eq _ _)) in Q. exfalso. apply (O s). rewrite <- Q. reflexivity. }
    assert (D : is_digit v c = false).
    { unfold is_digit, digit. replace (between 48 57 c) with false by (symmetry; apply not_true_iff_false; rewrite between_iff; lia).
      replace (c <? 256) with true by (symmetry; apply N.ltb_lt; lia). reflexivity. }
    assert (NE : forall x, x < 192 -> (x =? c) = false) by (intros x Hx; apply N.eqb_neq; lia).
    rewrite (next_string v); [|assumption| |assumption|lia|].
    - unfold string_rules, m_rel, m_equal. cbn [by_string m_first].
      repeat match goal with |- context [m_exactly (lit ?x) (c :: s)] => let y := eval vm_compute in (lit x) in
        change (m_exactly (lit x) (c :: s)) with (m_exactly y (c :: s)); cbn [m_exactly]; rewrite NE by lia end. reflexivity.
    - unfold m_literal. rewrite (N.eqb_sym c c_dq), (N.eqb_sym c c_sq), !NE by (unfold c_dq, c_sq; lia). reflexivity.
    - unfold m_nodetext. change (lit "text()") with [116; 101; 120; 116; 40; 41]. change (lit "node()") with [110; 111; 100; 101; 40; 41].
      cbn [m_exactly]. rewrite !NE by lia. reflexivity.
  Qed.

  (** Serialisation *)
  Variable w : env.
  Lemma written_string n : name n -> parse_text v (serialize w (ELit (LStr n))) = POk (EStep AxChild (TName n)).
  Proof.
    intros N. apply parse_text_reads. exists [Word n]. split.
    - cbn [serialize literal_text]. rewrite <- (app_nil_r n) at 1. apply scans_token; [now apply Sp_word|exact I|apply S_end; constructor].
    - apply R_path, XGramSpec.P_step, S_name.
  Qed.
  Definition child_step (n : str) : expr := EStep AxChild (TName n).
  Lemma name_minus a : name a -> name (a ++ lit "-child").
  Proof.
    intros (u & us & -> & B & F). exists u, (us ++ map (fun c => [c]) (lit "-child")). split; [rewrite concat_app, app_assoc; reflexivity|]. split; [assumption|].
    apply Forall_app. split; [assumption|]. repeat (constructor; [apply extra_char_iff; reflexivity|]). constructor.
  Qed.
  Lemma written_minus a b : name a -> name b -> parse_text v (serialize w (EBin (child_step a) (OpOther (lit "-")) (child_step b))) = PExn RuntimeErr.
  Proof.
    intros A B. apply (parse_text_syntax v _ [Word (lit "child"); P Colons; Word (a ++ lit "-child"); P Colons; Word b]).
    - replace (serialize w (EBin (child_step a) (OpOther (lit "-")) (child_step b))) with (lit "child" ++ lit "::" ++ (a ++ lit "-child") ++ lit "::" ++ b ++ []) by (cbn [serialize child_step test_text test_name op_text]; rewrite <- !app_assoc, app_nil_r; reflexivity).
      apply scans_token; [apply Sp_word, known_name; right; exists AxChild; reflexivity|reflexivity|].
      apply (scans_punct v Colons); [destruct a; exact I || reflexivity|].
      apply scans_token; [now apply Sp_word, name_minus|reflexivity|]. apply (scans_punct v Colons); [destruct b; exact I || reflexivity|].
      apply scans_token; [now apply Sp_word|exact I|apply S_end; constructor].
    - intros e R. apply parse_reads in R. revert R.
      enough (parsed [Word (lit "child"); P Colons; Word (a ++ lit "-child"); P Colons; Word b] = PExn RuntimeErr) as -> by discriminate.
      apply (unknown_axis (a ++ lit "-child") [Word (lit "child"); P Colons] [Word b]).
      intros ax E. destruct A as (u & us & -> & Bu & _). destruct ax; apply (f_equal (@rev N)) in E; rewrite rev_app_distr in E; discriminate.
  Qed.
  Lemma written_slashes a : name a -> reads 0 [P Slash; P Slash; Word a] (EBin (EAbs false None) OpPath (child_step a)) /\
    parse_text v (serialize w (EBin (EAbs false None) OpPath (child_step a))) = POk (EAbs true (Some (child_step a))).
  Proof.
    intros N. split.
    - apply (R_step [P Slash] false [Word a]); [apply R_root|reflexivity|]. apply XGramSpec.P_step, S_name.
    - apply parse_text_reads. exists [P Slashes; Word (lit "child"); P Colons; Word a]. split.
      + replace (serialize w (EBin (EAbs false None) OpPath (child_step a))) with (lit "//" ++ lit "child" ++ lit "::" ++ a ++ []) by (rewrite app_nil_r; reflexivity).
        apply (scans_punct v Slashes); [reflexivity|]. apply scans_token; [apply Sp_word, known_name; right; exists AxChild; reflexivity|reflexivity|].
        apply (scans_punct v Colons); [destruct a; exact I || reflexivity|]. apply scans_token; [now apply Sp_word|exact I|apply S_end; constructor].
      + apply (R_abs 0 true). apply XGramSpec.P_step, (S_axis true AxChild), T_name.
  Qed.
End Letters.

(** [node()] and [text()] standing alone are tests of the context item, whatever their arguments. *)
Lemma lone_type (b : bool) ts es : arguments ts es -> reads 0 (Word (if b then lit "node" else lit "text") :: ts) (ETest (if b then TNode else TText)).
Proof. intros A. apply R_type. destruct b; econstructor; eassumption. Qed.
Lemma lone_text_eval w n c : eval w (S n) (ETest TText) c = (match as_str w c with Some _ => [c] | None => [] end, Done).
Proof. cbn [eval]. unfold test. destruct (as_str w c); reflexivity. Qed.
