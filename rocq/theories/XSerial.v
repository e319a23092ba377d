(** What serialize (xast.py 755-770) writes is read back as the same expression, within limits. *)
From Coq Require Import Decimal DecimalPos DecimalZ.
From Verif Require Import PyStr XPath Lalr XGram XGramSpec XTok XParse XSim XParseFacts XReads XCompose XLex XLexSpec XLexFacts XText.
From Verif Require ParserInv.
Local Open Scope N_scope.

(** ** The tokens that serialize writes *)
Definition op_token (op : binop) : token :=
  match op with
  | OpPath => P Slash | OpDeep => P Slashes | OpUnion => P Bar | OpEq => P Eq_ | OpNe => P Ne_ | OpGt => P Gt_ | OpLt => P Lt_
  | OpGe => P Ge_ | OpLe => P Le_ | OpOr => Word (lit "or") | OpAnd => Word (lit "and")
  | OpOther s => if str_eqb s (lit "+") then P Plus else if str_eqb s (lit "-") then P Minus else Word s
  end.
Definition canon_test (t : ntest) : list token :=
  match t with
  | TStar => [P Star] | TName n => [Word n]
  | TNode => [Word (lit "node"); P LPar; P RPar] | TText => [Word (lit "text"); P LPar; P RPar]
  end.
Fixpoint comma_tokens (l : list (list token)) : list token :=
  match l with [] => [] | [x] => x | x :: r => x ++ P Comma :: comma_tokens r end.
Fixpoint canon (e : expr) : list token :=
  match e with
  | ELit (LStr s) => [Quoted s] | ELit (LInt z) => [Int z] | ELit (LFlt f) => [Flt f]
  | ENeg r => P Minus :: canon r
  | EBin l op r => canon l ++ op_token op :: canon r
  | EAbs d None => [sep d]
  | EAbs d (Some r) => sep d :: canon r
  | EStep ax t => (match ax with AxAttribute => [P At] | _ => [Word (axis_name ax); P Colons] end) ++ canon_test t
  | EPred l ps => canon l ++ flat_map (fun p => P LBrk :: canon p ++ [P RBrk]) ps
  | ETest t => canon_test t
  | EAbbrev up => [P (if up then Dots else Dot)]
  | EVar n => [P Dollar; Word n]
  | ECall f args => Word f :: P LPar :: comma_tokens (map canon args) ++ [P RPar]
  | ESeq l => P LPar :: comma_tokens (map canon l) ++ [P RPar]
  end.

Lemma operator_token t op : operator t = Some op -> op_token op = t.
Proof.
  intros E. destruct t as [w|w|z|f|p]; try discriminate; cbn [operator] in E.
  - destruct (str_eqb w (lit "or")) eqn:A; [injection E as <-; apply (proj1 (ParserInv.str_eqb_eq _ _)) in A; now subst|].
    destruct (str_eqb w (lit "and")) eqn:B; [injection E as <-; apply (proj1 (ParserInv.str_eqb_eq _ _)) in B; now subst|].
    destruct (str_eqb w (lit "div")) eqn:C; [injection E as <-; apply (proj1 (ParserInv.str_eqb_eq _ _)) in C; now subst|].
    destruct (str_eqb w (lit "mod")) eqn:D; [injection E as <-; apply (proj1 (ParserInv.str_eqb_eq _ _)) in D; now subst|]. discriminate.
  - destruct p; inversion E; reflexivity.
Qed.
Lemma canon_reads_all :
  (forall m l e, reads m l e -> reads m (canon e) e)
  /\ (forall l es, arguments l es -> arguments (P LPar :: comma_tokens (map canon es) ++ [P RPar]) es)
  /\ (forall l es, listed l es -> listed (comma_tokens (map canon es)) es)
  /\ (forall l es, predicates l es -> predicates (flat_map (fun p => P LBrk :: canon p ++ [P RBrk]) es) es)
  /\ (forall l t, node_type l t -> node_type (canon_test t) t)
  /\ (forall l t, node_test l t -> node_test (canon_test t) t)
  /\ (forall f l e, one_step f l e -> one_step f (canon e) e)
  /\ (forall f l e, path f l e -> path f (canon e) e).
Proof.
  apply syntax_min; intros.
  - apply R_str. - apply R_int. - apply R_flt. - apply R_var. - cbn [canon]. apply R_call; assumption.
  - now apply R_type. - now apply R_seq. - now apply R_path. - apply R_root. - now apply R_abs. - now apply R_neg.
  - cbn [canon]. rewrite (operator_token _ _ H). apply R_bin; assumption.
  - cbn [canon]. apply R_pred; assumption.
  - cbn [canon]. destruct d; apply (R_step _ true) || apply (R_step _ false); assumption.
  - apply A_none. - now apply A_some.
  - now apply L_one.
  - cbn [map comma_tokens]. destruct (map canon es) as [|x r] eqn:E.
    + destruct es; [|discriminate]. inversion H1.
    + now apply L_more.
  - cbn [flat_map]. rewrite app_nil_r. now apply Ps_one.
  - cbn [flat_map]. rewrite <- app_comm_cons, <- app_assoc. cbn [app]. now apply Ps_more.
  - eapply N_node, A_none. - eapply N_text, A_none.
  - apply T_name. - apply T_star. - now apply T_type.
  - apply S_self. - apply S_up. - apply (S_axis f AxChild), T_name. - apply (S_axis f AxChild), T_star. - apply (S_axis true AxChild). now apply T_type.
  - now apply S_attr. - destruct ax; try (now apply S_axis). now apply S_attr.
  - now apply XGramSpec.P_step. - cbn [canon]. destruct d; apply (XGramSpec.P_more f _ _ true) || apply (XGramSpec.P_more f _ _ false); assumption.
Qed.
Theorem canon_reads m l e : reads m l e -> reads m (canon e) e.
Proof. apply canon_reads_all. Qed.

(** ** Integers *)
Section Ints.
  Variable v : lexenv.
  Lemma digit_ascii c : 48 <= c <= 57 -> digit v c = Some (c - 48).
  Proof. intros H. unfold digit. apply between_iff in H. now rewrite H. Qed.
  Definition step10 (z c : N) : N := 10 * z + match digit v c with Some d => d | None => 0 end.
  Lemma digits_digit d : forallb (is_digit v) (digits d) = true.
  Proof. induction d; cbn [digits forallb]; try reflexivity; rewrite IHd, andb_true_r; reflexivity. Qed.
  Lemma acc_digits d : forall p, N.pos (Pos.of_uint_acc d p) = fold_left step10 (digits d) (N.pos p).
  Proof.
    induction d; intros p; cbn [digits fold_left Pos.of_uint_acc]; [reflexivity|..]; rewrite IHd; f_equal; unfold step10;
      rewrite digit_ascii by lia; lia.
  Qed.
  Lemma of_uint_digits d : Pos.of_uint d = int_of v (digits d).
  Proof.
    unfold int_of. fold step10. induction d; cbn [digits fold_left Pos.of_uint]; [reflexivity| |rewrite acc_digits; f_equal; unfold step10; rewrite digit_ascii by lia; reflexivity ..].
    exact IHd.
  Qed.
  Lemma digits_head d c r : digits d = c :: r -> 48 <= c <= 57.
  Proof. destruct d; cbn [digits]; intros [= <- _]; lia. Qed.
  Lemma int_str_spells n : spells (wide_digit v) (float_of v) (Int (Z.of_N n)) (int_str (Z.of_N n)).
  Proof.
    assert (E : int_str (Z.of_N n) = digits (N.to_uint n)).
    { unfold int_str. destruct n as [|p]; reflexivity. }
    rewrite E. apply Sp_int.
    - destruct n as [|p]; [discriminate|]. intros X. assert (N.of_uint (N.to_uint (N.pos p)) = N.pos p) as Y by apply DecimalN.Unsigned.of_to.
      unfold N.of_uint in Y. rewrite of_uint_digits, X in Y. discriminate.
    - apply number_iff. split; [apply digits_digit|]. rewrite <- of_uint_digits. change (Pos.of_uint (N.to_uint n)) with (N.of_uint (N.to_uint n)). symmetry. apply DecimalN.Unsigned.of_to.
    - apply m_name_none. destruct (digits (N.to_uint n)) as [|c r] eqn:D; [reflexivity|]. apply digits_head in D.
      apply m_name_not; [|lia]. unfold start_char, between. destruct D as (D1 & D2).
      assert (forall a b, 57 < a -> (a <=? c) && (c <=? b) = false) as X by (intros a b H; apply andb_false_iff; left; apply N.leb_gt; lia).
      rewrite !X by lia. replace (c =? 95) with false by (symmetry; apply N.eqb_neq; lia). reflexivity.
  Qed.
End Ints.

(** ** Writing *)
Definition test_last (t : ntest) : token := match t with TStar => P Star | TName n => Word n | TNode | TText => P RPar end.
(** The last token of an expression. *)
Fixpoint last_token (e : expr) : token :=
  match e with
  | ELit (LStr s) => Quoted s | ELit (LInt z) => Int z | ELit (LFlt f) => Flt f
  | ENeg r => last_token r | EBin _ _ r => last_token r | EAbs d None => sep d | EAbs _ (Some r) => last_token r
  | EStep _ t | ETest t => test_last t
  | EPred _ _ => P RBrk
  | EAbbrev up => P (if up then Dots else Dot)
  | EVar n => Word n
  | ECall _ _ | ESeq _ => P RPar
  end.
(** Written without a blank, the operator and what is before it become something else: a name goes on
    with a minus sign, and two slashes are one token. *)
Definition runs_on (l : expr) (op : binop) : bool :=
  match last_token l, op with
  | Word _, OpOther s => str_eqb s (lit "-")
  | P Slash, OpPath | P Slash, OpDeep => true
  | _, _ => false
  end.
Section Write.
  Variables (w : env) (v : lexenv).
  Notation spells := (spells (wide_digit v) (float_of v)).
  Notation scans := (scans (wide_digit v) (float_of v)).
  Notation free := (free v).
  (** No string literals, no floating point numbers that str() writes with an exponent, nothing that runs on. *)
  Fixpoint plain (e : expr) : Prop :=
    match e with
    | ELit (LStr _) => False | ELit (LInt _) => True | ELit (LFlt f) => spells (Flt f) (float_str w f)
    | ENeg r => plain r
    | EBin l op r => plain l /\ plain r /\ runs_on l op = false
    | EAbs _ (Some r) => plain r
    | EPred l ps => plain l /\ fold_right (fun p rest => plain p /\ rest) True ps
    | ECall _ ps | ESeq ps => fold_right (fun p rest => plain p /\ rest) True ps
    | EAbs _ None | EStep _ _ | ETest _ | EAbbrev _ | EVar _ => True
    end.
  Definition writable (t : token) : Prop := exists s, spells t s.

  Definition is_last (k : token) : Prop :=
    match k with P p => In p [Slash; Slashes; Star; RPar; RBrk; Dot; Dots] | _ => True end.
  Lemma last_is_last e : is_last (last_token e).
  Proof.
    revert e. fix IH 1. intros [l|r|l op r|d [r|]|ax t|l ps|t|up|n|f args|l]; cbn [last_token]; try (apply IH); try (cbn; tauto).
    - destruct l; exact I.
    - destruct d; cbn; tauto.
    - destruct t; cbn; tauto.
    - destruct t; cbn; tauto.
    - destruct up; cbn; tauto.
  Qed.
  (** What may follow any expression. *)
  Lemma free_safe e c r : In c [124; 61; 33; 60; 62; 43; 32; 93; 41; 44; 91] -> free (last_token e) (c :: r).
  Proof.
    intros C. pose proof (last_is_last e) as L. unfold XText.free. destruct (last_token e) as [s|s|z|f|p]; cbn [is_last] in L.
    - cbn [In] in C. repeat (destruct C as [<- | C]; [reflexivity|]). contradiction.
    - reflexivity.
    - cbn [In] in C. repeat (destruct C as [<- | C]; [reflexivity|]). contradiction.
    - cbn [In] in C. repeat (destruct C as [<- | C]; [reflexivity|]). contradiction.
    - cbn [In] in L. repeat (destruct L as [<- | L]; [cbn [In] in C; repeat (destruct C as [<- | C]; [reflexivity|]); contradiction|]). contradiction.
  Qed.
  Lemma free_op l op r : runs_on l op = false -> op_token op <> Word (op_name op) -> free (last_token l) (op_name op ++ r).
  Proof.
    intros R N. destruct op as [| | | | | | | | | | |s]; try (apply free_safe; cbn; tauto).
    - unfold runs_on in R. unfold XText.free. cbn [op_name]. change (lit "/" ++ r) with (47 :: r). destruct (last_token l) as [s|s|z|f|p]; try reflexivity. destruct p; try reflexivity. discriminate.
    - unfold runs_on in R. unfold XText.free. cbn [op_name]. change (lit "//" ++ r) with (47 :: 47 :: r). destruct (last_token l) as [s|s|z|f|p]; try reflexivity. destruct p; try reflexivity. discriminate.
    - cbn [op_name op_token] in *. destruct (str_eqb s (lit "+")) eqn:E.
      + apply (proj1 (ParserInv.str_eqb_eq _ _)) in E. subst. apply free_safe. cbn; tauto.
      + destruct (str_eqb s (lit "-")) eqn:E'; [|contradiction]. unfold runs_on in R. rewrite E' in R. apply (proj1 (ParserInv.str_eqb_eq _ _)) in E'. subst.
        pose proof (last_is_last l) as L. unfold XText.free. change (lit "-" ++ r) with (45 :: r).
        destruct (last_token l) as [s|s|z|f|p]; try reflexivity; [discriminate|]. cbn [is_last In] in L. repeat (destruct L as [<- | L]; [reflexivity|]). contradiction.
  Qed.
  Lemma scans_punct p r l b : free (P p) r -> scans r l b -> scans (punct_text p ++ r) (P p :: l) b.
  Proof. intros F H. apply scans_token; [apply Sp_punct|assumption|assumption]. Qed.
  Lemma known_name s : In s [lit "or"; lit "and"; lit "div"; lit "mod"; lit "node"; lit "text"] \/ (exists ax, s = axis_name ax) -> name s.
  Proof.
    assert (X : forall s c r, s = c :: r -> start_char c = true -> forallb (fun c => start_char c || extra_char c) r = true -> name s).
    { intros s0 c r -> A B. exists [c], (map (fun c => [c]) r). split; [cbn [app]; f_equal; clear B; induction r; [reflexivity|cbn [map concat app]; congruence]|].
      split; [now apply start_char_iff|]. apply Forall_forall. intros u Hu. apply in_map_iff in Hu as (c' & <- & Hc). apply extra_char_iff.
      rewrite forallb_forall in B. now apply B. }
    intros [H|(ax & ->)].
    - cbn [In] in H. repeat (destruct H as [<- | H]; [eapply X; reflexivity|]). contradiction.
    - destruct ax; eapply X; reflexivity.
  Qed.
  Lemma name_head n : name n -> exists c t, n = c :: t /\ c <> 61 /\ c <> 47 /\ c <> 45.
  Proof.
    intros (u & us & -> & B & _). destruct (begins_cases _ B) as [(c & -> & S)| ->].
    - exists c, (concat us). split; [reflexivity|]. repeat split; intros ->; discriminate.
    - eexists 192, _. split; [reflexivity|]. lia.
  Qed.
  Lemma writable_word s : writable (Word s) -> name s.
  Proof. intros (x & H). inversion H; subst. assumption. Qed.
  Lemma writable_int z : writable (Int z) -> exists n, z = Z.of_N n.
  Proof. intros (x & H). inversion H; subst. eauto. Qed.

  Definition begins_well (s : str) (bad : list N) : Prop := exists c t, s = c :: t /\ ~ In c bad.
  Definition W (bad : list N) (e : expr) : Prop :=
    plain e -> (forall rest l b, scans rest l b -> free (last_token e) rest -> scans (serialize w e ++ rest) (canon e ++ l) b)
               /\ begins_well (serialize w e) bad.
  Definition W_args (es : list expr) : Prop :=
    fold_right (fun p rest => plain p /\ rest) True es ->
    forall rest l b, scans rest l b -> scans (commas (map (serialize w) es) ++ 41 :: rest) (comma_tokens (map canon es) ++ P RPar :: l) b.
  Lemma free_punct p c r : can_follow v (P p) c = true -> free (P p) (c :: r).
  Proof. intros H. exact H. Qed.
  Lemma write_call es rest l b : W_args es -> fold_right (fun p rest => plain p /\ rest) True es -> scans rest l b ->
    scans (lit "(" ++ commas (map (serialize w) es) ++ lit ")" ++ rest) (P LPar :: comma_tokens (map canon es) ++ P RPar :: l) b.
  Proof. intros H Hp S. apply (scans_punct LPar); [destruct (commas _ ++ _); exact I || reflexivity|]. change (lit ")" ++ rest) with (41 :: rest). now apply H. Qed.

  Lemma operator_cases o op : operator o = Some op ->
    (In op [OpUnion; OpEq; OpNe; OpGt; OpLt; OpGe; OpLe; OpOther (lit "+"); OpOther (lit "-")] /\ op_text op = op_name op) \/
    (In op [OpOr; OpAnd; OpOther (lit "div"); OpOther (lit "mod")] /\ op_text op = 32 :: op_name op ++ [32]).
  Proof.
    intros E. destruct o as [x|x|z|f|p]; try discriminate; cbn [operator] in E.
    - right. destruct (str_eqb x (lit "or")) eqn:A; [injection E as <-; split; [cbn; tauto|reflexivity]|].
      destruct (str_eqb x (lit "and")) eqn:B; [injection E as <-; split; [cbn; tauto|reflexivity]|].
      destruct (str_eqb x (lit "div")) eqn:C; [injection E as <-; apply (proj1 (ParserInv.str_eqb_eq _ _)) in C; subst; split; [cbn; tauto|reflexivity]|].
      destruct (str_eqb x (lit "mod")) eqn:D; [injection E as <-; apply (proj1 (ParserInv.str_eqb_eq _ _)) in D; subst; split; [cbn; tauto|reflexivity]|]. discriminate.
    - left. destruct p; inversion E; subst; (split; [cbn; tauto|reflexivity]).
  Qed.
  Lemma free_next k s rest bad : begins_well s bad -> (forall c r, ~ In c bad -> free k (c :: r)) -> free k (s ++ rest).
  Proof. intros (c & t & -> & N) H. cbn [app]. now apply H. Qed.
  Lemma neq_eqb (a b : N) : ~ In a [b] -> (a =? b) = false.
  Proof. intros H. apply N.eqb_neq. intros ->. apply H. now left. Qed.
  Lemma write_operator o op a s rest l b : operator o = Some op -> runs_on a op = false -> begins_well s [61] -> scans (s ++ rest) l b ->
    free (last_token a) (op_text op ++ s ++ rest) /\ scans (op_text op ++ s ++ rest) (op_token op :: l) b.
  Proof.
    intros E R B S. destruct (operator_cases _ _ E) as [(I & ->)|(I & ->)].
    - split.
      + apply free_op; [assumption|]. cbn [In] in I. repeat (destruct I as [<- | I]; [discriminate|]). contradiction.
      + assert (F : forall p, In p [Bar; Eq_; Ne_; Gt_; Lt_; Ge_; Le_; Plus; Minus] -> free (P p) (s ++ rest)).
        { intros p Hp. eapply free_next; [eassumption|]. intros c r N. unfold XText.free. cbn [In] in Hp.
          repeat (destruct Hp as [<- | Hp]; [cbn [can_follow]; rewrite ?(neq_eqb _ _ N); reflexivity|]). contradiction. }
        cbn [In] in I. repeat (destruct I as [<- | I]; [match goal with |- XLexSpec.scans _ _ _ (op_token ?o :: _) _ => let t := eval vm_compute in (op_token o) in
          match t with P ?p => apply (scans_punct p); [apply F; cbn; tauto|assumption] end end|]). contradiction.
    - split.
      + cbn [app]. apply free_safe. cbn; tauto.
      + cbn [app]. apply scans_blank; [now left|]. rewrite <- app_assoc. cbn [app].
        cbn [In] in I. repeat (destruct I as [<- | I]; [apply scans_token; [apply Sp_word; apply known_name; left; cbn; tauto|apply free_blank; now left|apply scans_blank; [now left|assumption]]|]). contradiction.
  Qed.
  Lemma write_sep d a s rest l b : runs_on a (sep_op d) = false -> begins_well s [61; 47] -> scans (s ++ rest) l b ->
    free (last_token a) (op_text (sep_op d) ++ s ++ rest) /\ scans (op_text (sep_op d) ++ s ++ rest) (op_token (sep_op d) :: l) b.
  Proof.
    intros R B S. split.
    - destruct d; apply free_op; try assumption; discriminate.
    - destruct d; cbn [sep_op].
      + apply (scans_punct Slashes); [|assumption]. destruct (s ++ rest); [exact I|reflexivity].
      + apply (scans_punct Slash); [|assumption]. eapply free_next; [eassumption|]. intros c r N. unfold XText.free. cbn [can_follow].
        rewrite neq_eqb; [reflexivity|]. intros [X|[]]. apply N. right. now left.
  Qed.
  Lemma well_app s r bad : begins_well s bad -> begins_well (s ++ r) bad.
  Proof. intros (c & t & -> & N). exists c, (t ++ r). auto. Qed.
  Lemma well_weaken s : begins_well s [61; 47] -> begins_well s [61].
  Proof. intros (c & t & -> & N). exists c, t. split; [reflexivity|]. intros [X|[]]. apply N. now left. Qed.
  Lemma W_operator o op bad a b : operator o = Some op -> W bad a -> W [61] b -> W bad (EBin a op b).
  Proof.
    intros E A B (Pa & Pb & R). destruct (A Pa) as (Ra & Ba), (B Pb) as (Rb & Bb). split.
    - intros rest l br S F. cbn [serialize canon]. rewrite <- !app_assoc. cbn [app].
      destruct (write_operator o op a (serialize w b) rest (canon b ++ l) br E R Bb) as (F' & S'); [now apply Rb|]. now apply Ra.
    - cbn [serialize]. now apply well_app.
  Qed.
  Lemma W_sep d bad a b : W bad a -> W [61; 47] b -> W bad (EBin a (sep_op d) b).
  Proof.
    intros A B (Pa & Pb & R). destruct (A Pa) as (Ra & Ba), (B Pb) as (Rb & Bb). split.
    - intros rest l br S F. cbn [serialize canon]. rewrite <- !app_assoc. cbn [app].
      destruct (write_sep d a (serialize w b) rest (canon b ++ l) br R Bb) as (F' & S'); [now apply Rb|]. now apply Ra.
    - cbn [serialize]. now apply well_app.
  Qed.
  Definition W_test (t : ntest) : Prop :=
    (forall rest l b, scans rest l b -> free (test_last t) rest -> scans (test_text t ++ rest) (canon_test t ++ l) b) /\ begins_well (test_text t) [61; 47].
  Definition W_preds (es : list expr) : Prop :=
    fold_right (fun p rest => plain p /\ rest) True es -> forall rest l b, scans rest l b ->
    scans (flat_map (fun p => lit "[" ++ serialize w p ++ lit "]") es ++ rest) (flat_map (fun p => P LBrk :: canon p ++ [P RBrk]) es ++ l) b.
  Lemma begins_first c t bad : forallb (fun b => negb (c =? b)) bad = true -> begins_well (c :: t) bad.
  Proof.
    intros H. exists c, t. split; [reflexivity|]. intros X. rewrite forallb_forall in H. specialize (H _ X). rewrite N.eqb_refl in H. discriminate.
  Qed.
  Lemma name_well n r : name n -> begins_well (n ++ r) [61; 47].
  Proof. intros H. destruct (name_head n H) as (c & t & -> & A & B & _). exists c, (t ++ r). split; [reflexivity|]. cbn. intuition. Qed.
  Lemma W_type t : t = TNode \/ t = TText -> W_test t.
  Proof.
    intros H. assert (E : exists n, test_text t = n ++ lit "()" /\ canon_test t = [Word n; P LPar; P RPar] /\ name n).
    { destruct H as [-> | ->]; [exists (lit "node")|exists (lit "text")]; repeat split; apply known_name; left; cbn; tauto. }
    destruct E as (n & E1 & E2 & N). rewrite E1, E2 || idtac. split.
    - intros rest l b S F. rewrite E1, E2. rewrite <- app_assoc. cbn [app].
      apply scans_token; [now apply Sp_word|reflexivity|]. change (lit "()" ++ rest) with (lit "(" ++ lit ")" ++ rest).
      apply (scans_punct LPar); [reflexivity|]. apply (scans_punct RPar); [destruct rest; exact I || reflexivity|assumption].
    - rewrite E1. now apply name_well.
  Qed.
  Lemma W_name n : name n -> W_test (TName n).
  Proof.
    intros N. split.
    - intros rest l b S F. cbn [test_last test_text canon_test app] in *. apply scans_token; [now apply Sp_word|assumption|assumption].
    - change (begins_well n [61; 47]). rewrite <- (app_nil_r n). now apply name_well.
  Qed.
  Lemma W_star : W_test TStar.
  Proof.
    split; [|now apply begins_first]. intros rest l b S F. apply (scans_punct Star); assumption.
  Qed.
  Lemma free_any p rest : (forall c, can_follow v (P p) c = true) -> free (P p) rest.
  Proof. intros H. destruct rest; [exact I|apply H]. Qed.
  Lemma W_step ax t : W_test t -> W [61; 47] (EStep ax t).
  Proof.
    intros (R & B) _. assert (D : ax = AxAttribute \/ serialize w (EStep ax t) = axis_name ax ++ lit "::" ++ test_text t /\ canon (EStep ax t) = Word (axis_name ax) :: P Colons :: canon_test t).
    { destruct ax; auto; right; split; reflexivity. }
    destruct D as [-> | (E1 & E2)].
    - split.
      + intros rest l b S F. change (serialize w (EStep AxAttribute t) ++ rest) with (lit "@" ++ test_text t ++ rest). apply (scans_punct At); [now apply free_any|]. now apply R.
      + now apply begins_first.
    - rewrite E1, E2. split.
      + intros rest l b S F. rewrite <- !app_assoc. cbn [app]. apply scans_token; [apply Sp_word, known_name; right; eauto|reflexivity|].
        apply (scans_punct Colons); [now apply free_any|]. now apply R.
      + apply name_well. apply known_name. right. eauto.
  Qed.
  Lemma fold_plain es e : fold_right (fun p rest => plain p /\ rest) True es -> In e es -> plain e.
  Proof. induction es as [|x es IH]; cbn [fold_right In]; [tauto|]. intros (A & B) [-> | I]; auto. Qed.

  Ltac parts := repeat match goal with
    | H : Forall _ (_ ++ _) |- _ => apply Forall_app in H; destruct H
    | H : Forall _ (_ :: _) |- _ => apply Forall_cons_iff in H; destruct H
    end.
  Lemma write_all :
    (forall m l e, reads m l e -> Forall writable l -> W [61] e)
    /\ (forall l es, arguments l es -> Forall writable l -> W_args es)
    /\ (forall l es, listed l es -> Forall writable l -> es <> [] /\ W_args es)
    /\ (forall l es, predicates l es -> Forall writable l -> W_preds es)
    /\ (forall l t, node_type l t -> Forall writable l -> t = TNode \/ t = TText)
    /\ (forall l t, node_test l t -> Forall writable l -> W_test t)
    /\ (forall f l e, one_step f l e -> Forall writable l -> W [61; 47] e)
    /\ (forall f l e, path f l e -> Forall writable l -> W [61; 47] e).
  Proof.
    apply syntax_min; intros; parts.
    - intros [].
    - destruct (writable_int z H) as (n & ->). intros _. pose proof (int_str_spells v n) as Sp. split.
      + intros rest l b S F. cbn [serialize literal_text canon app]. now apply scans_token.
      + cbn [serialize literal_text]. destruct (int_str (Z.of_N n)) as [|c t] eqn:E; [now apply spells_nonempty in Sp|].
        apply begins_first. cbn. rewrite andb_true_r. apply negb_true_iff, N.eqb_neq. intros ->. unfold int_str in E.
        destruct n as [|p]; cbn in E; [discriminate|]. apply digits_head in E. lia.
    - intros Pl. cbn [plain] in Pl. split.
      + intros rest l b S F. cbn [serialize literal_text canon app]. now apply scans_token.
      + cbn [serialize literal_text]. inversion Pl as [| | |a b x y Ma Mb NE L E|]; subst. rewrite <- E || idtac.
        apply number_iff in Ma as (Fa & _). destruct a as [|c a]; [now apply begins_first|]. cbn [app]. apply begins_first. cbn. rewrite andb_true_r.
        apply negb_true_iff, N.eqb_neq. intros ->. discriminate.
    - intros _. match goal with X : writable (Word _) |- _ => apply writable_word in X end. split.
      + intros rest l b S F. change (serialize w (EVar s) ++ rest) with (lit "$" ++ s ++ rest). apply (scans_punct Dollar); [now apply free_any|]. now apply scans_token; [apply Sp_word|..].
      + now apply begins_first.
    - match goal with X : writable (Word _) |- _ => apply writable_word in X end. intros Pl. split.
      + intros rest l b S F. cbn [serialize canon]. rewrite <- !app_assoc. cbn [app]. rewrite <- !app_assoc.
        apply scans_token; [now apply Sp_word|reflexivity|]. apply write_call; auto.
      + cbn [serialize]. now apply well_weaken, name_well.
    - intros _. destruct (W_type _ (H0 H1)) as (R & B). split; [exact R|now apply well_weaken].
    - intros Pl. split.
      + intros rest l b S F. cbn [serialize canon]. rewrite <- !app_assoc. cbn [app]. rewrite <- !app_assoc. apply write_call; auto.
      + now apply begins_first.
    - intros Pl. destruct (H0 H1 Pl) as (R & B). split; [exact R|now apply well_weaken].
    - intros _. split; [|now apply begins_first]. intros rest l b S F. apply (scans_punct Slash); assumption.
    - intros Pl. destruct (H0 H2 Pl) as (R & B). split.
      + intros rest l b S F. destruct d.
        * change (serialize w (EAbs true (Some p)) ++ rest) with (lit "//" ++ serialize w p ++ rest). apply (scans_punct Slashes); [now apply free_any|]. now apply R.
        * change (serialize w (EAbs false (Some p)) ++ rest) with (lit "/" ++ serialize w p ++ rest). apply (scans_punct Slash); [|now apply R].
          eapply free_next; [eassumption|]. intros c r N. unfold XText.free. cbn [can_follow]. rewrite neq_eqb; [reflexivity|]. intros [X|[]]. apply N. right. now left.
      + destruct d; now apply begins_first.
    - intros Pl. destruct (H0 H2 Pl) as (R & B). split.
      + intros rest l b S F. change (serialize w (ENeg e) ++ rest) with (lit "-" ++ serialize w e ++ rest). apply (scans_punct Minus); [now apply free_any|]. now apply R.
      + now apply begins_first.
    - eapply W_operator; eauto.
    - intros (Pl & Ps). destruct (H0 H4 Pl) as (R & B). split.
      + intros rest l' b S F. cbn [serialize canon]. rewrite <- !app_assoc. apply R; [now apply H3|].
        inversion H2; subst; cbn [flat_map app]; apply free_safe; cbn; tauto.
      + cbn [serialize]. now apply well_app.
    - apply W_sep; auto.
    - intros _ rest l b S. cbn [map commas comma_tokens app]. apply (scans_punct RPar); [now apply free_any|assumption].
    - now apply H0.
    - split; [discriminate|]. intros (Pl & _) rest l b S. destruct (H0 H1 Pl) as (R & B). cbn [map commas comma_tokens app]. apply R; [|apply free_safe; cbn; tauto].
      apply (scans_punct RPar); [now apply free_any|assumption].
    - split; [discriminate|]. intros (Pl & Ps) rest l b S. destruct (H0 H3 Pl) as (R & B). destruct (H2 H5) as (NE & A).
      destruct es as [|x es]; [contradiction|]. cbn [map commas comma_tokens].
      rewrite <- !app_assoc. cbn [app]. apply R; [|apply free_safe; cbn; tauto]. rewrite <- !app_assoc || idtac.
      apply (scans_punct Comma); [now apply free_any|]. apply A; assumption.
    - intros (Pl & _) rest l b S. destruct (H0 H2 Pl) as (R & B). cbn [flat_map]. rewrite !app_nil_r. rewrite <- !app_assoc. cbn [app]. rewrite <- !app_assoc.
      apply (scans_punct LBrk); [now apply free_any|]. apply R; [|apply free_safe; cbn; tauto]. apply (scans_punct RBrk); [now apply free_any|assumption].
    - intros (Pl & Ps) rest l b S. destruct (H0 H4 Pl) as (R & B). cbn [flat_map]. rewrite <- !app_assoc. cbn [app]. rewrite <- !app_assoc.
      apply (scans_punct LBrk); [now apply free_any|]. apply R; [|apply free_safe; cbn; tauto]. apply (scans_punct RBrk); [now apply free_any|]. apply H2; assumption.
    - now left. - now right.
    - apply W_name. now apply writable_word. - apply W_star. - apply W_type. auto.
    - intros _. split; [|now apply begins_first]. intros rest l b S F. apply (scans_punct Dot); assumption.
    - intros _. split; [|now apply begins_first]. intros rest l b S F. apply (scans_punct Dots); assumption.
    - apply W_step, W_name. now apply writable_word.
    - apply W_step, W_star.
    - apply W_step, W_type. auto.
    - apply W_step. auto.
    - apply W_step. auto.
    - auto.
    - apply W_sep; auto.
  Qed.
  Theorem serialize_reads l e : reads 0 l e -> Forall writable l -> plain e -> scans (serialize w e) (canon e) false /\ reads 0 (canon e) e.
  Proof.
    intros R Hw Pl. split; [|eapply canon_reads; eassumption]. destruct write_all as (A & _). destruct (A _ _ _ R Hw Pl) as (B & _).
    specialize (B [] [] false (S_end _ _ [] (Forall_nil _)) I). now rewrite !app_nil_r in B.
  Qed.
  Lemma scans_writable s l b : scans s l b -> Forall writable l.
  Proof. intros H. induction H; constructor; auto. eexists; eassumption. Qed.
  Theorem serialize_parses s e : parse_text v s = POk e -> plain e -> parse_text v (serialize w e) = POk e.
  Proof.
    intros H Pl. apply parse_text_reads in H as (l & S & R). apply parse_text_reads. exists (canon e). eapply serialize_reads; [eassumption| |assumption].
    eapply scans_writable; eassumption.
  Qed.
End Write.
