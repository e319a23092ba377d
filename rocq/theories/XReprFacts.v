(** Proofs about repr(). *)
From Coq Require Import ZArith Lia.
From Verif Require Import PyStr XTree XPath XPathSpec XDecimal Lalr XGram XGramSpec XTok XParse XSim XParseFacts XReads XCompose XLex XLexSpec XLexFacts XText XSerial XRepr XReprSpec.
Local Open Scope N_scope.

Lemma first_mark k (a b x y : str) : ~ In k a -> ~ In k b -> a ++ k :: x = b ++ k :: y -> a = b /\ x = y.
Proof.
  revert b. induction a as [|c a IH]; intros [|d b] Na Nb E; cbn [app] in E.
  - injection E as E. auto.
  - injection E as -> E. exfalso. apply Nb. now left.
  - injection E as <- E. exfalso. apply Na. now left.
  - injection E as <- E. assert (Na' : ~ In k a) by (intros X; apply Na; right; exact X). assert (Nb' : ~ In k b) by (intros X; apply Nb; right; exact X).
    destruct (IH b Na' Nb' E) as (-> & ->). auto.
Qed.

(** ** Expressions *)
Section Body.
  Variables (w : env) (v : lexenv).
  Notation spells := (spells (wide_digit v) (float_of v)).
  Notation scans := (scans (wide_digit v) (float_of v)).
  Notation free := (free v).
  Ltac parts := repeat match goal with
    | H : Forall _ (_ ++ _) |- _ => apply Forall_app in H; destruct H
    | H : Forall _ (_ :: _) |- _ => apply Forall_cons_iff in H; destruct H
    end.
  Lemma W_less e bad : W w v [61; 47] e -> incl bad [61; 47] -> W w v bad e.
  Proof.
    intros H I P. destruct (H P) as (A & c & t & E & N). split; [exact A|]. exists c, t. split; [exact E|]. intros X. apply N, I, X.
  Qed.
  (** The operands of an operator, and the operator. *)
  Lemma operands m l a op b : reads m l (EBin a op b) -> Forall (writable v) l ->
    W w v [61] a /\ W w v [61] b /\ spells (op_token op) (op_name op).
  Proof.
    intros R F. destruct (write_all w v) as (A & _ & _ & _ & _ & _ & S & Q).
    assert (D : forall d, spells (op_token (sep_op d)) (op_name (sep_op d))).
    { intros d. destruct d; [apply (Sp_punct _ _ Slashes)|apply (Sp_punct _ _ Slash)]. }
    assert (I : incl [61] [61; 47]) by (intros x [<-|[]]; now left).
    inversion R as [| | | | | | |m' ts p PP| | | |m' l' o op' r a' b' O M L B Y| |l' d ts a' p L B PP]; subst.
    - inversion PP as [f ts e O|f ts e d ts' e' P1 O]; subst; [inversion O|]. parts. split; [|split]; [| |apply D].
      + apply W_less; [|exact I]. eapply Q; eassumption.
      + apply W_less; [|exact I]. eapply S; eassumption.
    - parts. split; [|split]; [eapply A; eassumption ..|].
      destruct (operator_cases _ _ O) as [(N & _)|(N & _)]; cbn [In] in N.
      + repeat (destruct N as [<-|N]; [match goal with |- XLexSpec.spells _ _ (op_token ?o) _ => let t := eval vm_compute in (op_token o) in match t with P ?p => apply (Sp_punct _ _ p) end end|]). contradiction.
      + repeat (destruct N as [<-|N]; [apply Sp_word, known_name; left; cbn; tauto|]). contradiction.
    - parts. split; [|split]; [eapply A; eassumption| |apply D]. apply W_less; [|exact I]. eapply Q; eassumption.
  Qed.
  Lemma parse_canon s e : parse_text v s = POk e -> reads 0 (canon e) e /\ W w v [61] e.
  Proof.
    intros H. apply parse_text_reads in H as (l & S & R). split; [eapply canon_reads; eassumption|]. destruct (write_all w v) as (A & _).
    eapply A; [eassumption|]. eapply scans_writable; eassumption.
  Qed.
  Lemma free_space k r : free k (lit " " ++ r).
  Proof. apply (free_blank v k 32 r). now left. Qed.
  Lemma scans_space r l b : scans r l b -> scans (lit " " ++ r) l b.
  Proof. intros H. apply scans_blank; [now left|exact H]. Qed.
  Lemma scans_nil : scans [] [] false.
  Proof. apply (S_end _ _ []), Forall_nil. Qed.
  Lemma whole e : W w v [61] e -> plain w v e -> scans (serialize w e) (canon e) false.
  Proof. intros H P. destruct (H P) as (A & _). specialize (A [] [] false scans_nil I). now rewrite !app_nil_r in A. Qed.
  Lemma binary_body s a op b : parse_text v s = POk (EBin a op b) -> plain w v a -> plain w v b ->
    parse_text v (serialize w a ++ lit " " ++ op_name op ++ lit " " ++ serialize w b) = POk (EBin a op b).
  Proof.
    intros H Pa Pb. pose proof (proj1 (parse_canon _ _ H)) as C. apply parse_text_reads in H as (l & S & R).
    destruct (operands _ _ _ _ _ R (scans_writable v _ _ _ S)) as (Wa & Wb & Sp). apply parse_text_reads. exists (canon (EBin a op b)). split; [|exact C].
    cbn [canon]. apply (proj1 (Wa Pa)); [|apply free_space]. apply scans_space. apply scans_token; [exact Sp|apply free_space|]. apply scans_space, whole; assumption.
  Qed.
  Lemma unary_body s e : parse_text v s = POk (ENeg e) -> plain w v (ENeg e) -> parse_text v (lit "- " ++ serialize w (ENeg e)) = POk (ENeg (ENeg e)).
  Proof.
    intros H Pe. destruct (parse_canon _ _ H) as (C & Wn). apply parse_text_reads. exists (P Minus :: canon (ENeg e)). split.
    - change (lit "- " ++ serialize w (ENeg e)) with (punct_text Minus ++ lit " " ++ serialize w (ENeg e)). apply scans_punct; [apply free_space|].
      apply scans_space, whole; assumption.
    - cbn [canon] in *. apply R_neg, R_neg. inversion C as [| | | | | | |m' ts p PP| | |m' ts e' X|m' l' o op' r a' b' O M L B Y|l' ps a' es L B Y E|l' d ts a' p L B PP]; subst.
      + inversion PP as [f ts e' O|]; subst. inversion O.
      + assumption.
  Qed.
  Lemma absolute_body s d p : parse_text v s = POk (EAbs d (Some p)) -> plain w v p ->
    parse_text v (slash_text d ++ lit " " ++ serialize w p) = POk (EAbs d (Some p)).
  Proof.
    intros H Pp. destruct (parse_canon _ _ H) as (C & _). apply parse_text_reads in H as (l & S & R). apply parse_text_reads. exists (canon (EAbs d (Some p))). split; [|exact C].
    assert (Wp : W w v [61] p).
    { inversion R as [| | | | | | |m' ts q PP| |m' d' ts q PP| | | |]; subst; [inversion PP as [f ts e' O|]; subst; inversion O|].
      destruct (write_all w v) as (_ & _ & _ & _ & _ & _ & _ & Q). pose proof (scans_writable v _ _ _ S) as Hw. parts. apply W_less; [|intros x [<-|[]]; now left]. eapply Q; eassumption. }
    cbn [canon]. destruct d; [apply (scans_punct v Slashes)|apply (scans_punct v Slash)]; try apply free_space; apply scans_space, whole; assumption.
  Qed.
  Theorem repr_body s e : parse_text v s = POk e -> shown w v e -> (forall l, e <> ELit l) ->
    exists body, framed (expr_repr w e) (kind e) body /\ parse_text v body = POk (match e with ENeg _ => ENeg e | _ => e end).
  Proof.
    intros H P N. destruct e as [l|r|l op r|d [r|]|ax t|l ps|[|n| |]|up|n|f args|l]; cbn [shown] in P.
    1: now contradiction (N l).
    1: { eexists; split; [reflexivity|]. eapply unary_body; eassumption. }
    1: { destruct P as (Pa & Pb). eexists; split; [reflexivity|]. eapply binary_body; eassumption. }
    1: { eexists; split; [reflexivity|]. eapply absolute_body; eassumption. }
    1: { eexists; split; [reflexivity|]. change (slash_text d) with (serialize w (EAbs d None)). eapply serialize_parses; eassumption. }
    all: eexists; split; [reflexivity|]; eapply serialize_parses; eassumption.
  Qed.
  Theorem repr_literal s l : parse_text v s = POk (ELit l) ->
    exists x, expr_repr w (ELit l) = lit "literal_wrapper: " ++ x /\
      match l with LStr t => x = t | _ => plain w v (ELit l) -> parse_text v x = POk (ELit l) end.
  Proof.
    intros H. eexists; split; [reflexivity|]. destruct l as [t|z|f]; [reflexivity|..]; intros P; change (literal_text w ?l) with (serialize w (ELit l)); eapply serialize_parses; eassumption.
  Qed.
  Lemma kind_solid e : ~ In 32 (kind e).
  Proof.
    assert (X : forall s, existsb (N.eqb 32) s = false -> ~ In 32 s).
    { intros s E I. assert (T : existsb (N.eqb 32) s = true) by (apply existsb_exists; exists 32; auto). congruence. }
    destruct e as [l|r|l op r|d [r|]|ax t|l ps|[|n| |]|up|n|f args|l]; apply X; reflexivity.
  Qed.
  Theorem repr_distinct s s' e e' : parse_text v s = POk e -> parse_text v s' = POk e' -> shown w v e -> shown w v e' ->
    expr_repr w e = expr_repr w e' -> e = e'.
  Proof.
    intros H H' P P' E.
    assert (D : forall e, (exists l, e = ELit l) \/ forall l, e <> ELit l) by (intros x; destruct x; [left; eauto|right; discriminate ..]).
    destruct (D e) as [(l & ->)|N], (D e') as [(l' & ->)|N'].
    - destruct (repr_literal s l H) as (x & X & R), (repr_literal s' l' H') as (x' & X' & R'). rewrite X, X' in E. apply app_inv_head in E. subst x'.
      assert (parse_text v x = POk (ELit l)) by (destruct l; [contradiction|..]; auto). assert (parse_text v x = POk (ELit l')) by (destruct l'; [contradiction|..]; auto). congruence.
    - exfalso. destruct (repr_body s' e' H' P' N') as (b & F & _). rewrite F in E. discriminate.
    - exfalso. destruct (repr_body s e H P N) as (b & F & _). rewrite F in E. discriminate.
    - destruct (repr_body s e H P N) as (b & F & R), (repr_body s' e' H' P' N') as (b' & F' & R'). rewrite F, F' in E. cbn [app] in E. injection E as E.
      apply first_mark in E as (K & E); [|apply kind_solid ..]. apply app_inv_tail in E. subst b'. rewrite R in R'. destruct e, e'; congruence.
  Qed.
End Body.

(** ** Nodes *)
Lemma decimal_value z z' s : decimal z s -> decimal z' s -> z = z'.
Proof.
  intros (a & E & A & N & _) (b & E' & B & N' & _). subst s.
  destruct (z <? 0)%Z eqn:Z1, (z' <? 0)%Z eqn:Z2.
  - apply app_inv_head in E'. subst b. rewrite A in B. injection B as B. apply Z.ltb_lt in Z1, Z2. lia.
  - subst b. discriminate.
  - subst a. discriminate.
  - subst b. rewrite A in B. injection B as B. apply Z.ltb_ge in Z1, Z2. lia.
Qed.
Lemma int_str_inj z z' : int_str z = int_str z' -> z = z'.
Proof. intros E. apply (decimal_value z z' (int_str z)); [apply decimal_int_str|rewrite E; apply decimal_int_str]. Qed.
Lemma digits_value_no c s : c < 48 -> forall z y, digits_value z s = Some y -> ~ In c s.
Proof.
  intros C. induction s as [|d s IH]; intros z y H; [tauto|]. cbn [digits_value] in H. destruct ((48 <=? d) && (d <=? 57)) eqn:E; [|discriminate].
  apply andb_true_iff in E as (E & _). apply N.leb_le in E. intros [->|I]; [lia|]. eapply IH; eassumption.
Qed.
Lemma int_str_no c z : c < 45 -> ~ In c (int_str z).
Proof.
  intros C. destruct (decimal_int_str z) as (a & E & A & _). rewrite E. assert (~ In c a) by (eapply digits_value_no; [|eassumption]; lia).
  destruct (z <? 0)%Z; [|assumption]. intros [X|I]; [|contradiction]. change (45 = c) in X. lia.
Qed.
Lemma last_mark k (a b x y : str) : ~ In k x -> ~ In k y -> a ++ k :: x = b ++ k :: y -> a = b /\ x = y.
Proof.
  intros Nx Ny E. apply (f_equal (@rev N)) in E. rewrite !rev_app_distr in E. cbn [rev] in E. rewrite <- !app_assoc in E. cbn [app] in E.
  apply first_mark in E as (E1 & E2); [|rewrite <- in_rev; assumption ..]. apply (f_equal (@rev N)) in E1, E2. rewrite !rev_involutive in E1, E2. auto.
Qed.
Theorem element_repr_iff h h' n n' k k' : element_repr h n k = element_repr h' n' k' <-> h = h' /\ n = n' /\ k = k'.
Proof.
  split; [|intros (-> & -> & ->); reflexivity]. unfold element_repr. intros E. apply app_inv_head in E.
  change (lit ") """) with (41 :: lit " """) in E. cbn [app] in E.
  apply first_mark in E as (E1 & E2); [|apply int_str_no; reflexivity ..]. apply int_str_inj in E1. subst h'. apply (app_inv_head (lit " """)) in E2.
  rewrite !app_assoc in E2. apply app_inv_tail in E2. change (lit """ with ") with (lit """ with" ++ [32]) in E2. rewrite <- !app_assoc in E2. cbn [app] in E2.
  assert (X : (n ++ lit """ with") ++ 32 :: int_str (Z.of_nat k) = (n' ++ lit """ with") ++ 32 :: int_str (Z.of_nat k')) by (rewrite <- !app_assoc; exact E2 || (rewrite <- !app_assoc in E2; exact E2)).
  apply last_mark in X as (X1 & X2); [|apply int_str_no; reflexivity ..]. apply app_inv_tail in X1. apply int_str_inj in X2. repeat split; [exact X1|lia].
Qed.
Theorem text_repr_iff s s' : text_repr s = text_repr s' <-> forall i, (i < 10)%nat -> nth_error s i = nth_error s' i.
Proof.
  assert (F : forall m (a b : str), firstn m a = firstn m b <-> forall i, (i < m)%nat -> nth_error a i = nth_error b i).
  { induction m as [|m IH]; intros a b; [split; [intros _ i L; lia|reflexivity]|]. destruct a as [|c a], b as [|d b]; cbn [firstn].
    - split; reflexivity.
    - split; [discriminate|]. intros H. specialize (H 0%nat ltac:(lia)). discriminate.
    - split; [discriminate|]. intros H. specialize (H 0%nat ltac:(lia)). discriminate.
    - split.
      + intros E [|i] L; [now injection E as -> _|]. injection E as _ E. cbn [nth_error]. apply (proj1 (IH a b) E). lia.
      + intros H. pose proof (H 0%nat ltac:(lia)) as E. injection E as ->. f_equal. apply IH. intros i L. apply (H (S i)). lia. }
  rewrite <- F. unfold text_repr. split; [|intros ->; reflexivity]. intros E. apply app_inv_head, app_inv_tail in E. exact E.
Qed.
Theorem attribute_repr_iff n n' x x' : ~ In 61 n -> ~ In 61 n' -> (attribute_repr n x = attribute_repr n' x' <-> n = n' /\ x = x').
Proof.
  intros N N'. split; [|intros (-> & ->); reflexivity]. unfold attribute_repr. intros E. apply app_inv_head in E. rewrite !app_assoc in E. apply app_inv_tail in E.
  rewrite <- !app_assoc in E. change (lit "=""") with (61 :: lit """") in E. cbn [app] in E. apply first_mark in E as (E1 & E2); auto. apply (app_inv_head (lit """")) in E2. auto.
Qed.
