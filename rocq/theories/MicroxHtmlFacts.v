(** Facts about the flags --html and --lax of microx. *)
From Verif Require Import PyStr Parser XTree Heap HeapSpec HeapFacts BuilderFacts Expat Html5 Html5Hist Html5HistSpec Html5HistFacts.
From Verif Require Import XPath XGram XLex XQuery Microx MicroxSpec MicroxFacts MicroxMain MicroxMainSpec MicroxMainFacts MicroxHtml MicroxHtmlSpec.

Lemma lax_ok h t nt at_ head body rest pt nb ab top ks pb : forest h ->
  hp h t = Some (OElem nt at_ (head :: body :: rest) pt) -> hp h body = Some (OElem nb ab (top :: ks) pb) -> exists h', parse_lax h (Some t) = LaxOk h' top.
Proof.
  intros F Ht Hb. pose proof F as (_ & Hl & _ & _). assert (C : child h body top) by (eexists; split; [exact Hb|left; reflexivity]).
  assert (Nt : top <> body) by (intros ->; apply (finite_irrefl h body (forest_finite h body F) body C); constructor).
  unfold parse_lax. rewrite Ht. cbn [okids nth_error]. rewrite Hb. cbn [okids nth_error]. unfold xml_remove. rewrite Hb. cbn [existsb].
  assert (E : node_eqb h top top = true) by (unfold node_eqb; rewrite Nat.eqb_refl; reflexivity). rewrite E. cbn [orb].
  destruct (Hl _ _ C) as (o & Ho & _). rewrite Ho. cbv zeta. rewrite hp_upd_other by auto. rewrite Hb. eexists. reflexivity.
Qed.
Lemma html_forest s t : html_doc s t -> forest (s_heap s).
Proof. intros (H & _). eapply hsteps_forest; [exact H|exact empty_forest]. Qed.

(** The document of a source *)
Definition doc_of (lax : bool) (s : source) (t : xtree) : Prop := if lax then lax_doc s t else html_doc s t.
Lemma doc_root lax s t : doc_of lax s t -> exists h i, html_root lax s h i /\ holds_tree h i t.
Proof.
  destruct lax; cbn [doc_of].
  - intros (n & a & head & nb & ab & ks & rest & D). pose proof (html_forest _ _ D) as F. destruct D as (_ & i & Fi & (ids & Hh & Nd) & _).
    inversion Hh as [p1 i1 n1 a1 is1 ks1 idss Hi Ha|]; subst. inversion Ha as [|q x xs y ys l ls H1 Ha1]; subst. inversion Ha1 as [|q b bs z zs m ms H2 Ha2]; subst.
    inversion H2 as [p2 i2 n2 a2 is2 ks2 idss2 Hi2 Hb|]; subst. inversion Hb as [|q top is3 u us l3 ls3 H3 Ha3]; subst.
    destruct (lax_ok _ _ _ _ _ _ _ _ _ _ _ _ _ F Hi Hi2) as (h' & L). exists h', top. split; [apply hr_lax; [reflexivity|rewrite Fi; exact L]|].
    destruct (lax_forest _ _ _ _ F L) as (_ & _ & _ & K). exists l3. split; [apply (K _ _ _ H3)|]. destruct F as (_ & Hl & Ht & _). apply (proj1 (half_nodup _ Hl Ht) _ _ _ _ H3).
  - intros (_ & i & Fi & T & _). exists (s_heap s), i. split; [apply hr_parse; [reflexivity|exact Fi]|exact T].
Qed.
Lemma root_fun lax s h i h' i' : html_root lax s h i -> html_root lax s h' i' -> h' = h /\ i' = i.
Proof. intros H H'. destruct H as [i L F|h i L P]; destruct H' as [i' L' F'|h' i' L' P']; try congruence; split; congruence. Qed.
Lemma empty_index s : lax_empty s -> parse_lax (s_heap s) (first_element (s_roots s)) = LaxIndexError.
Proof.
  intros (n & a & head & nb & ab & rest & (_ & i & Fi & (ids & Hh & Nd) & _)).
  inversion Hh as [p1 i1 n1 a1 is1 ks1 idss Hi Ha|]; subst. inversion Ha as [|q x xs y ys l ls H1 Ha1]; subst. inversion Ha1 as [|q b bs z zs m ms H2 Ha2]; subst.
  inversion H2 as [p2 i2 n2 a2 is2 ks2 idss2 Hi2 Hb|]; subst. inversion Hb; subst. rewrite Fi. unfold parse_lax. rewrite Hi. cbn [okids nth_error]. rewrite Hi2. reflexivity.
Qed.

Section Sources.
  Variable go : xtree -> list str * fin.
  (** Documents in turn, then [rest] *)
  Lemma print_app lax srcs ts rest : Forall2 (doc_of lax) srcs ts -> forall o, print_html go lax (srcs ++ rest) o <->
    (exists ls f, f <> Done /\ in_turn go ts (ls, f) /\ o = (ls, HEnd f)) \/ (exists ls ls' e, in_turn go ts (ls, Done) /\ print_html go lax rest (ls', e) /\ o = (ls ++ ls', e)).
  Proof.
    induction 1 as [|s t srcs ts D _ IH]; intros o.
    - cbn [app]. split.
      + intros P. right. destruct o as (ls & e). exists [], ls, e. split; [constructor|]. auto.
      + intros [(ls & f & N & I & E)|(ls & ls' & e & I & P & E)]; inversion I; subst; [congruence|exact P].
    - destruct (doc_root _ _ _ D) as (h & i & R & T). cbn [app]. split.
      + intros P. inversion P as [|s0 srcs0 h0 i0 t0 ls ls' f R0 T0 G P'|s0 srcs0 h0 i0 t0 ls f R0 T0 G N|s0 srcs0 L X]; subst.
        * destruct (root_fun _ _ _ _ _ _ R R0) as (-> & ->). rewrite (holds_tree_det _ _ _ _ T T0) in *. apply IH in P' as [(ls1 & f1 & N & I & E)|(ls1 & ls2 & e & I & P2 & E)]; injection E as -> ->.
          -- left. exists (ls ++ ls1), f1. split; [exact N|]. split; [apply it_ok; auto|reflexivity].
          -- right. exists (ls ++ ls1), ls2, e. split; [apply it_ok; auto|]. split; [exact P2|]. rewrite app_assoc. reflexivity.
        * destruct (root_fun _ _ _ _ _ _ R R0) as (-> & ->). rewrite (holds_tree_det _ _ _ _ T T0) in *. left. exists ls, f. split; [exact N|]. split; [apply it_stop; auto|reflexivity].
        * exfalso. destruct R as [i L'|h i L' P']; congruence.
      + intros [(ls & f & N & I & E)|(ls & ls' & e & I & P & E)]; inversion I as [|x l ls1 ls2 f1 G I'|x l ls1 f1 G N']; subst.
        * apply (ph_next _ _ _ _ h i t); auto. apply IH. left. eauto 6.
        * apply (ph_stop _ _ _ _ h i t); auto.
        * rewrite <- app_assoc. apply (ph_next _ _ _ _ h i t); auto. apply IH. right. eauto 8.
        * congruence.
  Qed.
  Lemma print_docs lax srcs ts o : Forall2 (doc_of lax) srcs ts -> print_html go lax srcs o <-> exists ls f, in_turn go ts (ls, f) /\ o = (ls, HEnd f).
  Proof.
    intros D. pose proof (print_app lax srcs ts [] D o) as H. rewrite app_nil_r in H. rewrite H. split.
    - intros [(ls & f & N & I & E)|(ls & ls' & e & I & P & E)]; [eauto|]. inversion P; subst. rewrite app_nil_r. eauto.
    - intros (ls & f & I & E). destruct f as [|x|].
      + right. exists ls, [], (HEnd Done). split; [exact I|]. split; [constructor|rewrite app_nil_r; exact E].
      + left. exists ls, (Exn x). split; [discriminate|auto].
      + left. exists ls, Cut. split; [discriminate|auto].
  Qed.
  Lemma print_empty srcs ts s rest o : Forall2 lax_doc srcs ts -> lax_empty s -> print_html go true (srcs ++ s :: rest) o <->
    exists ls f, in_turn go ts (ls, f) /\ o = (ls, match f with Done => HIndexError | _ => HEnd f end).
  Proof.
    intros D X. apply empty_index in X. pose proof (print_app true srcs ts (s :: rest) D o) as H. rewrite H. split.
    - intros [(ls & f & N & I & E)|(ls & ls' & e & I & P & E)].
      + exists ls, f. split; [exact I|]. destruct f; [congruence|exact E..].
      + exists ls, Done. split; [exact I|]. inversion P as [|s0 srcs0 h0 i0 t0 ls0 ls1 f R0 T0 G P'|s0 srcs0 h0 i0 t0 ls0 f R0 T0 G N|s0 srcs0 L Y]; subst;
        [exfalso; inversion R0; congruence|exfalso; inversion R0; congruence|rewrite app_nil_r; reflexivity].
    - intros (ls & f & I & E). destruct f as [|x|].
      + right. exists ls, [], HIndexError. split; [exact I|]. split; [apply ph_index; auto|rewrite app_nil_r; exact E].
      + left. exists ls, (Exn x). split; [discriminate|auto].
      + left. exists ls, Cut. split; [discriminate|auto].
  Qed.
End Sources.

Lemma flags_print v tf fs n h a c fe sh html lax srcs o : asks v a c fe -> shows a sh -> absent (o_partition a) -> html = true \/ lax = true ->
  microx_flags v tf fs n h a html lax srcs o <-> print_html (fun t => process (world v [] tf fs t) n c fe (o_limit a) sh) (negb html) srcs o.
Proof.
  intros A S P L. apply prepare_asks in A. apply shows_attrs in S. subst sh. apply absent_truthy in P. split.
  - intros M. inversion M as [ls f H1 H2 M'|x E|c0 fe0 o0 E P0 L0 Q]; subst.
    + exfalso. destruct H1 as [H1|H1], H2 as [H2|H2]; try congruence. destruct L; congruence.
    + congruence.
    + rewrite A in E. injection E as <- <-. exact Q.
  - intros Q. eapply mf_html; eauto.
Qed.
Lemma html_flag v tf fs n h a c fe sh lax srcs ts : asks v a c fe -> shows a sh -> absent (o_partition a) -> Forall2 html_doc srcs ts ->
  forall o, microx_flags v tf fs n h a true lax srcs o <-> exists ls f, in_turn (fun t => run (world v [] tf fs t) n c fe (o_limit a) sh) ts (ls, f) /\ o = (ls, HEnd f).
Proof.
  intros A S P D o. rewrite (flags_print v tf fs n h a c fe sh true lax srcs o A S P (or_introl eq_refl)). rewrite (print_docs _ (negb true) srcs ts o D).
  assert (E : forall o, in_turn (fun t => process (world v [] tf fs t) n c fe (o_limit a) sh) ts o <-> in_turn (fun t => run (world v [] tf fs t) n c fe (o_limit a) sh) ts o).
  { clear o. assert (El : Forall (fun t => exists n a ks, t = XE n a ks) ts).
    { clear - D. induction D as [|s t srcs ts (_ & i & _ & (ids & Hh & _) & (n & a & ks & p & El)) _ IH]; constructor; [|exact IH]. inversion Hh; subst; [eauto|congruence]. }
    clear - El. induction El as [|t ts (nt & at_ & ks & ->) _ IH]; intros o; [split; intros H; inversion H; constructor|].
    split; intros H; inversion H as [|x l ls ls' f G I|x l ls f G N]; subst; try (apply it_ok; [exact G|apply IH; exact I]); apply it_stop; auto. }
  split; intros (ls & f & I & Eo); exists ls, f; (split; [apply E; exact I|exact Eo]).
Qed.
Lemma lax_flag v tf fs n h a c fe sh srcs us o : asks v a c fe -> shows a sh -> absent (o_partition a) -> Forall2 lax_doc srcs us ->
  microx_flags v tf fs n h a false true srcs o <-> exists ls f, in_turn (fun t => process (world v [] tf fs t) n c fe (o_limit a) sh) us (ls, f) /\ o = (ls, HEnd f).
Proof. intros A S P D. rewrite (flags_print v tf fs n h a c fe sh false true srcs o A S P (or_intror eq_refl)). exact (print_docs _ true srcs us o D). Qed.
Lemma lax_flag_empty v tf fs n h a c fe sh srcs us s rest o : asks v a c fe -> shows a sh -> absent (o_partition a) -> Forall2 lax_doc srcs us -> lax_empty s ->
  microx_flags v tf fs n h a false true (srcs ++ s :: rest) o <->
  exists ls f, in_turn (fun t => process (world v [] tf fs t) n c fe (o_limit a) sh) us (ls, f) /\ o = (ls, match f with Done => HIndexError | _ => HEnd f end).
Proof. intros A S P D X. rewrite (flags_print v tf fs n h a c fe sh false true _ o A S P (or_intror eq_refl)). exact (print_empty _ srcs us s rest o D X). Qed.
Lemma flags_ignored v tf fs n h a html lax srcs o : (html = false /\ lax = false) \/ ~ absent (o_partition a) ->
  microx_flags v tf fs n h a html lax srcs o <-> exists ls f, microx v tf fs n h a (map s_cbs srcs) (ls, f) /\ o = (ls, HEnd f).
Proof.
  intros C. assert (T : (html = false /\ lax = false) \/ truthy_opt (o_partition a) <> None) by (destruct C as [C|C]; [left; exact C|right; intros E; apply C, absent_truthy, E]). split.
  - intros M. inversion M as [ls f H1 H2 M'|x E|c0 fe0 o0 E P0 L0 Q]; subst; [eauto|exists [], (Exn x); split; [apply mx_fail; exact E|reflexivity]|].
    exfalso. destruct T as [(T1 & T2)|T]; [destruct L0; congruence|congruence].
  - intros (ls & f & M & ->). apply mf_xml; [| |exact M]; destruct T as [(T1 & T2)|T]; auto.
Qed.
Lemma flags_commands v tf fs n h a html lax srcs o : how_many a <> 1 -> microx_flags v tf fs n h a html lax srcs o <-> o = ([], HEnd (Exn ValueErr)).
Proof.
  intros H. pose proof (prepare_many v a H) as E. split.
  - intros M. inversion M as [ls f H1 H2 M'|x E'|c0 fe0 o0 E' P0 L0 Q]; subst; [inversion M'; subst|..]; congruence.
  - intros ->. apply mf_fail. exact E.
Qed.
