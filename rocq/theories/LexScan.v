(** The scanner yields exactly the tokens of the text. *)
From Verif Require Import PyStr CharClass TreeUtil XTree Grammar Lex LexSpec LexFacts.
Local Open Scope N_scope.

Ltac assoc := cbn [lit]; repeat (progress (rewrite <- ?app_assoc; cbn [app])); reflexivity.
(** ** strip *)
Lemma lstrip_spec s : exists a, s = a ++ lstrip s /\ (forall c, In c a -> py_isspace c = true) /\ (forall c r, lstrip s = c :: r -> py_isspace c = false).
Proof.
  induction s as [|c s (a & E & Ha & Hh)].
  - exists []. split; [reflexivity|]. split; [intros ? []|discriminate].
  - cbn [lstrip]. destruct (py_isspace c) eqn:Ec.
    + exists (c :: a). split; [cbn [app]; f_equal; exact E|]. split; [intros d [<- | Hd]; auto|exact Hh].
    + exists []. split; [reflexivity|]. split; [intros ? []|]. intros d r H. inversion H; subst. exact Ec.
Qed.
Lemma lstrip_app a s : (forall c, In c a -> py_isspace c = true) -> lstrip (a ++ s) = lstrip s.
Proof. intros H. induction a as [|c a IH]; [reflexivity|]. cbn [app lstrip]. rewrite H by (left; reflexivity). apply IH. intros d Hd. apply H. right. exact Hd. Qed.
Lemma strip_spec s : exists a b, s = a ++ strip s ++ b /\ (forall c, In c (a ++ b) -> py_isspace c = true) /\
  (forall c r, strip s = c :: r -> py_isspace c = false) /\ (forall c r, strip s = r ++ [c] -> py_isspace c = false).
Proof.
  unfold strip. destruct (lstrip_spec s) as (a & E & Ha & Hh). destruct (lstrip_spec (rev (lstrip s))) as (b & E' & Hb & Hh').
  exists a, (rev b). assert (E2 : lstrip s = rev (lstrip (rev (lstrip s))) ++ rev b).
  { rewrite <- (rev_involutive (lstrip s)) at 1. rewrite E' at 1. apply rev_app_distr. }
  split; [rewrite <- E2; exact E|]. split; [intros c Hc; apply in_app_or in Hc as [Hc|Hc]; [auto|apply Hb; apply in_rev; exact Hc]|]. split.
  - intros c r H. apply (Hh c (r ++ rev b)). rewrite E2, H. reflexivity.
  - intros c r H. apply (Hh' c (rev r)). apply (f_equal (@rev N)) in H. rewrite rev_involutive, rev_app_distr in H. exact H.
Qed.
(** Stripping is determined by what it leaves. *)
Lemma strip_unique a v b : (forall c, In c (a ++ b) -> py_isspace c = true) -> (forall c r, v = c :: r -> py_isspace c = false) -> (forall c r, v = r ++ [c] -> py_isspace c = false) ->
  strip (a ++ v ++ b) = v.
Proof.
  intros Hab Hv Hv'. assert (K : forall u, (forall c r, u = c :: r -> py_isspace c = false) -> lstrip u = u).
  { intros [|c u] H; [reflexivity|]. cbn [lstrip]. rewrite (H c u eq_refl). reflexivity. }
  unfold strip. rewrite lstrip_app by (intros c Hc; apply Hab; apply in_or_app; auto). destruct v as [|c v].
  - cbn [app]. assert (E : lstrip b = []). { rewrite <- (app_nil_r b). rewrite lstrip_app by (intros c Hc; apply Hab; apply in_or_app; auto). reflexivity. } rewrite E. reflexivity.
  - rewrite (K ((c :: v) ++ b)) by (intros d r E; inversion E; subst; eapply Hv; reflexivity). rewrite rev_app_distr, lstrip_app.
    + rewrite K; [apply rev_involutive|]. intros d r E. apply (f_equal (@rev N)) in E. rewrite rev_involutive in E. cbn [rev] in E. exact (Hv' d (rev r) E).
    + intros d Hd. apply Hab. apply in_or_app. right. apply in_rev. exact Hd.
Qed.
Lemma space_name c : py_isspace c = true -> is_namechar c = true -> c = ogham.
Proof.
  unfold py_isspace, is_namechar, CharClass.in_range, char_in, ogham. cbn [existsb]. rewrite ?orb_true_iff, ?andb_true_iff, ?orb_true_iff, ?N.eqb_eq, ?N.leb_le. lia.
Qed.
Lemma space_start c : py_isspace c = true -> is_namestart c = true -> c = ogham.
Proof.
  unfold py_isspace, is_namestart, CharClass.in_range, char_in, ogham. cbn [existsb]. rewrite ?orb_true_iff, ?andb_true_iff, ?orb_true_iff, ?N.eqb_eq, ?N.leb_le. lia.
Qed.
Lemma space_ogham n c : name n -> In c n -> py_isspace c = true -> c = ogham.
Proof. intros (d & r & -> & Hd & Hr) [<- | Hc] Hs; [apply space_start; assumption|apply space_name; auto]. Qed.
Lemma ws_space c : lex_ws c = true -> py_isspace c = true.
Proof. intros H. destruct (ws_cases c H) as [-> | [-> | ->]]; reflexivity. Qed.
Lemma strip_name w1 n w2 v : (forall c, In c w1 -> lex_ws c = true) -> name n -> (forall c, In c w2 -> lex_ws c = true) ->
  strip (w1 ++ n ++ w2) = v <-> trimmed n v.
Proof.
  intros H1 Hn H2.
  assert (T : forall v, trimmed n v -> strip (w1 ++ n ++ w2) = v).
  { intros u (a & b & E & Hab & Hh & Ht). assert (E2 : w1 ++ n ++ w2 = (w1 ++ a) ++ u ++ (b ++ w2)) by (rewrite E, <- !app_assoc; reflexivity). rewrite E2.
    rewrite Forall_forall in Hab. apply strip_unique.
    - intros c Hc. rewrite !in_app_iff in Hc. assert (Ho : forall d, In d (a ++ b) -> py_isspace d = true) by (intros d Hd; rewrite <- (Hab d Hd); reflexivity).
      destruct Hc as [[Hc|Hc]|[Hc|Hc]]; [apply ws_space; auto|apply Ho; apply in_or_app; auto|apply Ho; apply in_or_app; auto|apply ws_space; auto].
    - intros c r Ec. destruct (py_isspace c) eqn:Es; [|reflexivity]. exfalso. apply (Hh r). rewrite Ec. f_equal. apply (space_ogham n); [exact Hn| |exact Es].
      rewrite E, Ec. apply in_or_app. right. left. reflexivity.
    - intros c r Ec. destruct (py_isspace c) eqn:Es; [|reflexivity]. exfalso. apply (Ht r). rewrite Ec. f_equal. f_equal. apply (space_ogham n); [exact Hn| |exact Es].
      rewrite E, Ec. apply in_or_app. right. apply in_or_app. left. apply in_or_app. right. left. reflexivity. }
  split; [|apply T]. intros <-. destruct (strip_spec n) as (a & b & E & Hab & Hh & Ht). assert (Tn : trimmed n (strip n)).
  { exists a, b. split; [exact E|]. split.
    - apply Forall_forall. intros c Hc. symmetry. apply (space_ogham n); [exact Hn| |apply Hab; exact Hc]. rewrite E. apply in_app_or in Hc as [Hc|Hc]; rewrite !in_app_iff; auto.
    - split; intros r Er; [specialize (Hh _ _ Er)|specialize (Ht _ _ Er)]; discriminate. }
  rewrite (T _ Tn). exact Tn.
Qed.
Lemma trimmed_plain n : ~ In ogham n -> n <> [] -> trimmed n n.
Proof.
  intros H _. exists [], []. rewrite app_nil_r. split; [reflexivity|]. split; [constructor|]. split; intros r E; apply H; rewrite E; [left; reflexivity|apply in_or_app; right; left; reflexivity].
Qed.

(** ** One step *)
Lemma taken_app raw rest : taken (raw ++ rest) rest = raw.
Proof. unfold taken. rewrite app_length. replace (length raw + length rest - length rest)%nat with (length raw) by lia. rewrite firstn_app, Nat.sub_diag, firstn_all. cbn. apply app_nil_r. Qed.
Lemma first_in rs s t r : first_match rs s = Some (t, r) -> exists p, In (t, p) rs /\ rmatch p s = Some r.
Proof.
  induction rs as [|(u, p) rs IH]; cbn [first_match]; [discriminate|]. destruct (rmatch p s) eqn:E.
  - intros H. inversion H; subst. exists p. split; [left; reflexivity|exact E].
  - intros H. destruct (IH H) as (q & Hq & Hm). exists q. split; [right; exact Hq|exact Hm].
Qed.
Lemma plus_run f s r : rmatch (plus f) s = Some r <-> exists a, s = a ++ r /\ run_of f a r.
Proof.
  rewrite rmatch_plus. split.
  - destruct s as [|c s]; [discriminate|]. destruct (f c) eqn:E; [|discriminate]. intros H. inversion H; subst r. exists (c :: takew f s). split; [cbn [app]; f_equal; apply take_drop|].
    split; [discriminate|]. split; [intros d [<- | Hd]; [exact E|exact (takew_all f s d Hd)]|apply dropw_head].
  - intros (a & -> & Hn & Ha & Hr). destruct a as [|c a]; [congruence|]. cbn [app]. rewrite Ha by (left; reflexivity). f_equal. apply dropw_app; [|exact Hr]. intros d Hd. apply Ha. right. exact Hd.
Qed.
Lemma not_head_app (f g : chr -> bool) a r : (forall c, In c a -> f c = true) -> (forall c, f c = true -> g c = false) -> ~ head_is g r -> ~ head_is g (a ++ r).
Proof. intros Ha Hfg Hr. destruct a as [|c a]; [exact Hr|]. intros (d & r' & E & Hd). inversion E; subst. rewrite (Hfg d) in Hd by (apply Ha; left; reflexivity). discriminate. Qed.
Lemma name_split c r : is_namestart c = true -> name (c :: takew is_namechar r).
Proof. intros H. exists c, (takew is_namechar r). split; [reflexivity|]. split; [exact H|]. intros x Hx. exact (takew_all _ _ _ Hx). Qed.
Lemma start_iff s r : rmatch (chars "<" ++ ws_name [Many lex_ws]) s = Some r <->
  exists w1 n w2, s = (lit "<" ++ w1 ++ n ++ w2) ++ r /\ wsp w1 /\ name n /\ wsp w2 /\ ~ head_is is_namechar (w2 ++ r) /\ ~ head_is lex_ws r.
Proof.
  rewrite chars_some. split.
  - intros (s' & -> & H). rewrite start_rule in H. destruct (dropw lex_ws s') as [|c r1] eqn:E; [discriminate|]. destruct (is_namestart c) eqn:Ec; [|discriminate]. inversion H; subst r.
    exists (takew lex_ws s'), (c :: takew is_namechar r1), (takew lex_ws (dropw is_namechar r1)). split.
    + rewrite (take_drop lex_ws s') at 1. rewrite E. rewrite (take_drop is_namechar r1) at 1. rewrite (take_drop lex_ws (dropw is_namechar r1)) at 1. assoc.
    + split; [apply wsp_spec; intros d Hd; exact (takew_all _ _ _ Hd)|]. split; [apply name_split; exact Ec|]. split; [apply wsp_spec; intros d Hd; exact (takew_all _ _ _ Hd)|].
      split; [rewrite <- take_drop; apply dropw_head|apply dropw_head].
  - intros (w1 & n & w2 & -> & H1 & (c & nr & -> & Hc & Hn) & H2 & Hh1 & Hh2). exists (w1 ++ (c :: nr) ++ w2 ++ r). split; [rewrite <- !app_assoc; reflexivity|].
    rewrite start_rule. rewrite dropw_app; [cbn [app]; rewrite Hc|apply wsp_spec; exact H1|intros (d & r' & E & Hd); inversion E; subst; rewrite (ws_not_start d Hd) in Hc; discriminate].
    rewrite (dropw_app is_namechar) by assumption. rewrite dropw_app; [reflexivity|apply wsp_spec; exact H2|exact Hh2].
Qed.
Lemma end_iff s r : rmatch (chars "</" ++ ws_name ([Many lex_ws] ++ chars ">")) s = Some r <->
  exists w1 n w2, s = (lit "</" ++ w1 ++ n ++ w2 ++ lit ">") ++ r /\ wsp w1 /\ name n /\ wsp w2.
Proof.
  rewrite chars_some. split.
  - intros (s' & -> & H). rewrite end_rule in H. destruct (dropw lex_ws s') as [|c r1] eqn:E; [discriminate|]. destruct (is_namestart c) eqn:Ec; [|discriminate].
    destruct (dropw lex_ws (dropw is_namechar r1)) as [|d r2] eqn:E2; [discriminate|]. destruct (N.eqb_spec 62 d) as [<- |]; [|discriminate]. inversion H; subst r.
    exists (takew lex_ws s'), (c :: takew is_namechar r1), (takew lex_ws (dropw is_namechar r1)). split.
    + rewrite (take_drop lex_ws s') at 1. rewrite E. rewrite (take_drop is_namechar r1) at 1. rewrite (take_drop lex_ws (dropw is_namechar r1)) at 1. rewrite E2. assoc.
    + split; [apply wsp_spec; intros d Hd; exact (takew_all _ _ _ Hd)|]. split; [apply name_split; exact Ec|]. apply wsp_spec; intros d Hd; exact (takew_all _ _ _ Hd).
  - intros (w1 & n & w2 & -> & H1 & (c & nr & -> & Hc & Hn) & H2). exists (w1 ++ (c :: nr) ++ w2 ++ 62 :: r). split; [rewrite <- !app_assoc; reflexivity|].
    rewrite end_rule. rewrite dropw_app; [cbn [app]; rewrite Hc|apply wsp_spec; exact H1|intros (d & r' & E & Hd); inversion E; subst; rewrite (ws_not_start d Hd) in Hc; discriminate].
    rewrite (dropw_app is_namechar); [|exact Hn|apply (not_head_app lex_ws); [apply wsp_spec; exact H2|exact ws_not_name|intros (d & r' & E & Hd); inversion E; subst; discriminate]].
    rewrite dropw_app; [reflexivity|apply wsp_spec; exact H2|intros (d & r' & E & Hd); inversion E; subst; discriminate].
Qed.
Lemma num_iff s r : rmatch (snd num_ent) s = Some r <-> exists ds, s = (lit "&#x" ++ ds ++ lit ";") ++ r /\ ds <> [] /\ forall d, In d ds -> is_hex d = true.
Proof.
  unfold num_ent. cbn [snd]. rewrite chars_some. split.
  - intros (s' & -> & H). rewrite num_rule in H. destruct s' as [|c s']; [discriminate|]. destruct (is_hex c) eqn:Ec; [|discriminate]. destruct (dropw is_hex s') as [|d r2] eqn:E; [discriminate|].
    destruct (N.eqb_spec 59 d) as [<- |]; [|discriminate]. inversion H; subst r2. exists (c :: takew is_hex s'). split.
    + rewrite (take_drop is_hex s') at 1. rewrite E. assoc.
    + split; [discriminate|]. intros d [<- | Hd]; [exact Ec|exact (takew_all _ _ _ Hd)].
  - intros (ds & -> & Hn & Hd). destruct ds as [|c ds]; [congruence|]. exists ((c :: ds) ++ 59 :: r). split; [rewrite <- !app_assoc; reflexivity|]. rewrite num_rule. cbn [app]. rewrite Hd by (left; reflexivity).
    rewrite dropw_app; [reflexivity|intros x Hx; apply Hd; right; exact Hx|intros (x & r' & E & Hx); inversion E; subst; discriminate].
Qed.
Lemma name_iff s r : rmatch name_pat s = Some r <-> exists n, s = n ++ r /\ name n /\ ~ head_is is_namechar r.
Proof.
  unfold name_pat. cbn [rmatch]. split.
  - destruct s as [|c s]; [discriminate|]. destruct (is_namestart c) eqn:E; [|discriminate]. rewrite many_some. intros H. inversion H; subst r. exists (c :: takew is_namechar s).
    split; [cbn [app]; f_equal; apply take_drop|]. split; [apply name_split; exact E|apply dropw_head].
  - intros (n & -> & (c & nr & -> & Hc & Hn) & Hr). cbn [app]. rewrite Hc, many_some. f_equal. apply dropw_app; assumption.
Qed.
Lemma comment_iff s r : rmatch (chars "<!--" ++ [Many is_datachar] ++ chars "-->") s = Some r <->
  exists a, s = (lit "<!--" ++ a ++ lit "-->") ++ r /\ forall c, In c a -> is_datachar c = true.
Proof.
  rewrite chars_some. split.
  - intros (s' & -> & H). apply comment_rule in H as (a & -> & Ha). exists a. split; [rewrite <- !app_assoc; reflexivity|exact Ha].
  - intros (a & -> & Ha). exists (a ++ lit "-->" ++ r). split; [rewrite <- !app_assoc; reflexivity|]. apply comment_rule. eauto.
Qed.

(** The values *)
Lemma value_start w1 n w2 v : wsp w1 -> name n -> wsp w2 -> token_value SData STARTTAG (lit "<" ++ w1 ++ n ++ w2) = v <-> trimmed n v.
Proof. intros H1 Hn H2. cbn [token_value lit app skipn]. apply strip_name; [apply wsp_spec; exact H1|exact Hn|apply wsp_spec; exact H2]. Qed.
Lemma value_end w1 n w2 v : wsp w1 -> name n -> wsp w2 -> token_value SData ENDTAG (lit "</" ++ w1 ++ n ++ w2 ++ lit ">") = v <-> trimmed n v.
Proof.
  intros H1 Hn H2. cbn [token_value]. rewrite !app_assoc. cbn [lit]. rewrite removelast_last. rewrite <- !app_assoc. cbn [app skipn].
  apply strip_name; [apply wsp_spec; exact H1|exact Hn|apply wsp_spec; exact H2].
Qed.
Lemma value_num st ds : token_value st NUM_ENT (lit "&#x" ++ ds ++ lit ";") = ds.
Proof. cbn [token_value]. rewrite app_assoc. cbn [lit]. rewrite removelast_last. reflexivity. Qed.
Lemma value_comment st a : token_value st COMMENT (lit "<!--" ++ a ++ lit "-->") = a.
Proof.
  cbn [token_value]. rewrite !app_length. cbn [lit length]. replace (4 + (length a + 3) - 3)%nat with (4 + length a)%nat by lia. cbn [Nat.add firstn app skipn].
  rewrite firstn_app, Nat.sub_diag, firstn_all. cbn [firstn]. apply app_nil_r.
Qed.

Lemma step_sound st s t rest : first_match (rules st) s = Some (t, rest) ->
  exists raw, s = raw ++ rest /\ lexeme st t (token_value st t raw) raw rest (next_state st t).
Proof.
  intros H. apply first_in in H as (p & Hin & Hm).
  assert (Hent : st <> STag -> In (t, p) entity_rules -> exists raw, s = raw ++ rest /\ lexeme st t (token_value st t raw) raw rest (next_state st t)).
  { intros Hst He. unfold entity_rules in He. repeat destruct He as [He|He]; try contradiction; inversion He; subst t p; apply chars_exact in Hm as ->; eexists; (split; [reflexivity|]);
    match goal with |- lexeme _ ?t _ ?raw _ _ => replace (next_state st t) with st by (destruct st; reflexivity); eapply lx_ent; [exact Hst|]; unfold entity; cbn; tauto end. }
  assert (Hnum : st <> STag -> (t, p) = num_ent -> exists raw, s = raw ++ rest /\ lexeme st t (token_value st t raw) raw rest (next_state st t)).
  { intros Hst He. assert (E1 : t = NUM_ENT) by (apply (f_equal fst) in He; exact He). assert (E2 : p = snd num_ent) by (apply (f_equal snd) in He; exact He). subst t. rewrite E2 in Hm.
    apply num_iff in Hm as (ds & -> & Hn & Hd). eexists. split; [reflexivity|]. rewrite value_num. replace (next_state st NUM_ENT) with st by (destruct st; reflexivity). apply lx_num; assumption. }
  destruct st; cbn [rules] in Hin.
  - change (In (t, p) ([(STARTTAG, chars "<" ++ ws_name [Many lex_ws]); (ENDTAG, chars "</" ++ ws_name ([Many lex_ws] ++ chars ">")); num_ent;
      (COMMENT, chars "<!--" ++ [Many is_datachar] ++ chars "-->"); (CHARDATA, plus is_datachar)] ++ entity_rules ++ [(GT, chars ">")])) in Hin.
    apply in_app_or in Hin as [Hin|Hin]; [|apply in_app_or in Hin as [Hin|Hin]].
    + cbn [In] in Hin. destruct Hin as [E|[E|[E|[E|[E|[]]]]]].
      * inversion E; subst t p. apply start_iff in Hm as (w1 & n & w2 & -> & H1 & Hn & H2 & H3 & H4). eexists. split; [reflexivity|]. apply lx_start; auto. apply (value_start w1 n w2); auto.
      * inversion E; subst t p. apply end_iff in Hm as (w1 & n & w2 & -> & H1 & Hn & H2). eexists. split; [reflexivity|]. apply lx_end; auto. apply (value_end w1 n w2); auto.
      * apply Hnum; [discriminate|symmetry; exact E].
      * inversion E; subst t p. apply comment_iff in Hm as (a & -> & Ha). eexists. split; [reflexivity|]. rewrite value_comment. apply lx_comment; auto.
      * inversion E; subst t p. apply plus_run in Hm as (a & -> & Ha). eexists. split; [reflexivity|]. apply lx_data; exact Ha.
    + apply Hent; [discriminate|exact Hin].
    + destruct Hin as [E|[]]. inversion E; subst t p. apply chars_exact in Hm as ->. eexists. split; [reflexivity|]. apply lx_gt.
  - cbn [In] in Hin. destruct Hin as [E|[E|[E|[E|[E|[]]]]]]; inversion E; subst t p.
    + apply name_iff in Hm as (n & -> & Hn & Hr). eexists. split; [reflexivity|]. apply lx_name; assumption.
    + apply chars_exact in Hm as ->. eexists. split; [reflexivity|]. apply lx_close.
    + apply chars_exact in Hm as ->. eexists. split; [reflexivity|]. apply lx_open_sgl.
    + cbn [rmatch] in Hm. destruct s as [|c s]; [discriminate|]. destruct (N.eqb_spec c_dq c) as [<- |]; [|discriminate]. inversion Hm; subst rest. exists [c_dq]. split; [reflexivity|]. apply lx_open_dbl.
    + apply chars_exact in Hm as ->. eexists. split; [reflexivity|]. apply lx_eq.
  - apply in_app_or in Hin as [Hin|Hin]; [|apply Hent; [discriminate|exact Hin]]. cbn [In] in Hin. destruct Hin as [E|[E|[E|[]]]].
    + inversion E; subst t p. apply chars_exact in Hm as ->. eexists. split; [reflexivity|]. apply lx_close_sgl.
    + inversion E; subst t p. apply plus_run in Hm as (a & -> & Ha). eexists. split; [reflexivity|]. apply lx_sgl; exact Ha.
    + apply Hnum; [discriminate|symmetry; exact E].
  - apply in_app_or in Hin as [Hin|Hin]; [|apply Hent; [discriminate|exact Hin]]. cbn [In] in Hin. destruct Hin as [E|[E|[E|[]]]].
    + inversion E; subst t p. cbn [rmatch] in Hm. destruct s as [|c s]; [discriminate|]. destruct (N.eqb_spec c_dq c) as [<- |]; [|discriminate]. inversion Hm; subst rest. exists [c_dq]. split; [reflexivity|]. apply lx_close_dbl.
    + inversion E; subst t p. apply plus_run in Hm as (a & -> & Ha). eexists. split; [reflexivity|]. apply lx_dbl; exact Ha.
    + apply Hnum; [discriminate|symmetry; exact E].
Qed.
Lemma skip_rule t p rs s : rmatch p s = None -> first_match ((t, p) :: rs) s = first_match rs s.
Proof. intros H. cbn [first_match]. rewrite H. reflexivity. Qed.
Lemma take_rule t p rs s r : rmatch p s = Some r -> first_match ((t, p) :: rs) s = Some (t, r).
Proof. intros H. cbn [first_match]. rewrite H. reflexivity. Qed.
Lemma chars_head c l p d s : N_of_ascii c <> d -> rmatch (chars (String c l) ++ p) (d :: s) = None.
Proof. intros H. cbn [chars lit map app rmatch]. rewrite (proj2 (N.eqb_neq _ _) H). reflexivity. Qed.
Lemma chars_head0 c l d s : N_of_ascii c <> d -> rmatch (chars (String c l)) (d :: s) = None.
Proof. intros H. rewrite <- (app_nil_r (chars _)). apply chars_head. exact H. Qed.
Lemma run_head f s rest : run_of f s rest -> exists c r, s = c :: r /\ f c = true.
Proof. intros (Hn & Ha & _). destruct s as [|c r]; [congruence|]. exists c, r. split; [reflexivity|]. apply Ha. left. reflexivity. Qed.
Lemma step_complete st t v raw rest st' : lexeme st t v raw rest st' ->
  first_match (rules st) (raw ++ rest) = Some (t, rest) /\ token_value st t raw = v /\ next_state st t = st'.
Proof.
  intros H. destruct H as [w1 n v w2 rest H1 Hn Hv H2 H3 H4|w1 n v w2 rest H1 Hn Hv H2|s rest Hs|s rest Hs|rest|s rest Hs|s rest Hs|st ds rest Hst Hd1 Hd2|st t s c rest Hst He
    |n rest Hn Hr|rest|rest|rest|rest|rest|rest].
  - split; [|split; [apply value_start; assumption|reflexivity]]. apply take_rule. apply (proj2 (start_iff _ _)). exists w1, n, w2. auto 10.
  - split; [|split; [apply value_end; assumption|reflexivity]]. cbn [rules app]. rewrite skip_rule.
    + apply take_rule. apply (proj2 (end_iff _ _)). exists w1, n, w2. auto 10.
    + change (rmatch (chars "<" ++ ws_name [Many lex_ws]) ((lit "</" ++ w1 ++ n ++ w2 ++ lit ">") ++ rest) = None). rewrite <- app_assoc.
      destruct (rmatch (chars "<" ++ ws_name [Many lex_ws]) (lit "</" ++ (w1 ++ n ++ w2 ++ lit ">") ++ rest)) eqn:E; [|reflexivity]. apply chars_some in E as (s' & E & Hm). inversion E; subst s'.
      rewrite start_rule in Hm. discriminate.
  - split; [|split; [apply value_comment|reflexivity]]. cbn [rules app]. rewrite skip_rule.
    + rewrite skip_rule; [|rewrite <- app_assoc; reflexivity]. unfold num_ent. rewrite skip_rule; [|rewrite <- app_assoc; reflexivity]. apply take_rule. apply (proj2 (comment_iff _ _)). eauto.
    + rewrite <- app_assoc. destruct (rmatch (chars "<" ++ ws_name [Many lex_ws]) (lit "<!--" ++ (s ++ lit "-->") ++ rest)) eqn:E; [|exact E]. apply chars_some in E as (s' & E & Hm). inversion E; subst s'.
      rewrite start_rule in Hm. discriminate.
  - split; [|split; reflexivity]. destruct (run_head _ _ _ Hs) as (c & r & -> & Hc). cbn [rules app].
    assert (Nl : 60 <> c) by (intros <-; discriminate). assert (Na : 38 <> c) by (intros <-; discriminate).
    rewrite skip_rule by (apply (chars_head "<"); exact Nl). rewrite skip_rule by (apply (chars_head "<"); exact Nl). unfold num_ent. rewrite skip_rule by (apply (chars_head "&"); exact Na).
    rewrite skip_rule by (apply (chars_head "<"); exact Nl). apply take_rule. apply (plus_run is_datachar (c :: r ++ rest)). exists (c :: r). split; [reflexivity|exact Hs].
  - split; [|split; reflexivity]. reflexivity.
  - split; [|split; reflexivity]. destruct (run_head _ _ _ Hs) as (c & r & -> & Hc). cbn [rules app]. rewrite skip_rule by (apply (chars_head0 "'"); intros <-; discriminate).
    apply take_rule. apply (plus_run is_attr_sgl (c :: r ++ rest)). exists (c :: r). split; [reflexivity|exact Hs].
  - split; [|split; reflexivity]. destruct (run_head _ _ _ Hs) as (c & r & -> & Hc). cbn [rules app]. rewrite skip_rule.
    + apply take_rule. apply (plus_run is_attr_dbl (c :: r ++ rest)). exists (c :: r). split; [reflexivity|exact Hs].
    + cbn [rmatch]. destruct (N.eqb_spec c_dq c) as [<- |]; [discriminate|reflexivity].
  - split; [|split; [apply value_num|destruct st; reflexivity]]. assert (Hm : rmatch (snd num_ent) ((lit "&#x" ++ ds ++ lit ";") ++ rest) = Some rest) by (apply num_iff; exists ds; auto).
    change num_ent with (NUM_ENT, snd num_ent) in *. destruct st; [| congruence | |]; cbn [rules app].
    + rewrite skip_rule by reflexivity. rewrite skip_rule by reflexivity. apply take_rule. exact Hm.
    + rewrite skip_rule by reflexivity. rewrite skip_rule by reflexivity. apply take_rule. exact Hm.
    + rewrite skip_rule by reflexivity. rewrite skip_rule by reflexivity. apply take_rule. exact Hm.
  - unfold entity in He. cbn [In] in He. destruct st; [| congruence | |]; (repeat destruct He as [He|He]; try contradiction; inversion He; subst t s c; repeat split; reflexivity).
  - split; [|split; reflexivity]. cbn [rules]. apply take_rule. apply name_iff. eauto.
  - repeat split; reflexivity.
  - repeat split; reflexivity.
  - repeat split; reflexivity.
  - repeat split; reflexivity.
  - repeat split; reflexivity.
  - repeat split; reflexivity.
Qed.
