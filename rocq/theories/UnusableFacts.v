(** Proofs about the entry points that fail. *)
From Verif Require Import PyStr CharClass TreeUtil XTree Parser ParserM ParserInv Grammar ParserSpec ParserClass Lex LexSpec LexFacts LexScan LexRun Unusable.

Lemma ns_never npos kws : make_ns npos kws = Some UType.
Proof. unfold make_ns. destruct (binds ns_init npos kws); reflexivity. Qed.

(** The calls that fit two parameters of which the second has a default. *)
Lemma two_params a b npos kws : binds [(a, false); (b, true)] npos kws = true <->
  (npos = 0 /\ In a kws /\ (forall k, In k kws -> k = a \/ k = b)) \/
  (npos = 1 /\ forall k, In k kws -> k = b) \/ (npos = 2 /\ kws = []).
Proof.
  assert (Hin : forall k l, existsb (str_eqb k) l = true <-> In k l).
  { intros k l. rewrite existsb_exists. split; [intros (x & Hx & E); apply str_eqb_eq in E; subst; auto|intros H; exists k; split; auto; apply str_eqb_refl]. }
  assert (Hall : forall ps, forallb (fun k => existsb (str_eqb k) ps) kws = true <-> forall k, In k kws -> In k ps).
  { intros ps. rewrite forallb_forall. split; intros H k Hk; apply Hin; apply H; auto. }
  unfold binds. rewrite !Bool.andb_true_iff, Hall. destruct npos as [|[|[|npos]]]; cbn [length Nat.leb skipn map fst snd forallb].
  - cbn [orb andb]. rewrite Bool.andb_true_r, Hin. split.
    + intros [[_ H1] H2]. left. split; auto. split; auto. intros k Hk. destruct (H1 k Hk) as [E|[E|[]]]; auto.
    + intros [(_ & H1 & H2)|[(H & _)|(H & _)]]; try discriminate. split; auto. split; auto. intros k Hk. cbn. destruct (H2 k Hk) as [E|E]; auto.
  - cbn [orb andb]. split.
    + intros [[_ H1] _]. right. left. split; auto. intros k Hk. destruct (H1 k Hk) as [E|[]]; auto.
    + intros [(H & _)|[(_ & H)|(H & _)]]; try discriminate. repeat split. intros k Hk. left. symmetry. auto.
  - split.
    + intros [[_ H1] _]. right. right. split; auto. destruct kws as [|k kws]; [reflexivity|]. destruct (H1 k (or_introl eq_refl)).
    + intros [(H & _)|[(H & _)|(_ & ->)]]; try discriminate. repeat split. intros k [].
  - split; [intros [[H _] _]; discriminate|]. intros [(H & _)|[(H & _)|(H & _)]]; discriminate.
Qed.

(** The calls that make an [expat_callbacks]. *)
Lemma plain_calls npos kws : make_expat npos kws = None <->
  (npos = 0 /\ In (lit "handler") kws /\ (forall k, In k kws -> k = lit "handler" \/ k = lit "prime_handler")) \/
  (npos = 1 /\ forall k, In k kws -> k = lit "prime_handler") \/ (npos = 2 /\ kws = []).
Proof.
  unfold make_expat. transitivity (binds expat_init npos kws = true).
  { destruct (binds expat_init npos kws); split; auto; discriminate. }
  apply two_params.
Qed.

(** The tags of coax.py. *)
Lemma tags_never set npos kws : ~ In (lit "g_ancestor_stack") set ->
  (make_tag set npos kws = Some UName <->
    (npos = 0 /\ In (lit "name") kws /\ (forall k, In k kws -> k = lit "name" \/ k = lit "attrmap")) \/
    (npos = 1 /\ forall k, In k kws -> k = lit "attrmap") \/ (npos = 2 /\ kws = [])) /\
  (make_tag set npos kws = Some UName \/ make_tag set npos kws = Some UType).
Proof.
  intros Hn. assert (E : existsb (str_eqb (lit "g_ancestor_stack")) (set ++ coax_globals) = false).
  { rewrite existsb_app. apply Bool.orb_false_iff. split; [|reflexivity].
    apply Bool.not_true_is_false. intros H. apply existsb_exists in H as (x & Hx & Ex). apply str_eqb_eq in Ex. subst x. auto. }
  rewrite <- two_params. unfold make_tag. fold tag_init. rewrite E. destruct (binds tag_init npos kws); split; auto; split; auto; discriminate.
Qed.
Lemma tags_given set npos kws : In (lit "g_ancestor_stack") set -> make_tag set npos kws = None \/ make_tag set npos kws = Some UType.
Proof.
  intros Hi. assert (E : existsb (str_eqb (lit "g_ancestor_stack")) (set ++ coax_globals) = true).
  { rewrite existsb_app. apply Bool.orb_true_iff. left. apply existsb_exists. eexists. split; [exact Hi|apply str_eqb_refl]. }
  unfold make_tag. rewrite E. destruct (binds tag_init npos kws); auto.
Qed.

Lemma unparse_never enc attrs k name :
  (forall c, In c name -> IsXml.is_surrogate c = false) /\ unparse_tag enc attrs k name = inr UType \/
  (exists c, In c name /\ IsXml.is_surrogate c = true) /\ unparse_tag enc attrs k name = inr UEncode.
Proof.
  destruct (existsb IsXml.is_surrogate name) eqn:E.
  - right. split; [now apply existsb_exists in E|]. destruct k; unfold unparse_tag, py_encode; rewrite E; reflexivity.
  - left. split; [|destruct k; unfold unparse_tag, py_encode; rewrite E; reflexivity]. intros c I. destruct (IsXml.is_surrogate c) eqn:S; [|reflexivity].
    assert (existsb IsXml.is_surrogate name = true) by (apply existsb_exists; eauto). congruence.
Qed.

(** Text in which something could be a token has a token. *)
Lemma data_token c : is_datachar c = true \/ c = c_gt -> forall p s out st', In c s -> scans SData p s out st' -> exists t, In (Tok t) out.
Proof.
  intros Hc p s out st' I H. remember SData as st eqn:E. induction H as [st p|st t v raw rest st1 p out st2 Hl Hs IH|st d r p out st2 Hn Hs IH]; subst st.
  - destruct I.
  - eexists. left. reflexivity.
  - destruct I as [<- |I]; [exfalso|destruct (IH I eq_refl) as (t & Ht); exists t; now right].
    destruct Hc as [Hc| ->].
    + apply (Hn CHARDATA (d :: takew is_datachar r) (d :: takew is_datachar r) (dropw is_datachar r) SData).
      * cbn [app]. now rewrite <- take_drop.
      * apply lx_data. split; [discriminate|]. split; [|apply dropw_head]. intros c [<- |I]; [exact Hc|exact (takew_all _ _ _ I)].
    + apply (Hn GT (lit ">") (lit ">") r SData); [reflexivity|apply lx_gt].
Qed.
Lemma lines_keep s t c : lines s t -> In c s -> c <> c_cr -> In c t.
Proof.
  induction 1 as [|s t _ IH|s t _ _ IH|d s t _ _ IH]; intros I N; [exact I|destruct I as [I|[I|I]]|destruct I as [I|I]|destruct I as [I|I]]; try congruence;
  solve [left; exact I|right; now apply IH|subst; now left].
Qed.
Lemma coax_names l s c : l_state l = SData -> In c s -> micro_char c -> c <> c_amp -> c <> c_lt -> coax_run l s = Some UName.
Proof.
  intros L I M N1 N2. destruct (run_exists l s) as (out & st' & R & S). rewrite L in S. unfold coax_run. rewrite R. cbn [fst].
  assert (K : is_datachar c = true \/ c = c_gt).
  { destruct (N.eq_dec c c_gt) as [G|G]; [now right|]. left. apply datachar_iff. split; [now apply character_iff|auto]. }
  assert (NC : c <> c_cr) by (intros ->; apply (proj2 (character_iff c_cr)) in M; discriminate M).
  apply (lines_keep s (normalise s) c) in I; [|now apply normalise_lines|exact NC].
  destruct (data_token c K _ _ _ _ I S) as (t & Ht).
  replace (existsb _ out) with true; [reflexivity|]. symmetry. apply existsb_exists. exists (Tok t). auto.
Qed.
(** The other way round: a token contains such a character, or one that begins a name. *)
Definition telling (c : chr) : Prop := (micro_char c /\ c <> c_amp /\ c <> c_lt) \/ micro_namestart c.
Lemma name_telling n : name n -> exists c, In c n /\ telling c.
Proof.
  intros (c & r & -> & H & _). exists c. split; [now left|]. right. now apply namestart_iff.
Qed.
Lemma char_telling c : is_character c = true -> (c =? c_amp)%N = false -> (c =? c_lt)%N = false -> telling c.
Proof. intros H A B. left. split; [now apply character_iff|]. split; now apply N.eqb_neq. Qed.
Lemma data_telling c : is_datachar c = true -> telling c.
Proof. intros H. apply datachar_iff in H as (H & A & B & _). left. split; [now apply character_iff|]. now split. Qed.
Lemma token_char t v raw rest st' : lexeme SData t v raw rest st' -> exists c, In c raw /\ telling c.
Proof.
  intros H. inversion H as [w1 n v0 w2 r _ Hn|w1 n v0 w2 r _ Hn|s r Hs|s r (Hne & Hs & _)|r| | |st ds r _ _ _|st t0 s c r _ He| | | | | | |]; subst.
  - apply name_telling in Hn as (c & I & T). exists c. split; [|exact T]. apply in_or_app. right. apply in_or_app. right. apply in_or_app. now left.
  - apply name_telling in Hn as (c & I & T). exists c. split; [|exact T]. apply in_or_app. right. apply in_or_app. right. apply in_or_app. now left.
  - exists 33%N. split; [right; now left|]. apply char_telling; reflexivity.
  - destruct raw as [|c s]; [now destruct Hne|]. exists c. split; [now left|]. apply data_telling, Hs. now left.
  - exists 62%N. split; [now left|]. apply char_telling; reflexivity.
  - exists 35%N. split; [right; now left|]. apply char_telling; reflexivity.
  - exists 59%N. split; [|apply char_telling; reflexivity].
    unfold entity in He. cbn [In] in He. repeat destruct He as [He|He]; try contradiction; injection He as _ <- _; cbn; tauto.
Qed.
Lemma no_token : forall s p out st', Forall (fun c => ~ telling c) s -> scans SData p s out st' ->
  existsb (fun i => match i with Tok _ => true | Bad _ => false end) out = false.
Proof.
  intros s p out st' F H. remember SData as st eqn:E. induction H as [st p|st t v raw rest st1 p out st2 Hl Hs IH|st d r p out st2 Hn Hs IH]; subst st.
  - reflexivity.
  - exfalso. apply token_char in Hl as (c & I & T). rewrite Forall_forall in F. apply (F c); [apply in_or_app; now left|exact T].
  - cbn [existsb]. apply IH; [|reflexivity]. now inversion F.
Qed.
Lemma lines_from s t : lines s t -> ~ In c_cr s -> s = t.
Proof.
  induction 1 as [|s t _ IH|s t _ _ IH|d s t _ _ IH]; intros I; [reflexivity| | |f_equal; apply IH]; try (exfalso; apply I; now left).
  intros J. apply I. now right.
Qed.
Lemma coax_silent l s : l_state l = SData -> ~ In c_cr s -> Forall (fun c => ~ telling c) s -> coax_run l s = None.
Proof.
  intros L C F. destruct (run_exists l s) as (out & st' & R & S). rewrite L in S. unfold coax_run. rewrite R. cbn [fst].
  rewrite <- (lines_from s (normalise s)) in S; [|now apply normalise_lines|exact C].
  now rewrite (no_token _ _ _ _ F S).
Qed.
Lemma coax_quiet l s : l_state l = SData -> ~ In c_cr s ->
  (forall c, In c s -> ~ micro_namestart c /\ (c = c_amp \/ c = c_lt \/ ~ micro_char c)) -> coax_run l s = None.
Proof.
  intros L C H. apply coax_silent; [exact L|exact C|]. apply Forall_forall. intros c I T. destruct (H c I) as (A & B). unfold telling in T. tauto.
Qed.
