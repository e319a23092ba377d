(** Theorems about the scanner (lex.py). *)
From Verif Require Import PyStr CharClass XTree Grammar ParserClass Lex LexSpec LexFacts LexScan LexRun.
Local Open Scope N_scope.

(** ** C74 *)
Theorem C74_lines s t : normalise s = t <-> lines s t.
Proof. exact (normalise_lines s t). Qed.
Print Assumptions C74_lines.
Theorem C74_no_cr s : ~ In c_cr (normalise s).
Proof. exact (lines_no_cr s _ (proj1 (normalise_lines s _) eq_refl)). Qed.
Print Assumptions C74_no_cr.
Theorem C74_unchanged s : ~ In c_cr s -> normalise s = s.
Proof. exact (normalise_id s). Qed.
Print Assumptions C74_unchanged.
Theorem C74_twice s : normalise (normalise s) = normalise s.
Proof. exact (normalise_id _ (C74_no_cr s)). Qed.
Print Assumptions C74_twice.
(** Nothing of the text reaches the scanner but the normalised text. *)
Theorem C74_run l s t : normalise s = normalise t -> run l s = run l t.
Proof. exact (run_normalised l s t). Qed.
Print Assumptions C74_run.
Example C74_case : normalise [c_cr; c_nl; 65; c_cr; c_cr; c_nl; c_nl; c_cr] = [c_nl; 65; c_nl; c_nl; c_nl; c_nl].
Proof. reflexivity. Qed.

(** ** C95 *)
(** The run yields exactly what the declarative reading of the rules says. *)
Theorem C95_run l s out l' : run l s = (out, l') <-> exists st', l' = mkLex st' [] (length (normalise s)) /\ scans (l_state l) 0 (normalise s) out st'.
Proof. exact (run_scans l s out l'). Qed.
Print Assumptions C95_run.
Theorem C95_one_reading st p s o st' o2 st2 : scans st p s o st' -> scans st p s o2 st2 -> o = o2 /\ st' = st2.
Proof. exact (fun H => scans_fun st p s o st' H o2 st2). Qed.
Print Assumptions C95_one_reading.
(** Nothing gets lost: the pieces make up the text, a token says where its piece begins, and an
    illegal character is a piece of its own. *)
Theorem C95_lossless l s : exists raws, length raws = length (fst (run l s)) /\ normalise s = concat raws /\
  forall k i, nth_error (fst (run l s)) k = Some i -> exists raw, nth_error raws k = Some raw /\
    match i with
    | Tok t => t_pos t = length (concat (firstn k raws)) /\ raw <> [] /\ exists sk st1, lexeme sk (t_type t) (t_value t) raw (concat (skipn (S k) raws)) st1
    | Bad c => raw = [c]
    end.
Proof. exact (run_lossless l s). Qed.
Print Assumptions C95_lossless.
(** No token can be read two ways. *)
Theorem C95_lexeme st t v raw rest st1 t' v' raw' rest' st1' : lexeme st t v raw rest st1 -> lexeme st t' v' raw' rest' st1' -> raw ++ rest = raw' ++ rest' ->
  t = t' /\ v = v' /\ raw = raw' /\ rest = rest' /\ st1 = st1'.
Proof. exact (lexeme_fun st t v raw rest st1 t' v' raw' rest' st1'). Qed.
Print Assumptions C95_lexeme.

Definition show (o : list item) : list (ttype * str * nat + chr) := map (fun i => match i with Tok t => inl (t_type t, t_value t, t_pos t) | Bad c => inr c end) o.
Definition k_ (t : ttype) (s : string) (p : nat) : ttype * str * nat + chr := inl (t, lit s, p).
Example C95_case : show (fst (run fresh (lit "<a><b x='1' y='a&amp;&#x41;b'>x<!-- hi --></b ></a>"))) =
  [k_ STARTTAG "a" 0; k_ GT ">" 2; k_ STARTTAG "b" 3; k_ NAME "x" 6; k_ EQ "=" 7; k_ SGL_QUOTE "'" 8; k_ CHARDATA "1" 9; k_ SGL_QUOTE "'" 10; inr c_sp;
   k_ NAME "y" 12; k_ EQ "=" 13; k_ SGL_QUOTE "'" 14; k_ CHARDATA "a" 15; k_ AMP_ENT "&amp;" 16; k_ NUM_ENT "41" 21; k_ CHARDATA "b" 27; k_ SGL_QUOTE "'" 28; k_ GT ">" 29;
   k_ CHARDATA "x" 30; k_ COMMENT " hi " 31; k_ ENDTAG "b" 42; k_ ENDTAG "a" 47]%nat.
Proof. vm_compute. reflexivity. Qed.
Example C95_lexeme_case : lexeme SData STARTTAG (lit "b") (lit "< b ") (lit "x='1'>") STag /\ lexeme SData COMMENT (lit " - ") (lit "<!-- - -->") (lit "x") SData /\
  lexeme SDbl NUM_ENT (lit "1F") (lit "&#x1F;") (lit "y") SDbl.
Proof.
  split; [apply (lx_start (lit " ") (lit "b") (lit "b") (lit " "))|split; [apply (lx_comment (lit " - "))|apply (lx_num SDbl (lit "1F")); [discriminate|discriminate|]]].
  - repeat constructor.
  - exists 98, []. split; [reflexivity|]. split; [reflexivity|]. intros ? [].
  - apply trimmed_plain; [|discriminate]. intros [H|[]]. discriminate.
  - repeat constructor.
  - intros (c & r & E & H). inversion E; subst. discriminate.
  - intros (c & r & E & H). inversion E; subst. discriminate.
  - intros c Hc. repeat destruct Hc as [<- |Hc]; [reflexivity..|destruct Hc].
  - intros c Hc. repeat destruct Hc as [<- |Hc]; [reflexivity..|destruct Hc].
Qed.

(** ** C96 *)
(** From the tokens of a document the document can be read; the only illegal characters are white
    space in tags, and the lexer is left ready for the next document. *)
Theorem C96_document l s t : l_state l = SData -> strict_doc (normalise s) t -> ~ In ogham (normalise s) ->
  exists out l' w1 e w2, run l s = (out, l') /\ l_state l' = SData /\
    tokens out = blank_token w1 ++ e ++ blank_token w2 /\ wsp w1 /\ wsp w2 /\ elem_of e t /\ wsp (illegal out).
Proof. exact (run_strict l s t). Qed.
Print Assumptions C96_document.
(** Reading them is unambiguous. *)
Theorem C96_one_document e t t' : elem_of e t -> elem_of e t' -> t = t'.
Proof. exact (elem_of_fun e t t'). Qed.
Print Assumptions C96_one_document.

Definition doc_text : str := lit " <a x='1' y =""&#x41;&lt;"">t<b></b >&amp;</a>
".
Example C96_case : l_state fresh = SData /\ strict_doc (normalise doc_text) (XE (lit "a") [(lit "x", lit "1"); (lit "y", lit "A<")] [XT (lit "t"); XE (lit "b") [] []; XT (lit "&")]) /\
  ~ In ogham (normalise doc_text) /\ length (tokens (fst (run fresh doc_text))) = 21%nat /\ illegal (fst (run fresh doc_text)) = lit "  ".
Proof.
  split; [reflexivity|]. split; [exact strict_doc_case|]. split; [|split; vm_compute; reflexivity].
  intros H. vm_compute in H. repeat (destruct H as [H|H]; [discriminate|]). exact H.
Qed.

(** ** C97 Findings *)
(** An empty element tag is read as a start tag. *)
Theorem C97_empty_tag n rest p out st' : name n -> ~ In ogham n -> scans SData p (lit "<" ++ n ++ lit "/>" ++ rest) out st' ->
  exists out', out = Tok (mkTok STARTTAG n p) :: Bad c_slash :: Tok (mkTok GT (lit ">") (p + length n + 2)) :: out' /\ scans SData (p + length n + 3) rest out' st'.
Proof. exact (empty_tag n rest p out st'). Qed.
Print Assumptions C97_empty_tag.
(** A comment with "<" or "&" in it is text, and what is in it is scanned as markup. *)
Theorem C97_comment b c r p out st' : (forall x, In x b -> is_datachar x = true) -> c = c_lt \/ c = c_amp -> scans SData p (lit "<!--" ++ b ++ c :: r) out st' ->
  exists out', out = Bad c_lt :: Tok (mkTok CHARDATA (lit "!--" ++ b) (S p)) :: out' /\ scans SData (S p + length (lit "!--" ++ b)) (c :: r) out' st'.
Proof. exact (bad_comment b c r p out st'). Qed.
Print Assumptions C97_comment.
(** A byte order mark is text. *)
Theorem C97_mark r p out st' : scans SData p (0xFEFF :: r) out st' -> exists v out', out = Tok (mkTok CHARDATA (0xFEFF :: v) p) :: out'.
Proof. exact (mark_is_data r p out st'). Qed.
Print Assumptions C97_mark.
(** Tabs and line ends in attribute values are illegal, and so are the decimal references that the
    library writes for them. *)
Theorem C97_value_space st c r p out st' : st = SSgl \/ st = SDbl -> c = c_tab \/ c = c_nl -> scans st p (c :: r) out st' ->
  exists out', out = Bad c :: out' /\ scans st (S p) r out' st'.
Proof. exact (value_ws st c r p out st'). Qed.
Print Assumptions C97_value_space.
Theorem C97_decimal st d r p out st' : st <> STag -> d <> c_x -> scans st p (lit "&#" ++ d :: r) out st' ->
  exists out', out = Bad c_amp :: out' /\ scans st (S p) (c_hash :: d :: r) out' st'.
Proof. exact (decimal_ref st d r p out st'). Qed.
Print Assumptions C97_decimal.
(** The letters U+00C1 to U+00D5 end a name. *)
Theorem C97_letters n c r p out st' : name n -> ~ In ogham n -> 0xC1 <= c <= 0xD5 -> scans SData p (lit "<" ++ n ++ c :: r) out st' ->
  exists m out', out = Tok (mkTok STARTTAG n p) :: Tok (mkTok NAME (c :: m) (p + S (length n))) :: out'.
Proof. exact (name_stops n c r p out st'). Qed.
Print Assumptions C97_letters.
(** The value of a tag token can be the empty string. *)
Theorem C97_no_name_refuted : exists s, fst (run fresh s) = [Tok (mkTok STARTTAG [] 0); Tok (mkTok GT (lit ">") 2)].
Proof. exists [c_lt; ogham; c_gt]. vm_compute. reflexivity. Qed.
Print Assumptions C97_no_name_refuted.
Example C97_case : show (fst (run fresh (lit "<a/><!-- <b> -->"))) =
  [k_ STARTTAG "a" 0; inr c_slash; k_ GT ">" 3; inr c_lt; k_ CHARDATA "!-- " 5; k_ STARTTAG "b" 9; k_ GT ">" 11; k_ CHARDATA " --" 12; k_ GT ">" 15]%nat /\
  show (fst (run fresh (lit "<" ++ [0x43; 0xC9] ++ lit ">"))) = [k_ STARTTAG "C" 0; inl (NAME, [0xC9%N], 2); k_ GT ">" 3]%nat.
Proof. split; vm_compute; reflexivity. Qed.

(** ** C98 *)
(** All that one run leaves to the next is the state. *)
Theorem C98_state l l' s : l_state l = l_state l' -> run l s = run l' s.
Proof. exact (run_state l l' s). Qed.
Print Assumptions C98_state.
(** Finding: a text that ends within a tag changes the reading of the next one. *)
Theorem C98_left_over_refuted : exists s1 s2, fst (run (snd (run fresh s1)) s2) <> fst (run fresh s2).
Proof. exists (lit "<a"), (lit "x"). vm_compute. discriminate. Qed.
Print Assumptions C98_left_over_refuted.
(** Finding: once a second run has begun, whatever either run yields is taken, in turn, from the
    second text; the rest of the first text is lost. *)
Theorem C98_second sch g1 s2 l : (forall s, g1 <> GNew s) -> exists rest, fst (run l s2) = map snd (play (true :: sch) g1 (GNew s2) l) ++ rest.
Proof. exact (second_takes_over sch g1 s2 l). Qed.
Print Assumptions C98_second.
Example C98_case : map (fun x => (fst x, show [snd x])) (play [false; true; false; true] (GNew (lit "<a>1</a>")) (GNew (lit "x>y</a>")) fresh) =
  [(false, [k_ STARTTAG "a" 0]); (true, [k_ NAME "x" 0]); (false, [k_ GT ">" 1]); (true, [k_ CHARDATA "y" 2])]%nat.
Proof. vm_compute. reflexivity. Qed.
