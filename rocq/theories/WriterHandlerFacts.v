(** Proofs about write handlers. *)
From Verif Require Import PyStr Parser XTree Writer WriterSpec WriterFacts WriterHandler WriterHandlerSpec Tree TreeSpec TreeFacts.

(** ** All that the handler is given *)
Fixpoint log (b : wstate) (cs : list wcall) : list (wctx * witem) :=
  match cs with [] => [] | c :: cs' => let '(b1, ws) := call_writes b c in ws ++ log b1 cs' end.

Section Handler.
  Variables (St : Type) (hw : St -> wctx * witem -> outcome St).

  Lemma h_writes_app ws1 : forall s ws2, h_writes hw s (ws1 ++ ws2) =
    match h_writes hw s ws1 with
    | (s1, o1, Some x) => (s1, o1, Some x)
    | (s1, o1, None) => let '(s2, o2, x) := h_writes hw s1 ws2 in (s2, o1 ++ o2, x)
    end.
  Proof.
    induction ws1 as [|w ws1 IH]; intros s ws2; cbn [app h_writes].
    - destruct (h_writes hw s ws2) as ((s2, o2), x). reflexivity.
    - destruct (hw s w) as ((s1, o1), [x|]); [reflexivity|]. rewrite IH. destruct (h_writes hw s1 ws1) as ((s2, o2), [x|]); [reflexivity|].
      destruct (h_writes hw s2 ws2) as ((s3, o3), x). now rewrite app_assoc.
  Qed.
  Lemma h_run_log cs : forall b s, h_run hw b s cs = h_writes hw s (log b cs).
  Proof.
    induction cs as [|c cs IH]; intros b s; cbn [h_run log]; [reflexivity|]. destruct (call_writes b c) as (b1, ws). rewrite h_writes_app.
    destruct (h_writes hw s ws) as ((s1, o1), [x|]); [reflexivity|]. now rewrite IH.
  Qed.
  Lemma h_writes_given ws : forall s s' o x, h_writes hw s ws = (s', o, x) <-> given hw s ws s' o x.
  Proof.
    induction ws as [|w ws IH]; intros s s' o x; cbn [h_writes].
    - split; [intros [= <- <- <-]; constructor|]. intros H. inversion H. reflexivity.
    - destruct (hw s w) as ((s1, o1), [y|]) eqn:E.
      + split; [intros [= <- <- <-]; now apply gv_exn|]. intros H. inversion H; congruence.
      + destruct (h_writes hw s1 ws) as ((s2, o2), y) eqn:F. split.
        * intros [= <- <- <-]. apply gv_more with s1; [exact E|]. now apply IH.
        * intros H. inversion H as [|? ? ? s1' o1' ? o2' ? E' G|]; subst; [|congruence].
          rewrite E in E'. injection E' as <- <-. apply IH in G. rewrite F in G. now injection G as <- <- <-.
  Qed.

  (** Whatever the handler, it is given what the calls say. *)
  Lemma handler_given cs b s s' o x : h_run hw b s cs = (s', o, x) <-> given hw s (log b cs) s' o x.
  Proof. rewrite h_run_log. apply h_writes_given. Qed.

  Lemma h_ns_same cs : forall b s, (forall n a, ~ In (CStart n a true) cs) -> h_ns_run hw b s cs = h_run hw b s cs.
  Proof.
    induction cs as [|c cs IH]; intros b s N; [reflexivity|].
    assert (N' : forall n a, ~ In (CStart n a true) cs) by (intros n a I; apply (N n a); now right).
    destruct c as [n a [|]|n|t]; [destruct (N n a); now left| | |]; cbn [h_ns_run h_run];
      match goal with |- context [call_writes b ?c] => destruct (call_writes b c) as (b1, ws) end;
      destruct (h_writes hw s ws) as ((s1, o1), [x|]); try reflexivity; now rewrite IH.
  Qed.
  Lemma h_ns_empty cs n a r b s s' o : (forall n a, ~ In (CStart n a true) cs) -> h_run hw b s cs = (s', o, None) ->
    h_ns_run hw b s (cs ++ CStart n a true :: r) = (s', o, Some WType).
  Proof.
    revert b s s' o. induction cs as [|c cs IH]; intros b s s' o N; cbn [app h_run].
    - intros [= <- <-]. reflexivity.
    - assert (N' : forall n a, ~ In (CStart n a true) cs) by (intros m d I; apply (N m d); now right).
      destruct c as [m d [|]|m|t]; [destruct (N m d); now left| | |]; cbn [h_ns_run];
      match goal with |- context [call_writes b ?c] => destruct (call_writes b c) as (b1, ws) end;
      destruct (h_writes hw s ws) as ((s1, o1), [x|]); try discriminate; destruct (h_run hw b1 s1 cs) as ((s2, o2), [y|]) eqn:E; try discriminate;
      intros [= <- <-]; now rewrite (IH _ _ _ _ N' E).
  Qed.
End Handler.

(** ** The log of a tree *)
Lemma attr_writes_markup a : forall first, attr_writes first a =
  match a with [] => [] | kv :: r => attr_markup (if first then TkPreAttr else TkBetweenAttr) kv ++ concat (map (attr_markup TkBetweenAttr) r) end.
Proof.
  induction a as [|(k, v) a IH]; intros first; [reflexivity|]. cbn [attr_writes]. rewrite IH. unfold attr_markup, tok. cbn [fst snd app].
  destruct a as [|kv a]; reflexivity.
Qed.
Lemma log_app b cs1 cs2 : exists b', windent b' = windent b /\ log b (cs1 ++ cs2) = log b cs1 ++ log b' cs2.
Proof.
  revert b. induction cs1 as [|c cs1 IH]; intros b; cbn [app log]; [exists b; auto|].
  destruct (call_writes b c) as (b1, ws) eqn:E. destruct (IH b1) as (b' & W & L). exists b'. rewrite L, app_assoc. split; [|reflexivity].
  rewrite W. destruct b as [ind d aw]. destruct c as [n a e|n|t]; cbn [call_writes] in E.
  - unfold start_writes in E. cbn [windent wdepth wawait] in E. destruct (aw && indenting (mkW ind d aw)); destruct e; injection E as <- _; reflexivity.
  - injection E as <- _. reflexivity.
  - injection E as <- _. reflexivity.
Qed.
Lemma log_tree t : forall b, windent b = [] -> log b (write_calls t) = markup t.
Proof.
  induction t as [n a ks IH|s] using xtree_ind'; intros [ind d aw] W; cbn [windent] in W; subst ind; [|reflexivity].
  cbn [write_calls log call_writes]. unfold start_writes. cbn [indenting windent wdepth wawait]. rewrite andb_false_r. cbn [windent wdepth app].
  cbn [markup]. unfold tok at 1 2. cbn [app]. do 2 f_equal. rewrite (attr_writes_markup a true). fold (attrs_markup a).
  change (match a with [] => [] | kv :: r => attr_markup TkPreAttr kv ++ concat (map (attr_markup TkBetweenAttr) r) end) with (attrs_markup a).
  rewrite <- app_assoc. f_equal. cbn [app]. f_equal.
  assert (K : forall b, windent b = [] -> log b (flat_map write_calls ks ++ [CEnd n]) =
    concat (map markup ks) ++ [tok CxEnd TkEndOpen; (CxElemName, IStr n); tok CxEnd TkEndClose]).
  { clear -IH. induction IH as [|k ks Hk _ IHk]; intros b W.
    - cbn [flat_map app log call_writes]. unfold end_writes, indenting. rewrite W. reflexivity.
    - cbn [flat_map map concat]. rewrite <- !app_assoc. destruct (log_app b (write_calls k) (flat_map write_calls ks ++ [CEnd n])) as (b' & W' & ->).
      rewrite Hk by exact W. rewrite IHk by congruence. reflexivity. }
  apply K. reflexivity.
Qed.
Lemma handler_tree (St : Type) (hw : St -> wctx * witem -> outcome St) t d s s' o x :
  h_run hw (new_raw [] d) s (write_calls t) = (s', o, x) <-> given hw s (markup t) s' o x.
Proof. rewrite handler_given, log_tree by reflexivity. reflexivity. Qed.

(** ** The handlers of the library *)
Lemma raw_writes ws : forall s, h_writes raw_handler s ws = (s, flat_map raw_write ws, None).
Proof.
  induction ws as [|w ws IH]; intros s; [reflexivity|]. cbn [h_writes flat_map]. unfold raw_handler at 1. now rewrite IH.
Qed.
Lemma raw_log cs : forall b, snd (raw_run b cs) = flat_map raw_write (log b cs).
Proof.
  induction cs as [|c cs IH]; intros b; [reflexivity|]. cbn [raw_run log]. destruct (call_writes b c) as (b1, ws). rewrite flat_map_app, <- IH.
  destruct (raw_run b1 cs) as (b2, o). reflexivity.
Qed.
Lemma raw_handler_same b s cs : h_run raw_handler b s cs = (s, snd (raw_run b cs), None).
Proof. rewrite h_run_log, raw_writes, raw_log. reflexivity. Qed.

Lemma ns_handler_fails b s n a cs : windent b = [] ->
  h_run ns_handler b s (CStart n a false :: cs) = (s, lit "<" ++ n, Some WAttr).
Proof.
  intros W. rewrite h_run_log. cbn [log call_writes]. destruct b as [ind d aw]. cbn [windent] in W. subst ind.
  unfold start_writes. cbn [indenting windent wdepth wawait]. rewrite andb_false_r. cbn [windent wdepth app].
  destruct a as [|(k, v) a]; cbn [attr_writes app h_writes ns_handler raw_write item_text token_text]; cbn [app]; now rewrite app_nil_r.
Qed.
Lemma ns_handler_indented b s n a cs : windent b <> [] ->
  h_run ns_handler b s (CStart n a false :: cs) =
  (s, (if wawait b then c_nl :: py_escape (str_times (windent b) (wdepth b)) else []) ++ lit "<" ++ n, Some WAttr).
Proof.
  intros W. rewrite h_run_log. cbn [log call_writes]. destruct b as [ind d aw]. cbn [windent] in W. destruct ind as [|c ind]; [congruence|].
  unfold start_writes, indent_writes. cbn [indenting windent wdepth wawait]. rewrite andb_true_r. destruct aw; cbn [windent wdepth app];
  destruct a as [|(k, v) a]; cbn [attr_writes app h_writes ns_handler raw_write item_text token_text]; cbn [app]; try rewrite app_nil_r; reflexivity.
Qed.

Definition fatal (w : wctx * witem) : bool := match w with (CxStart, ITok TkPreAttr) | (CxStart, ITok TkStartClose) => true | _ => false end.
Lemma ns_writes_none ws : forall s, snd (h_writes ns_handler s ws) = None <-> existsb fatal ws = false.
Proof.
  assert (F : forall s w, snd (ns_handler s w) = if fatal w then Some WAttr else None) by (intros s ([], [[]|t]); reflexivity).
  induction ws as [|w ws IH]; intros s; cbn [h_writes existsb]; [split; reflexivity|]. specialize (F s w).
  destruct (ns_handler s w) as ((s1, o1), [x|]) eqn:E; cbn [snd] in F; destruct (fatal w); try discriminate; cbn [orb].
  - split; discriminate.
  - rewrite <- (IH s1). destruct (h_writes ns_handler s1 ws) as ((s2, o2), x). reflexivity.
Qed.
Lemma fatal_log cs : forall b, existsb fatal (log b cs) = false <-> forall n a e, In (CStart n a e) cs -> e = true /\ a = [].
Proof.
  induction cs as [|c cs IH]; intros b; cbn [log]; [split; [intros _ n a e []|reflexivity]|]. destruct (call_writes b c) as (b1, ws) eqn:E.
  rewrite existsb_app, orb_false_iff, IH.
  assert (K : existsb fatal ws = false <-> forall n a e, c = CStart n a e -> e = true /\ a = []).
  { destruct b as [ind d aw]. destruct c as [n a e|n|t]; cbn [call_writes] in E.
    - unfold start_writes in E. cbn [windent wdepth wawait] in E.
      assert (A : forall s, existsb fatal (if indenting s then indent_writes s else []) = false) by (intros s; destruct (indenting s); reflexivity).
      split.
      + intros F m d' e' [= <- <- <-]. destruct a as [|(k, v) a].
        * split; [|reflexivity]. destruct e; [reflexivity|]. destruct (aw && indenting _); injection E as _ <-; discriminate F.
        * destruct (aw && indenting _); destruct e; injection E as _ <-; discriminate F.
      + intros F. destruct (F n a e eq_refl) as (-> & ->). destruct (aw && indenting _); injection E as _ <-; cbn [app existsb fatal attr_writes orb indent_writes]; apply A.
    - split; [discriminate|]. intros _. injection E as _ <-. cbn [app existsb fatal orb]. destruct (indenting _); reflexivity.
    - split; [discriminate|]. intros _. injection E as _ <-. reflexivity. }
  rewrite K. split.
  - intros (H1 & H2) n a e [I|I]; [now apply (H1 n a e)|now apply (H2 n a e)].
  - intros H. split; intros n a e I; apply (H n a e); [left; exact I|right; exact I].
Qed.
Lemma ns_handler_none b s cs : snd (h_run ns_handler b s cs) = None <-> forall n a e, In (CStart n a e) cs -> e = true /\ a = [].
Proof. rewrite h_run_log, ns_writes_none. apply fatal_log. Qed.
Lemma ns_handler_first indent d s n a cs : h_run ns_handler (new_raw indent d) s (CStart n a false :: cs) = (s, lit "<" ++ n, Some WAttr).
Proof. destruct indent as [|c r]; [now apply ns_handler_fails|]. rewrite ns_handler_indented by discriminate. reflexivity. Qed.

(** The namespacer and [empty] *)
Lemma ns_all_same p m cs : forall s, (forall n a, ~ In (CStart n a true) cs) ->
  ns_run_all p m s cs = (let '(s', o) := ns_run p m s cs in (s', o, None)).
Proof.
  induction cs as [|c cs IH]; intros s N; [reflexivity|].
  assert (N' : forall n a, ~ In (CStart n a true) cs) by (intros n a I; apply (N n a); now right).
  destruct c as [n a [|]|n|t]; [destruct (N n a); now left| | |]; cbn [ns_run_all ns_run];
    match goal with |- context [ns_call p m s ?c] => destruct (ns_call p m s c) as (s1, o1) end; rewrite IH by exact N';
    destruct (ns_run p m s1 cs) as (s2, o2); reflexivity.
Qed.
Lemma ns_all_empty p m cs n a r : forall s, (forall n a, ~ In (CStart n a true) cs) ->
  ns_run_all p m s (cs ++ CStart n a true :: r) = (let '(s', o) := ns_run p m s cs in (s', o, Some WType)).
Proof.
  induction cs as [|c cs IH]; intros s N; [reflexivity|].
  assert (N' : forall n a, ~ In (CStart n a true) cs) by (intros m' d I; apply (N m' d); now right).
  destruct c as [m' d [|]|m'|t]; [destruct (N m' d); now left| | |]; cbn [app ns_run_all ns_run];
    match goal with |- context [ns_call p m s ?c] => destruct (ns_call p m s c) as (s1, o1) end; rewrite IH by exact N';
    destruct (ns_run p m s1 cs) as (s2, o2); reflexivity.
Qed.

(** ** A handler that writes only text *)
Lemma text_writes ws : forall s, h_writes text_handler s ws = (s, flat_map (fun w => match w with (CxText, IStr t) => t | _ => [] end) ws, None).
Proof.
  induction ws as [|w ws IH]; intros s; [reflexivity|]. cbn [h_writes flat_map]. unfold text_handler at 1. now rewrite IH.
Qed.

Lemma markup_text t : flat_map (fun w => match w with (CxText, IStr t) => t | _ => [] end) (markup t) = xml_value t.
Proof.
  induction t as [n a ks IH|s] using xtree_ind'; [|cbn; apply app_nil_r]. cbn [markup xml_value]. rewrite !flat_map_app. cbn [flat_map app tok].
  assert (A : forall l, flat_map (fun w : wctx * witem => match w with (CxText, IStr t) => t | _ => [] end) (concat (map (attr_markup TkBetweenAttr) l)) = []).
  { induction l as [|kv l IHl]; [reflexivity|]. cbn [map concat]. rewrite flat_map_app, IHl. reflexivity. }
  assert (B : flat_map (fun w : wctx * witem => match w with (CxText, IStr t) => t | _ => [] end) (attrs_markup a) = []).
  { destruct a as [|kv a]; [reflexivity|]. unfold attrs_markup. rewrite flat_map_app, A. reflexivity. }
  rewrite B. cbn [app]. rewrite app_nil_r. unfold py_join. induction IH as [|k ks Hk _ IHk]; [reflexivity|]. cbn [map concat]. rewrite flat_map_app, Hk, IHk. reflexivity.
Qed.
Lemma text_handler_value t d : h_run text_handler (new_raw [] d) tt (write_calls t) = (tt, flat_map event_text (doc_events t), None).
Proof. rewrite h_run_log, log_tree by reflexivity. rewrite text_writes, markup_text. unfold doc_events. now rewrite <- xml_value_text. Qed.
