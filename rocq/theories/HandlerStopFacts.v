(** Handlers that raise or end. *)
From Verif Require Import PyStr XTree Grammar Parser ParserS ParserM ParserInv ParserSpec ParserFrag ParserMore ParserClass HandlerStop HandlerStopSpec.

Lemma quiet_app {X} (h : list event -> option X) a b : quiet h (a ++ b) -> quiet h a.
Proof. intros Q x y -> N. apply (Q x (y ++ b)); [now rewrite app_assoc|exact N]. Qed.
Lemma deliver_quiet h : forall evs seen, quiet h (seen ++ evs) -> deliver h seen evs = (evs, None).
Proof.
  induction evs as [|e r IH]; intros seen Q; [reflexivity|]. cbn [deliver].
  rewrite (Q (seen ++ [e]) r); [|now rewrite <- app_assoc|intros E; apply app_eq_nil in E as [_ E]; discriminate].
  rewrite IH; [reflexivity|]. now rewrite <- app_assoc.
Qed.
Lemma deliver_raise h x e b : forall a seen, quiet h (seen ++ a) -> h (seen ++ a ++ [e]) = Some x -> deliver h seen (a ++ e :: b) = (a ++ [e], Some x).
Proof.
  induction a as [|y a IH]; intros seen Q R; cbn [app deliver] in *; [now rewrite R|].
  rewrite (Q (seen ++ [y]) a); [|now rewrite <- app_assoc|intros E; apply app_eq_nil in E as [_ E]; discriminate].
  rewrite IH; [reflexivity|now rewrite <- app_assoc|]. rewrite <- app_assoc. exact R.
Qed.
Lemma deliver_case (h : event_handler) : forall evs seen, quiet h seen -> quiet h (seen ++ evs) \/ exists a e b x, evs = a ++ e :: b /\ quiet h (seen ++ a) /\ h (seen ++ a ++ [e]) = Some x.
Proof.
  induction evs as [|e r IH]; intros seen Q; [left; now rewrite app_nil_r|]. destruct (h (seen ++ [e])) as [x|] eqn:E.
  - right. exists [], e, r, x. rewrite app_nil_r. auto.
  - assert (Q' : quiet h (seen ++ [e])).
    { intros a b Eq N. destruct b as [|y b _] using rev_ind; [rewrite app_nil_r in Eq; now rewrite <- Eq|]. rewrite app_assoc in Eq. apply app_inj_tail in Eq as (Eq & _). exact (Q a b Eq N). }
    destruct (IH (seen ++ [e]) Q') as [H|(a & e' & b & x & -> & H & R)].
    + left. now rewrite <- app_assoc in H.
    + right. exists (e :: a), e', b, x. rewrite <- !app_assoc in *. auto.
Qed.

Lemma dead_session h l : forall seen, session h seen GDead l = ([], map (fun _ => HRaised (ROwn StopIter)) l).
Proof. induction l as [|[f d] l IH]; intros seen; [reflexivity|]. cbn. rewrite app_nil_r, IH. reflexivity. Qed.

Lemma session_quiet (h : event_handler) : forall l g seen evs o, sends g l = (evs, o) -> quiet h (seen ++ evs) ->
  exists l1 l2, l = l1 ++ l2 /\ session h seen g l = (evs, repeat HOk (length l1) ++
    match o, l2 with Raised e, _ :: r => HRaised (ROwn e) :: map (fun _ => HRaised (ROwn StopIter)) r | Hung, _ :: _ => [HHang] | _, _ => [] end) /\
    (match o with Suspended _ => l2 = [] | _ => l2 <> [] end).
Proof.
  induction l as [|[f d] l IH]; intros g seen evs o E Q.
  - injection E as <- <-. exists [], []. auto.
  - cbn [sends] in E. cbn [session]. unfold send_to. destruct (send g f d) as [g' ev|e ev|ev] eqn:S.
    + destruct (sends g' l) as [evs' o'] eqn:E'. injection E as <- <-. rewrite app_assoc in Q. rewrite (deliver_quiet h ev seen (quiet_app _ _ _ Q)).
      destruct (IH g' (seen ++ ev) evs' o' E' Q) as (l1 & l2 & -> & R & T). rewrite R. exists ((f, d) :: l1), l2. split; [reflexivity|]. split; [reflexivity|exact T].
    + injection E as <- <-. rewrite (deliver_quiet h ev seen Q), dead_session, app_nil_r. exists [], ((f, d) :: l). split; [reflexivity|]. split; [reflexivity|discriminate].
    + injection E as <- <-. rewrite (deliver_quiet h ev seen Q). exists [], ((f, d) :: l). split; [reflexivity|]. split; [reflexivity|discriminate].
Qed.
Lemma session_raise h x e b : forall l g seen a o, sends g l = (a ++ e :: b, o) -> quiet h (seen ++ a) -> h (seen ++ a ++ [e]) = Some x ->
  exists l1 p l2, l = l1 ++ p :: l2 /\ session h seen g l = (a ++ [e], repeat HOk (length l1) ++ HRaised (leaves x) :: map (fun _ => HRaised (ROwn StopIter)) l2) /\
    (exists r, a = fst (sends g l1) ++ r) /\ exists r, fst (sends g (l1 ++ [p])) = a ++ e :: r.
Proof.
  induction l as [|[f d] l IH]; intros g seen a o E Q R; [destruct a; discriminate|].
  cbn [sends] in E. cbn [session]. unfold send_to. destruct (send g f d) as [g' ev|y ev|ev] eqn:S.
  - destruct (sends g' l) as [evs' o'] eqn:E'. apply (f_equal fst) in E as E1. cbn [fst] in E1.
    assert (C : (exists r, ev = a ++ e :: r) \/ exists a', a = ev ++ a' /\ evs' = a' ++ e :: b).
    { clear - E1. revert a E1. induction ev as [|z ev IHe]; intros a E1; [right; exists a; auto|]. destruct a as [|z' a]; cbn in E1; injection E1 as -> E1; [left; exists ev; reflexivity|].
      destruct (IHe a E1) as [(r & ->)|(a' & -> & ->)]; [left; exists r; reflexivity|right; exists a'; auto]. }
    destruct C as [(r & ->)|(a' & -> & ->)].
    + rewrite (deliver_raise h x e r a seen Q R), dead_session, app_nil_r. exists [], (f, d), l. split; [reflexivity|]. split; [reflexivity|]. split; [exists a; reflexivity|].
      exists r. cbn. rewrite S. cbn. now rewrite app_nil_r.
    + rewrite (deliver_quiet h ev seen); [|rewrite app_assoc in Q; exact (quiet_app _ _ _ Q)].
      destruct (IH g' (seen ++ ev) a' o' E') as (l1 & p & l2 & -> & H & (r1 & ->) & (r2 & H2)); [now rewrite <- app_assoc|rewrite <- !app_assoc in *; exact R|].
      rewrite H. exists ((f, d) :: l1), p, l2. split; [reflexivity|]. split; [rewrite <- !app_assoc; reflexivity|]. split.
      * exists r1. cbn [sends]. rewrite S. destruct (sends g' l1). cbn. now rewrite app_assoc.
      * exists r2. cbn [app sends]. rewrite S. destruct (sends g' (l1 ++ [p])). cbn in *. rewrite H2, <- !app_assoc. reflexivity.
  - injection E as -> _. rewrite (deliver_raise h x e b a seen Q R), dead_session, app_nil_r. exists [], (f, d), l. split; [reflexivity|]. split; [reflexivity|]. split; [exists a; reflexivity|].
    exists b. cbn. rewrite S. reflexivity.
  - injection E as -> _. rewrite (deliver_raise h x e b a seen Q R), dead_session, app_nil_r. exists [], (f, d), l. split; [reflexivity|]. split; [reflexivity|]. split; [exists a; reflexivity|].
    exists b. cbn. rewrite S. reflexivity.
Qed.

(** A document in pieces. *)
Lemma handler_document (h : event_handler) pieces t a e b x : safe_cuts pieces = true -> lenient_doc (concat pieces) t -> doc_events t = a ++ e :: b -> quiet h a -> h (a ++ [e]) = Some x ->
  exists l1 p l2, pieces = l1 ++ p :: l2 /\ session h [] new_parser (map (fun f => (f, false)) pieces) = (a ++ [e], repeat HOk (length l1) ++ HRaised (leaves x) :: map (fun _ => HRaised (ROwn StopIter)) l2).
Proof.
  intros C D E Q R. destruct (proj2 (parse_complete_iff (concat pieces) (doc_events t))) as ((g & F) & _); [exists t; auto|].
  rewrite <- (feed_pieces pieces C), E in F. destruct (session_raise h x e b _ _ [] a _ F Q R) as (l1 & p & l2 & L & S & _).
  apply map_eq_app in L as (m1 & m2 & -> & <- & L2). destruct m2 as [|q m2]; [discriminate|]. injection L2 as <- <-.
  exists m1, q, m2. split; [reflexivity|]. rewrite S, map_length, map_map. reflexivity.
Qed.
Lemma handler_all (h : event_handler) pieces t : safe_cuts pieces = true -> lenient_doc (concat pieces) t -> quiet h (doc_events t) ->
  session h [] new_parser (map (fun f => (f, false)) pieces) = (doc_events t, map (fun _ => HOk) pieces).
Proof.
  intros C D Q. destruct (proj2 (parse_complete_iff (concat pieces) (doc_events t))) as ((g & F) & _); [exists t; auto|].
  rewrite <- (feed_pieces pieces C) in F. destruct (session_quiet h _ _ [] _ _ F Q) as (l1 & l2 & L & S & ->). rewrite app_nil_r in L. rewrite S, app_nil_r, <- L, map_length. f_equal.
  clear. induction pieces; cbn; congruence.
Qed.
