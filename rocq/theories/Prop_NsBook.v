(** C128: what [ns_expat_callbacks] notes about namespaces. *)
From Verif Require Import PyStr Parser TreeUtil Expat ExpatSpec NsBook NsBookSpec NsBookFacts.

(** The events are those of the class without namespaces, as far as they go. *)
Theorem C128_events stream cs o : match ns_calls stream o cs with
  | (o', evs, None) => callbacks (nstack o) (map plain_call cs) = (evs, Some (nstack o'))
  | (_, evs, Some x) => (exists rest, fst (callbacks (nstack o) (map plain_call cs)) = evs ++ rest) /\
                        (x = NIndex -> callbacks (nstack o) (map plain_call cs) = (evs, None))
  end.
Proof. exact (calls_plain stream cs o). Qed.
(** When there is no exception. *)
Theorem C128_succeeds stream cs : Forall good_call cs ->
  (snd (ns_calls stream new_ns (map as_call cs)) = None <->
   snd (callbacks [] (map plain_call (map as_call cs))) <> None /\ forall h1 c h2, cs = h1 ++ c :: h2 -> permitted stream h1 c).
Proof. exact (run_succeeds stream cs). Qed.
(** Otherwise, it comes from the first call that is not permitted. *)
Theorem C128_fails stream cs o evs x : Forall good_call cs -> ns_calls stream new_ns (map as_call cs) = (o, evs, Some x) ->
  exists h1 c h2 o1, cs = h1 ++ c :: h2 /\ ns_calls stream new_ns (map as_call h1) = (o1, evs, None) /\
    ((x = NKey /\ ~ permitted stream h1 c) \/ (x = NIndex /\ nstack o1 = [] /\ exists q, c = XClose q)).
Proof. intros G E. pose proof (run_book stream cs G) as H. rewrite E in H. exact H. Qed.
(** What is noted. *)
Theorem C128_noted stream cs o evs : Forall good_call cs -> ns_calls stream new_ns (map as_call cs) = (o, evs, None) ->
  (forall p ns, oget (prefixes o) p = Some ns <-> bound stream cs p ns) /\
  (forall ns p, oget (prefixes_rev o) ns = Some p <-> prefix_for cs ns p) /\
  (forall l ns p, (forall r, l <> lit "@" ++ r) -> (dict_get (portfolio o) l = Some (ns, p) <-> element_note cs l ns p)) /\
  (forall l ns p, dict_get (portfolio o) (lit "@" ++ l) = Some (ns, p) <-> attribute_note cs l ns p).
Proof. exact (run_noted stream cs o evs). Qed.
(** When streaming, two ends of a prefix without a declaration between them, as of a prefix that is
    declared again inside its scope, are an error. *)
Theorem C128_nested h1 p h2 h3 : Forall good_call (h1 ++ XUndecl p :: h2 ++ XUndecl p :: h3) -> (forall ns, ~ In (XDecl p ns) h2) ->
  snd (ns_calls true new_ns (map as_call (h1 ++ XUndecl p :: h2 ++ XUndecl p :: h3))) <> None.
Proof. exact (run_nested h1 p h2 h3). Qed.
(** A document that begins with an element in no namespace is an error, whatever follows. *)
Theorem C128_unqualified stream l ats cs : good_call (XStart (None, l) ats) ->
  ns_calls stream new_ns (map as_call (XStart (None, l) ats :: cs)) = (new_ns, [], Some NKey).
Proof. exact (run_unqualified stream l ats cs). Qed.

(** The name of a namespace with a blank in it ([xmlns:p="u v"]): an element in it, or an attribute, is a ValueError. *)
Theorem C128_blank stream o u v l : unspaced u -> unspaced v -> unspaced l -> let name := u ++ [32%N] ++ v ++ [32%N] ++ l in
  (forall attrs, ns_call stream o (NsStart name attrs) = (o, [], Some NValue)) /\
  (forall q x attrs, good_name q -> (dict_get (portfolio o) (snd q) <> None \/ oget (prefixes_rev o) (fst q) <> None) -> In (name, x) attrs ->
   exists o', ns_call stream o (NsStart (expanded q) attrs) = (o', [], Some NValue)).
Proof. exact (blank_names stream o u v l). Qed.
Example C128_blank_case : unspaced (lit "u") /\ unspaced (lit "v") /\ unspaced (lit "a") /\
  ns_calls false new_ns [NsDecl (Some (lit "p")) (Some (lit "u v")); NsStart (lit "u v a") []] =
    (mkNs [] [(Some (lit "p"), Some (lit "u v"))] [(Some (lit "u v"), Some (lit "p"))] [], [], Some NValue) /\
  snd (ns_calls false new_ns [NsDecl (Some (lit "p")) (Some (lit "u")); NsStart (lit "u a") [(lit "u v b", lit "1")]]) = Some NValue.
Proof. repeat split; try discriminate; intros c H; repeat destruct H as [<-|H]; try reflexivity; destruct H. Qed.

(** [<p:a xmlns:p="u" b="1"><p:c xmlns:q="u" q:b="2"/>x</p:a>] *)
Definition case : list xcall :=
  let u := Some (lit "u") in
  [XDecl (Some (lit "p")) u; XStart (u, lit "a") [((None, lit "b"), lit "1")]; XDecl (Some (lit "q")) u;
   XStart (u, lit "c") [((u, lit "b"), lit "2")]; XClose (u, lit "c"); XUndecl (Some (lit "q")); XText (lit "x"); XClose (u, lit "a"); XUndecl (Some (lit "p"))].
Example C128_case :
  Forall good_call case /\
  ns_calls false new_ns (map as_call case) =
    (mkNs [] [(Some (lit "p"), Some (lit "u")); (Some (lit "q"), Some (lit "u"))] [(Some (lit "u"), Some (lit "q"))]
       [(lit "a", (Some (lit "u"), Some (lit "p"))); (lit "@b", (Some (lit "u"), Some (lit "q"))); (lit "c", (Some (lit "u"), Some (lit "q")))],
     [EvStart (lit "a") [(lit "b", lit "1")] []; EvStart (lit "c") [(lit "b", lit "2")] [lit "a"]; EvEnd (lit "c") [lit "a"]; EvChars (lit "x"); EvEnd (lit "a") []], None) /\
  prefixes (fst (fst (ns_calls true new_ns (map as_call case)))) = [] /\ snd (ns_calls true new_ns (map as_call case)) = None /\
  (* [<p:a xmlns:p="u"><p:a xmlns:p="u"/></p:a>] *)
  (let u := Some (lit "u") in let p := Some (lit "p") in
   snd (ns_calls true new_ns (map as_call [XDecl p u; XStart (u, lit "a") []; XDecl p u; XStart (u, lit "a") []; XClose (u, lit "a"); XUndecl p; XClose (u, lit "a"); XUndecl p])) = Some NKey) /\
  (* [<a/>] *)
  ns_calls false new_ns (map as_call [XStart (None, lit "a") []; XClose (None, lit "a")]) = (new_ns, [], Some NKey) /\
  callbacks [] (map plain_call (map as_call [XStart (None, lit "a") []; XClose (None, lit "a")])) = ([EvStart (lit "a") [] []; EvEnd (lit "a") []], Some []).
Proof.
  split.
  - repeat constructor; cbn; try discriminate; try (intros ? H; repeat destruct H as [<-|H]; try reflexivity; destruct H); intros r H; discriminate.
  - vm_compute. repeat split; reflexivity.
Qed.

Print Assumptions C128_events.
Print Assumptions C128_succeeds.
Print Assumptions C128_fails.
Print Assumptions C128_noted.
Print Assumptions C128_nested.
Print Assumptions C128_unqualified.
Print Assumptions C128_blank.
