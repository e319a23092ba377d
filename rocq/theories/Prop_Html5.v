(** Theorems about the HTML adapter (html5.py). *)
From Verif Require Import PyStr Parser XTree Heap Builder HeapSpec HeapFacts BuilderFacts BuilderMore Html5 Html5Spec Html5Facts.

(** ** C72 *)
Theorem C72_append h self n a ks p x : hp h self = Some (OElem n a ks p) -> allocated h -> usable h self x ->
  exists h' j, h_appendChild h self x = EOk h' /\ placed h h' self x j /\
    hp h' self = Some (OElem n a (ks ++ [j]) p) /\ (forall k, k <> self -> k <> j -> hp h' k = hp h k).
Proof. exact (append_child h self n a ks p x). Qed.
Print Assumptions C72_append.
(** The reference node is an element. *)
Theorem C72_insert_before h self n a k1 i k2 p x : hp h self = Some (OElem n a (k1 ++ i :: k2) p) -> allocated h -> usable h self x ->
  is_elem h i -> ~ In i k1 ->
  exists h' j, h_insertBefore h self x (HRef i) = EOk h' /\ placed h h' self x j /\
    hp h' self = Some (OElem n a (k1 ++ j :: i :: k2) p) /\ (forall k, k <> self -> k <> j -> hp h' k = hp h k).
Proof. exact (insert_before_elem h self n a k1 i k2 p x). Qed.
Print Assumptions C72_insert_before.
(** Any reference node: the first equal child counts. *)
Theorem C72_insert_before_equal h self n a k1 r k2 p x y : hp h self = Some (OElem n a (k1 ++ r :: k2) p) -> allocated h -> usable h self x ->
  equals h y r -> Forall (fun k => ~ equals h y k) k1 ->
  exists h' j, h_insertBefore h self x y = EOk h' /\ placed h h' self x j /\
    hp h' self = Some (OElem n a (k1 ++ j :: r :: k2) p) /\ (forall k, k <> self -> k <> j -> hp h' k = hp h k).
Proof. exact (insert_before h self n a k1 r k2 p x y). Qed.
Print Assumptions C72_insert_before_equal.
Theorem C72_insert_before_missing h self n a ks p x y : hp h self = Some (OElem n a ks p) -> Forall (fun k => ~ equals h y k) ks ->
  h_insertBefore h self x y = EExn h ValueErr_.
Proof. exact (insert_before_missing h self n a ks p x y). Qed.
Print Assumptions C72_insert_before_missing.
Theorem C72_insert_text h self n a k1 i k2 p s : hp h self = Some (OElem n a (k1 ++ i :: k2) p) -> allocated h -> is_elem h i -> ~ In i k1 ->
  exists h' j, h_insertText h self s (Some (HRef i)) = EOk h' /\ hp h j = None /\ hp h' j = Some (OText s (Some self)) /\
    hp h' self = Some (OElem n a (k1 ++ j :: i :: k2) p) /\ (forall k, k <> self -> k <> j -> hp h' k = hp h k).
Proof. exact (insert_text_elem h self n a k1 i k2 p s). Qed.
Print Assumptions C72_insert_text.
Theorem C72_insert_text_end h self n a ks p s : hp h self = Some (OElem n a ks p) -> allocated h ->
  exists h' j, h_insertText h self s None = EOk h' /\ hp h j = None /\ hp h' j = Some (OText s (Some self)) /\
    hp h' self = Some (OElem n a (ks ++ [j]) p) /\ (forall k, k <> self -> k <> j -> hp h' k = hp h k).
Proof. exact (insert_text_end h self n a ks p s). Qed.
Print Assumptions C72_insert_text_end.
Theorem C72_child_nodes h self n a ks p l : hp h self = Some (OElem n a ks p) -> allocated h -> Forall (usable h self) l ->
  exists h' js, h_set_childNodes h self l = EOk h' /\ Forall2 (placed h h' self) l js /\ hp h' self = Some (OElem n a js p) /\
    (forall a b j, nth_error js a = Some j -> nth_error js b = Some j -> hp h j = None -> a = b) /\
    (forall k, k <> self -> ~ In k js -> hp h' k = hp h k).
Proof. exact (set_child_nodes h self n a ks p l). Qed.
Print Assumptions C72_child_nodes.
Theorem C72_clone h self n a ks p : hp h self = Some (OElem n a ks p) -> allocated h ->
  exists h' j, h_cloneNode h self = Some (h', j) /\ hp h j = None /\ hp h' j = Some (OElem n a [] None) /\ (forall k, k <> j -> hp h' k = hp h k).
Proof. exact (clone_node h self n a ks p). Qed.
Print Assumptions C72_clone.
Theorem C72_clone_linked h self h' j : well_linked h -> h_cloneNode h self = Some (h', j) -> well_linked h'.
Proof. exact (clone_linked h self h' j). Qed.
Print Assumptions C72_clone_linked.
Theorem C72_has_content h self o : hp h self = Some o -> h_hasContent h self = true <-> exists i, child h self i.
Proof. exact (has_content h self o). Qed.
Print Assumptions C72_has_content.

(** Element a holds text "t", element b, text "t"; element c and text "" stand alone. *)
Definition html_heap : heap := mkH (fun j => match j with
  | 0 => Some (OElem (lit "a") [(lit "k", lit "v")] [1; 2; 3] None) | 1 => Some (OText (lit "t") (Some 0))
  | 2 => Some (OElem (lit "b") [] [5] (Some 0)) | 3 => Some (OText (lit "t") (Some 0))
  | 4 => Some (OElem (lit "c") [] [] None) | 5 => Some (OText [] (Some 2)) | _ => None end) 6.
Lemma html_heap_allocated : allocated html_heap.
Proof. intros j o H. do 6 (destruct j as [|j]; [cbn; auto with arith|]). discriminate. Qed.
Example C72_case : usable html_heap 0 (HRef 4) /\ is_elem html_heap 2 /\ ~ In 2 [1] /\ [1; 2; 3] = [1] ++ 2 :: [3] /\
  (exists h', h_insertBefore html_heap 0 (HRef 4) (HRef 2) = EOk h' /\
     map (hp h') [0; 4] = [Some (OElem (lit "a") [(lit "k", lit "v")] [1; 4; 2; 3] None); Some (OElem (lit "c") [] [] (Some 0))]) /\
  (exists h', h_insertBefore html_heap 0 (HComment (lit "t")) (HRef 2) = EOk h' /\
     map (hp h') [0; 6] = [Some (OElem (lit "a") [(lit "k", lit "v")] [1; 6; 2; 3] None); Some (OText [] (Some 0))]) /\
  (exists h', h_set_childNodes html_heap 0 [HRef 3; HStr (lit "s"); HRef 4; HComment (lit "x")] = EOk h' /\
     map (hp h') [0; 4; 6; 7; 8; 2] = [Some (OElem (lit "a") [(lit "k", lit "v")] [6; 7; 4; 8] None); Some (OElem (lit "c") [] [] (Some 0));
       Some (OText (lit "t") (Some 0)); Some (OText (lit "s") (Some 0)); Some (OText [] (Some 0)); Some (OElem (lit "b") [] [5] (Some 0))]).
Proof.
  split; [split; [discriminate|eexists; reflexivity]|]. split; [do 4 eexists; reflexivity|]. split; [intros [H|[]]; discriminate|].
  split; [reflexivity|]. split; [|split]; eexists; (split; [cbn; reflexivity|reflexivity]).
Qed.

(** A text node as the reference node: an earlier equal text takes its place. *)
Theorem C72_text_reference_refuted : exists h self n a k1 r k2 p x h', hp h self = Some (OElem n a (k1 ++ r :: k2) p) /\ allocated h /\
  NoDup (k1 ++ r :: k2) /\ h_insertBefore h self (HRef x) (HRef r) = EOk h' /\ is_elem h x /\ ~ In x (k1 ++ r :: k2) /\
  forall p', hp h' self <> Some (OElem n a (k1 ++ x :: r :: k2) p').
Proof.
  exists html_heap, 0, (lit "a"), [(lit "k", lit "v")], [1; 2], 3, [], None, 4. eexists.
  split; [reflexivity|]. split; [exact html_heap_allocated|]. split; [repeat constructor; cbn; intuition discriminate|]. split; [cbn; reflexivity|].
  split; [do 4 eexists; reflexivity|]. split; [cbn; intuition discriminate|]. intros p' H. cbn in H. discriminate.
Qed.
Print Assumptions C72_text_reference_refuted.
(** An empty text node as the reference of insertText counts as none. *)
Theorem C72_empty_reference h self n a ks p i s : hp h self = Some (OElem n a ks p) -> allocated h -> is_text h i [] ->
  h_insertText h self s (Some (HRef i)) = h_insertText h self s None.
Proof. exact (insert_text_empty h self n a ks p i s). Qed.
Print Assumptions C72_empty_reference.
Example C72_empty_case : is_text html_heap 5 [] /\ child html_heap 2 5.
Proof. split; [eexists; reflexivity|eexists; split; [reflexivity|left; reflexivity]]. Qed.

(** ** C89 *)
Theorem C89_remove h self n a k1 r k2 p y : hp h self = Some (OElem n a (k1 ++ r :: k2) p) ->
  equals h y r -> Forall (fun k => ~ equals h y k) k1 ->
  exists h', h_removeChild h self y = EOk h' /\ nxt h' = nxt h /\ hp h' self = Some (OElem n a (k1 ++ k2) p) /\ (forall k, k <> self -> hp h' k = hp h k).
Proof. exact (remove_child h self n a k1 r k2 p y). Qed.
Print Assumptions C89_remove.
Theorem C89_remove_missing h self n a ks p y : hp h self = Some (OElem n a ks p) -> Forall (fun k => ~ equals h y k) ks ->
  h_removeChild h self y = EExn h ValueErr_.
Proof. exact (remove_child_missing h self n a ks p y). Qed.
Print Assumptions C89_remove_missing.
Theorem C89_parent_stays h self i : well_linked h -> is_elem h i -> child h self i ->
  exists h', h_removeChild h self (HRef i) = EOk h' /\ ~ child h' self i /\ xml_parent h' i = Some self /\ ~ well_linked h'.
Proof. exact (remove_child_stale h self i). Qed.
Print Assumptions C89_parent_stays.
(** Moving an element, at once, is safe. *)
Theorem C89_move h self q i index h1 h2 : well_linked h -> is_elem h i -> child h self i -> ~ below h i q ->
  h_removeChild h self (HRef i) = EOk h1 -> xml_insert h1 q (ARef i) index = EOk h2 -> well_linked h2.
Proof. exact (move_linked h self q i index h1 h2). Qed.
Print Assumptions C89_move.
Example C89_case : exists h, well_linked h /\ is_elem h 1 /\ child h 0 1 /\ ~ below h 1 2 /\
  exists h1 h2, h_removeChild h 0 (HRef 1) = EOk h1 /\ xml_insert h1 2 (ARef 1) (-1) = EOk h2 /\
    map (hp h1) [0; 1] = [Some (OElem (lit "a") [] [] None); Some (OElem (lit "b") [] [] (Some 0))] /\
    map (hp h2) [0; 1; 2] = [Some (OElem (lit "a") [] [] None); Some (OElem (lit "b") [] [] (Some 2)); Some (OElem (lit "c") [] [1] None)].
Proof.
  eexists. split; [apply editing_well_linked|split; [|split; [|split]]].
  - eapply eds_cons; [apply (ed_new_elem empty_heap (lit "a") [])|].
    eapply eds_cons; [apply (ed_new_elem _ (lit "b") [])|].
    eapply eds_cons; [apply (ed_new_elem _ (lit "c") [])|].
    eapply eds_cons; [eapply (ed_insert_elem _ 0 1 (-1)); [do 4 eexists; reflexivity|eexists; split; reflexivity| |cbn; reflexivity]|apply eds_nil].
    intros H. inversion H as [|q j x H1 (o & Ho & Hin)]; subst. revert H1. destruct j as [|[|[|j]]]; cbn in Ho; inversion Ho; subst; destruct Hin.
  - do 4 eexists; reflexivity.
  - eexists. split; [reflexivity|left; reflexivity].
  - intros H. inversion H as [|q j x H1 (o & Ho & Hin)]; subst. revert H1. destruct j as [|[|[|j]]]; cbn in Ho; inversion Ho; subst; cbn in Hin; intuition discriminate.
  - do 2 eexists. split; [cbn; reflexivity|]. split; [cbn; reflexivity|]. split; reflexivity.
Qed.

(** ** C90 *)
Theorem C90_attributes h self n a ks p l : hp h self = Some (OElem n a ks p) ->
  exists h' a', h_set_attributes h self l = EOk h' /\ hp h' self = Some (OElem n a' ks p) /\ (forall k, k <> self -> hp h' k = hp h k) /\
    (forall name, Forall (fun kv => ~ attr_of (fst kv) name) l -> dict_get a' name = dict_get a name) /\
    (forall l1 k v l2 name, l = l1 ++ (k, v) :: l2 -> attr_of k name -> Forall (fun kv => ~ attr_of (fst kv) name) l2 -> dict_get a' name = Some v).
Proof. exact (set_attributes_heap h self n a ks p l). Qed.
Print Assumptions C90_attributes.
Example C90_case : set_attributes [(lit "k", lit "v"); (lit "id", lit "1")]
  [(KStr (lit "id"), lit "2"); (KStr (lit "xmlns:x"), lit "u"); (KTuple (Some (lit "xlink")) (lit "href") (lit "ns"), lit "h")] =
  [(lit "k", lit "v"); (lit "id", lit "2"); (lit "href", lit "h")].
Proof. reflexivity. Qed.

(** ** C91 *)
Theorem C91_name_plain u name ns : name <> [] -> ~ In 58%N name -> x_name (eclass u (Some name) ns) = name.
Proof. exact (eclass_plain u name ns). Qed.
Print Assumptions C91_name_plain.
Theorem C91_name_colon u pre loc ns : ~ In 58%N loc -> x_name (eclass u (Some (pre ++ 58%N :: loc)) ns) = loc.
Proof. exact (eclass_colon u pre loc ns). Qed.
Print Assumptions C91_name_colon.
Theorem C91_unnamed u name ns : name = None \/ name = Some [] -> x_name (eclass u name ns) = nameless /\ he_name (eclass u name ns) = name.
Proof. exact (eclass_unnamed u name ns). Qed.
Print Assumptions C91_unnamed.
(** html5lib reads back the name and namespace it asked for exactly in these cases. *)
Theorem C91_tuple u name ns : he_nameTuple (eclass u name ns) = (ns, name) <->
  (forall s, name = Some s -> ~ In 58%N s) /\ (ns = None \/ (u = false /\ ns = Some html_namespace)).
Proof. exact (eclass_tuple u name ns). Qed.
Print Assumptions C91_tuple.
(** A clone forgets them. *)
Theorem C91_clone_refuted : exists name, he_nameTuple (eclass false (Some name) (Some html_namespace)) = (Some html_namespace, Some name) /\
  x_name (c_clone (eclass false (Some name) (Some html_namespace))) = name /\
  he_nameTuple (c_clone (eclass false (Some name) (Some html_namespace))) = (None, Some name).
Proof. exists (lit "b"). split; [|split]; reflexivity. Qed.
Print Assumptions C91_clone_refuted.
(** A clone has forgotten the namespace, and html5lib's name if it has none of its own. *)
Theorem C91_clone u name ns : he_nameTuple (c_clone (eclass u name ns)) = (None, Some (x_name (eclass u name ns))).
Proof. exact (clone_tuple (eclass u name ns)). Qed.
Print Assumptions C91_clone.
Example C91_case : he_nameTuple (eclass false (Some (lit "svg")) (Some (lit "http://www.w3.org/2000/svg"))) = (None, Some (lit "svg")) /\
  he_nameTuple (eclass false (Some (lit "o:p")) (Some html_namespace)) = (None, Some (lit "p")) /\
  he_nameTuple (eclass false None (Some html_namespace)) = (Some html_namespace, None).
Proof. split; [|split]; reflexivity. Qed.

(** ** C92 *)
Theorem C92_first_element l i : first_element l = Some i <-> exists a b, l = a ++ RElement i :: b /\ forall j, ~ In (RElement j) a.
Proof. exact (first_element_spec l i). Qed.
Print Assumptions C92_first_element.
Theorem C92_no_element l : first_element l = None <-> forall j, ~ In (RElement j) l.
Proof. exact (first_element_none l). Qed.
Print Assumptions C92_no_element.
Theorem C92_lax h t nt at_ head body rest pt nb ab top ks pb :
  hp h t = Some (OElem nt at_ (head :: body :: rest) pt) -> hp h body = Some (OElem nb ab (top :: ks) pb) -> is_elem h top -> top <> body ->
  exists h', parse_lax h (Some t) = LaxOk h' top /\ hp h' body = Some (OElem nb ab ks pb) /\
    (forall o, hp h top = Some o -> hp h' top = Some (set_parent o None)) /\ (forall k, k <> body -> k <> top -> hp h' k = hp h k).
Proof. exact (parse_lax_ok h t nt at_ head body rest pt nb ab top ks pb). Qed.
Print Assumptions C92_lax.
Theorem C92_lax_linked h t h' top : well_linked h -> is_elem h top -> parse_lax h t = LaxOk h' top -> well_linked h'.
Proof. exact (parse_lax_linked h t h' top). Qed.
Print Assumptions C92_lax_linked.
(** An empty body: IndexError, not the ValueError that the code means to raise. *)
Theorem C92_lax_empty h t nt at_ head body rest pt nb ab pb :
  hp h t = Some (OElem nt at_ (head :: body :: rest) pt) -> hp h body = Some (OElem nb ab [] pb) -> parse_lax h (Some t) = LaxIndexError.
Proof. exact (parse_lax_empty h t nt at_ head body rest pt nb ab pb). Qed.
Print Assumptions C92_lax_empty.
Definition lax_heap : heap := mkH (fun j => match j with
  | 0 => Some (OElem (lit "html") [] [1; 2] None) | 1 => Some (OElem (lit "head") [] [] (Some 0))
  | 2 => Some (OElem (lit "body") [] [3; 4] (Some 0)) | 3 => Some (OElem (lit "a") [] [] (Some 2))
  | 4 => Some (OText (lit "t") (Some 2)) | _ => None end) 5.
Example C92_case : first_element [RDoctype; RComment (lit "x"); RElement 0; RElement 7] = Some 0 /\
  exists h', parse_lax lax_heap (Some 0) = LaxOk h' 3 /\
    map (hp h') [2; 3] = [Some (OElem (lit "body") [] [4] (Some 0)); Some (OElem (lit "a") [] [] None)].
Proof. split; [reflexivity|]. eexists. split; [cbn; reflexivity|reflexivity]. Qed.
