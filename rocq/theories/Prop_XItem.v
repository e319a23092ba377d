(** Theorems about steps of MicroXPath (uxpath/xast.py) from strings, numbers, booleans, attributes,
    text nodes and the root. *)
From Verif Require Import PyStr XTree Path XPath XPathSpec XPathFacts XItemSpec XItemFacts.

(** ** C124 *)
(** A value passes "*"; a string also passes node() and text(). *)
Theorem C124_values_self w n t v : value_item v -> exists l, only_if (passes_test t v) v l /\
  eval w n (ETest t) v = (l, Done) /\ eval w n (EStep AxSelf t) v = (l, Done) /\
  eval w n (EStep AxAncestorOrSelf t) v = (l, Exn AttributeErr) /\ eval w n (EStep AxDescendantOrSelf t) v = (l, Exn AttributeErr).
Proof. exact (values_self w n t v). Qed.
Print Assumptions C124_values_self.
Theorem C124_values_other w n ax t v : value_item v -> ~ In ax [AxSelf; AxAncestorOrSelf; AxDescendantOrSelf; AxAttribute] ->
  eval w n (EStep ax t) v = ([], Exn AttributeErr).
Proof. exact (values_other w n ax t v). Qed.
Print Assumptions C124_values_other.
Theorem C124_values_rest w n t v : value_item v -> eval w n (EStep AxAttribute t) v = ([], Done) /\ eval w n (EAbbrev false) v = ([v], Done) /\
  eval w n (EAbbrev true) v = ([], Exn AttributeErr) /\ forall d r, eval w n (EAbs d r) v = ([], Exn AssertionErr).
Proof. exact (values_rest w n t v). Qed.
Print Assumptions C124_values_rest.

(** An attribute passes "*" and node(), not its own name. *)
Theorem C124_attr_self w n t a k v o : exists l, only_if (passes_test t (IAttr a k v o)) (IAttr a k v o) l /\
  eval w n (ETest t) (IAttr a k v o) = (l, Done) /\ eval w n (EStep AxSelf t) (IAttr a k v o) = (l, Done) /\
  eval w n (EStep AxDescendantOrSelf t) (IAttr a k v o) = (l, Exn AttributeErr).
Proof. exact (attr_self w n t a k v o). Qed.
Print Assumptions C124_attr_self.
Theorem C124_attr_up w n t a m ats ks k v o : subtree (doc w) a = Some (XE m ats ks) ->
  selects w (fun b x => b = a /\ passes t x) (eval w n (EStep AxParent t) (IAttr a k v o)) /\
  eval w n (EAbbrev true) (IAttr a k v o) = ([INode a], Done) /\
  exists l, listing (doc w) (fun b x => (b = a \/ above b a) /\ passes t x) l /\ eval w n (EStep AxAncestor t) (IAttr a k v o) = (rev (nodes l), Exn AssertionErr).
Proof. exact (attr_up w n t a m ats ks k v o). Qed.
Print Assumptions C124_attr_up.
Theorem C124_attr_other w n ax t a k v o :
  (In ax [AxChild; AxDescendant] -> eval w n (EStep ax t) (IAttr a k v o) = ([], Exn AttributeErr)) /\
  (In ax [AxFollowing; AxFollowingSibling; AxPreceding; AxPrecedingSibling] -> eval w n (EStep ax t) (IAttr a k v o) = ([], Exn ValueErr)) /\
  (ax = AxAttribute -> eval w n (EStep ax t) (IAttr a k v o) = ([], Done)) /\
  (ax = AxAncestorOrSelf -> snd (eval w n (EStep ax t) (IAttr a k v o)) = Cut) /\
  forall d r, eval w n (EAbs d r) (IAttr a k v o) = ([], Exn AssertionErr).
Proof. exact (attr_other w n ax t a k v o). Qed.
Print Assumptions C124_attr_other.

(** From a text node the ancestors come, and then an exception in place of the root. *)
Theorem C124_text_up w n t a s : subtree (doc w) a = Some (XT s) ->
  (exists l, listing (doc w) (fun b x => above b a /\ passes t x) l /\ eval w n (EStep AxAncestor t) (INode a) = (rev (nodes l), Exn AssertionErr)) /\
  forall d r, eval w n (EAbs d r) (INode a) = ([], Exn AssertionErr).
Proof. exact (text_up w n t a s). Qed.
Print Assumptions C124_text_up.
(** The root is its own parent and ancestor, whatever the node test. *)
Theorem C124_root w n ax t :
  (In ax [AxFollowing; AxFollowingSibling; AxPreceding; AxPrecedingSibling; AxAttribute] -> eval w n (EStep ax t) IRoot = ([], Done)) /\
  (In ax [AxParent; AxAncestor] -> eval w n (EStep ax t) IRoot = ([IRoot], Done)) /\ eval w n (EAbbrev true) IRoot = ([IRoot], Done).
Proof. exact (root_steps w n ax t). Qed.
Print Assumptions C124_root.

Definition item_doc : xtree := XE (lit "a") [] [XT (lit "t"); XE (lit "b") [(lit "i", lit "1")] []].
Definition item_env : env := mkEnv item_doc [] (fun _ => inr RuntimeErr) (fun _ => None) (fun _ => []).
(** As reached by queries: ('x',1)/self::node(), /a/b/@i/self::i, /a/b/@i/ancestor::*, /a/text()/ancestor::a, ancestor::x at the root. *)
Example C124_case : let q e := eval item_env 0 e IRoot in let p l r := EBin l OpPath r in let self := EStep AxSelf in
  let kid n := EStep AxChild (TName n) in let att := EAbs false (Some (p (p (kid (lit "a")) (kid (lit "b"))) (EStep AxAttribute (TName (lit "i"))))) in
  q (p (ESeq [ELit (LStr (lit "x")); ELit (LInt 1)]) (self TNode)) = ([IStr (lit "x")], Done) /\
  q (p (ESeq [ELit (LStr (lit "x")); ELit (LInt 1)]) (self TStar)) = ([IStr (lit "x"); IInt 1], Done) /\
  q (p (ELit (LStr (lit "x"))) (self TText)) = ([IStr (lit "x")], Done) /\ q (p (ELit (LStr (lit "x"))) (EStep AxParent TStar)) = ([], Exn AttributeErr) /\
  q att = ([IAttr [1] (lit "i") (lit "1") Made], Done) /\ q (p att (self (TName (lit "i")))) = ([], Done) /\
  q (p att (self TNode)) = ([IAttr [1] (lit "i") (lit "1") Made], Done) /\ q (p att (self TText)) = ([], Done) /\
  q (p att (EStep AxAncestor TStar)) = ([INode [1]; INode []], Exn AssertionErr) /\ q (p att (EStep AxFollowing TStar)) = ([], Exn ValueErr) /\
  q (p (p (kid (lit "a")) (EStep AxChild TText)) (EStep AxAncestor (TName (lit "a")))) = ([INode []], Exn AssertionErr) /\ q (EStep AxAncestor (TName (lit "x"))) = ([IRoot], Done) /\
  value_item (IInt 1) /\ passes_test TNode (IStr (lit "x")) /\ ~ passes_test TNode (IInt 1) /\ subtree item_doc [1] = Some (XE (lit "b") [(lit "i", lit "1")] []) /\
  subtree item_doc [0] = Some (XT (lit "t")).
Proof.
  cbv zeta. do 12 (split; [vm_compute; reflexivity|]). split; [exact I|]. split; [constructor|]. split; [intros H; inversion H|]. split; reflexivity.
Qed.
