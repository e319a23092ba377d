(** Theorems about MicroXPath (uxpath/xast.py, uxpath/functions.py, uxpath/__init__.py). *)
From Verif Require Import PyStr Parser ParserInv XTree Heap Builder HeapSpec BuilderFacts BuilderMore Path PatternSpec TreeUtil XPath XPathSpec XPathFacts XPathFuel XPathMore XPathExpr XPathFun XPathLast.
From Verif Require Import RootCache RootSpec RootFacts.
From Coq Require Import Permutation.

(** ** The cases of test/uxml/test_uxpath.py *)
Definition el (n : string) (ks : list xtree) : xtree := XE (lit n) [] ks.
Definition tx (s : string) : xtree := XT (lit s).
Definition N1 : xtree := el "a" [tx "+1+"; XE (lit "b") [(lit "i", lit "1.1")] [tx "+2+"; el "x" [tx "1"]];
  XE (lit "c") [(lit "i", lit "1.2")] [el "x" [tx "2"]; el "d" [el "x" [tx "3"]]]; el "x" [tx "4"]; el "y" [tx "5"]].
Definition N10 : xtree := el "a" [el "b" [tx "1"]; el "b" [tx "2"]; el "b" [tx "3"]].
Definition N14 : xtree := el "a" [el "b" [el "x" [tx "1"]]; el "b" [el "x" [tx "2"]]; el "b" [el "x" [tx "3"]]; el "b" [el "x" [tx "4"]]].
Definition child (n : string) : expr := EStep AxChild (TName (lit n)).
Definition star : expr := EStep AxChild TStar.
Definition dot : expr := EAbbrev false.
Infix "/_" := (fun l r => EBin l OpPath r) (at level 40, left associativity).
Definition fn (f : string) (l : list expr) : expr := ECall (lit f) l.
Definition slit (s : string) : expr := ELit (LStr (lit s)).
Definition ilit (z : Z) : expr := ELit (LInt z).
Definition syntax (s : str) : expr + xexn :=
  if str_eqb s (lit "name(.)") then inl (fn "name" [dot]) else if str_eqb s (lit "name()") then inl (fn "name" [])
  else if str_eqb s (lit "x") then inl (child "x") else if str_eqb s (lit "name(x)") then inl (fn "name" [child "x"]) else inr RuntimeErr.
Definition doc_env (t : xtree) : env := mkEnv t [(lit "a", IInt 1); (lit "b", IStr (lit "x")); (lit "a1", INode [])] syntax
  (fun s => if str_eqb s (lit "2") then Some (FFin 2 0) else None) (fun _ => lit "?").
(** As the test shows nodes: the name and the text of the text children. *)
Definition show (t : xtree) (i : item) : str * str + item :=
  match i with
  | INode a => match subtree t a with
               | Some (XE n _ ks) => inl (n, flat_map (fun k => match k with XT s => s | _ => [] end) ks)
               | Some (XT s) => inl (lit "#text", s)
               | None => inr i
               end
  | IRoot => inl (lit "", lit "")
  | _ => inr i
  end.
Definition case (t : xtree) (e : expr) : list (str * str + item) * fin :=
  let '(l, f) := eval (doc_env t) 3 e IRoot in (map (show t) l, f).
Definition n_ (a b : string) : str * str + item := inl (lit a, lit b).
Definition v_ (i : item) : str * str + item := inr i.
Definition e0 : list (str * str + item) := [].
Example relative_cases : map (case N1)
  [child "a"; star; child "b"; child "b" /_ child "x"; EPred (child "b") [child "x"]; child "a" /_ child "b"; child "a" /_ star;
   child "a" /_ child "b" /_ child "x"; child "a" /_ child "b" /_ star; EPred (child "a" /_ child "b") [child "x"];
   EPred (EAbs false (Some (child "a" /_ child "c" /_ child "d"))) [child "x"];
   EPred (EAbs false (Some (child "a" /_ child "c"))) [child "d" /_ child "x"]; child "a" /_ child "c" /_ child "x";
   ESeq [child "a" /_ child "b" /_ child "x"; child "a" /_ child "c" /_ child "x"]] =
  map (fun l => (l, Done))
  [[n_ "a" "+1+"]; [n_ "a" "+1+"]; []; []; []; [n_ "b" "+2+"]; [n_ "b" "+2+"; n_ "c" ""; n_ "x" "4"; n_ "y" "5"];
   [n_ "x" "1"]; [n_ "x" "1"]; [n_ "b" "+2+"]; [n_ "d" ""]; [n_ "c" ""]; [n_ "x" "2"]; [n_ "x" "1"; n_ "x" "2"]].
Proof. vm_compute. reflexivity. Qed.
Example absolute_cases : map (case N1) [EAbs false None; EAbs false (Some (child "a")); EAbs true (Some star); EAbs true (Some (EStep AxChild TNode))] =
  map (fun l => (l, Done))
  [[n_ "" ""]; [n_ "a" "+1+"];
   [n_ "a" "+1+"; n_ "b" "+2+"; n_ "c" ""; n_ "x" "4"; n_ "y" "5"; n_ "x" "1"; n_ "x" "2"; n_ "d" ""; n_ "x" "3"];
   [n_ "" ""; n_ "a" "+1+"; n_ "#text" "+1+"; n_ "b" "+2+"; n_ "c" ""; n_ "x" "4"; n_ "y" "5"; n_ "#text" "+2+"; n_ "x" "1"; n_ "#text" "1";
    n_ "x" "2"; n_ "d" ""; n_ "#text" "2"; n_ "x" "3"; n_ "#text" "3"; n_ "#text" "4"; n_ "#text" "5"]].
Proof. vm_compute. reflexivity. Qed.
Example sequence_cases : map (case N1) [ESeq []; ESeq [ilit 1; ilit 2]; ESeq [slit "a"; slit "b"; slit "c"];
    EPred (ESeq [ilit 1; ilit 2; ilit 3; ilit 4; ilit 5]) [EBin dot OpGt (ilit 3)]] =
  map (fun l => (l, Done)) [[]; [v_ (IInt 1); v_ (IInt 2)]; [v_ (IStr (lit "a")); v_ (IStr (lit "b")); v_ (IStr (lit "c"))]; [v_ (IInt 4); v_ (IInt 5)]].
Proof. vm_compute. reflexivity. Qed.
Definition sibs (k : option Z) (ax : axis) (t : ntest) : expr :=
  (match k with Some k => EPred (child "a" /_ child "b") [ilit k] | None => child "a" /_ child "b" end) /_ EStep ax t.
Example axis_cases : map (case N10)
  [EPred (child "a" /_ child "b") [ilit 2]; sibs (Some 2%Z) AxPrecedingSibling (TName (lit "b")); sibs (Some 2%Z) AxPrecedingSibling TStar;
   sibs (Some 1%Z) AxPrecedingSibling TStar; sibs None AxPrecedingSibling (TName (lit "b")); sibs (Some 2%Z) AxFollowingSibling TStar;
   sibs (Some 3%Z) AxFollowingSibling TStar; sibs None AxFollowingSibling (TName (lit "b"))] =
  map (fun l => (l, Done))
  [[n_ "b" "2"]; [n_ "b" "1"]; [n_ "b" "1"]; []; [n_ "b" "1"; n_ "b" "2"; n_ "b" "1"]; [n_ "b" "3"]; []; [n_ "b" "2"; n_ "b" "3"; n_ "b" "3"]].
Proof. vm_compute. reflexivity. Qed.
Example predicate_cases : map (case N1)
  [child "a" /_ EStep AxChild TText; EPred (child "a") [fn "starts-with" [dot; slit "+"]]; EPred (child "a" /_ child "b") [fn "starts-with" [dot; slit "+"]];
   EPred (child "a") [fn "not" [fn "starts-with" [dot; slit "+"]]]; EPred (child "a") [fn "contains" [dot; slit "+"]];
   EPred (child "a") [fn "not" [fn "contains" [dot; slit "+"]]]] =
  map (fun l => (l, Done)) [[n_ "#text" "+1+"]; [n_ "a" "+1+"]; [n_ "b" "+2+"]; []; [n_ "a" "+1+"]; []].
Proof. vm_compute. reflexivity. Qed.
Example function_cases : map (case N14)
  [fn "count" [child "a" /_ child "b"]; fn "for-each" [child "a" /_ child "b"; slit "name(.)"]; fn "for-each" [child "a" /_ child "b"; slit "name()"];
   fn "for-each" [child "a" /_ child "b"; slit "x"]; fn "for-each" [child "a" /_ child "b"; slit "name(x)"]] =
  map (fun l => (l, Done)) [[v_ (IInt 4)]; repeat (v_ (IStr (lit "b"))) 4; repeat (v_ (IStr (lit "b"))) 4; [n_ "x" "1"; n_ "x" "2"; n_ "x" "3"; n_ "x" "4"]; repeat (v_ (IStr (lit "x"))) 4]
  /\ case N1 (fn "substring" [child "a"; ilit 2; ilit 1]) = ([v_ (IStr (lit "1"))], Done).
Proof. vm_compute. split; reflexivity. Qed.
Example typecast_cases : map (case N1) [fn "boolean" [child "a"]; fn "boolean" [child "x"]; fn "boolean" [child "x" /_ child "y"]; fn "number" [child "a" /_ child "c" /_ child "x"];
    EVar (lit "a"); EVar (lit "a1")] =
  map (fun l => (l, Done)) [[v_ (IBool true)]; [v_ (IBool false)]; [v_ (IBool false)]; [v_ (IFlt (FFin 2 0))]; [v_ (IInt 1)]; [n_ "a" "+1+"]].
Proof. vm_compute. reflexivity. Qed.

Lemma check_text w : forallb (fun x => match snd x with XT [] => false | _ => true end) (all_nodes (doc w)) = true -> no_empty_text w.
Proof.
  intros H a s Ha ->. rewrite forallb_forall in H. apply all_nodes_in in Ha. apply H in Ha. discriminate.
Qed.
Lemma N1_text : no_empty_text (doc_env N1). Proof. apply check_text. reflexivity. Qed.
Lemma N1_document : document (doc_env N1). Proof. repeat eexists. Qed.
Ltac node_in := eexists; reflexivity.

(** ** C50 *)
Theorem C50_child w n t c : tree_item w c -> is_name_test t = true \/ no_empty_text w ->
  selects w (fun b u => child_of c b /\ child_passes t u) (eval w n (EStep AxChild t) c).
Proof. rewrite eval_step. exact (child_axis w n t c). Qed.
Print Assumptions C50_child.
Example C50_case : tree_item (doc_env N1) (INode [1]) /\ no_empty_text (doc_env N1) /\
  map (fun t => eval (doc_env N1) 0 (EStep AxChild t) (INode [1])) [TStar; TName (lit "x"); TName (lit "y"); TText; TNode] =
  [([INode [1; 1]], Done); ([INode [1; 1]], Done); ([], Done); ([INode [1; 0]], Done); ([INode [1; 0]; INode [1; 1]], Done)].
Proof. split; [node_in|]. split; [exact N1_text|reflexivity]. Qed.

(** ** C51 *)
Theorem C51_descendant w n t c : tree_item w c -> no_empty_text w ->
  selects w (fun b u => below_item c b /\ passes t u) (eval w n (EStep AxDescendant t) c).
Proof. rewrite eval_step. exact (descendant_axis w n t c). Qed.
Print Assumptions C51_descendant.
Theorem C51_or_self w n t a u : no_empty_text w -> subtree (doc w) a = Some u ->
  selects w (fun b v => (b = a \/ above a b) /\ passes t v) (eval w n (EStep AxDescendantOrSelf t) (INode a)).
Proof. rewrite eval_step. exact (descendant_or_self_axis w n t a u). Qed.
Print Assumptions C51_or_self.
Theorem C51_or_root w n t : no_empty_text w -> exists l, listing (doc w) (fun _ v => passes t v) l /\
  ((root_passes t /\ eval w n (EStep AxDescendantOrSelf t) IRoot = (IRoot :: nodes l, Done)) \/
   (~ root_passes t /\ eval w n (EStep AxDescendantOrSelf t) IRoot = (nodes l, Done))).
Proof. rewrite eval_step. exact (descendant_or_self_root w n t). Qed.
Print Assumptions C51_or_root.
Example C51_case : eval (doc_env N1) 0 (EStep AxDescendant (TName (lit "x"))) (INode [2]) = ([INode [2; 0]; INode [2; 1; 0]], Done) /\
  eval (doc_env N1) 0 (EStep AxDescendantOrSelf (TName (lit "c"))) (INode [2]) = ([INode [2]], Done).
Proof. split; reflexivity. Qed.
(** descendant::* yields text nodes, unlike child::* . *)
Theorem C51_star_refuted : exists w n c i s, tree_item w c /\ no_empty_text w /\ In (INode i) (fst (eval w n (EStep AxDescendant TStar) c)) /\ subtree (doc w) i = Some (XT s).
Proof. exists (doc_env N1), 0, IRoot, [0], (lit "+1+"). split; [exact I|]. split; [exact N1_text|]. split; [right; left; reflexivity|reflexivity]. Qed.
Print Assumptions C51_star_refuted.

(** ** C52 *)
Theorem C52_following w n t p i u : no_empty_text w -> subtree (doc w) (p ++ [i]) = Some u -> is_element u ->
  selects w (fun b v => later_sibling p i b /\ passes t v) (eval w n (EStep AxFollowingSibling t) (INode (p ++ [i]))).
Proof. rewrite eval_step. exact (following_sibling_axis w n t p i u). Qed.
Print Assumptions C52_following.
Theorem C52_preceding w n t p i u : no_empty_text w -> subtree (doc w) (p ++ [i]) = Some u -> is_element u ->
  selects_back w (fun b v => earlier_sibling p i b /\ passes t v) (eval w n (EStep AxPrecedingSibling t) (INode (p ++ [i]))).
Proof. rewrite eval_step. exact (preceding_sibling_axis w n t p i u). Qed.
Print Assumptions C52_preceding.
Example C52_case : eval (doc_env N1) 0 (EStep AxPrecedingSibling TNode) (INode ([] ++ [3])) = ([INode [2]; INode [1]; INode [0]], Done) /\
  eval (doc_env N1) 0 (EStep AxFollowingSibling TStar) (INode ([] ++ [2])) = ([INode [3]; INode [4]], Done).
Proof. split; reflexivity. Qed.
(** Not for text nodes: they are looked up by equality. *)
Definition twins : env := doc_env (el "a" [tx "x"; el "b" []; tx "x"]).
Theorem C52_text_refuted : exists w n p i s, no_empty_text w /\ subtree (doc w) (p ++ [i]) = Some (XT s) /\
  ~ selects w (fun b v => later_sibling p i b /\ passes TNode v) (eval w n (EStep AxFollowingSibling TNode) (INode (p ++ [i]))).
Proof.
  exists twins, 0, [], 2, (lit "x"). split; [apply check_text; reflexivity|]. split; [reflexivity|]. intros (l & [_ Hl] & E).
  change (([INode [1]; INode [2]], Done) = (nodes l, Done)) in E. inversion E as [E']. destruct l as [|[a u] l]; [discriminate|]. cbn in E'. inversion E'; subst.
  destruct (proj1 (Hl [1] u)) as (_ & (j & Ej & Hj) & _); [left; reflexivity|]. inversion Ej; subst. lia.
Qed.
Print Assumptions C52_text_refuted.

(** ** C53 *)
Theorem C53_ancestor w n t a u : subtree (doc w) a = Some u -> is_element u ->
  exists l, listing (doc w) (fun b v => above b a /\ passes t v) l /\ eval w n (EStep AxAncestor t) (INode a) = (rev (nodes l) ++ [IRoot], Done).
Proof. rewrite eval_step. exact (ancestor_axis w n t a u). Qed.
Print Assumptions C53_ancestor.
Theorem C53_parent w n t p i u : subtree (doc w) (p ++ [i]) = Some u ->
  selects w (fun b v => b = p /\ passes t v) (eval w n (EStep AxParent t) (INode (p ++ [i]))).
Proof. rewrite eval_step. exact (parent_axis w n t p i u). Qed.
Print Assumptions C53_parent.
Theorem C53_parent_root w n t : document w -> eval w n (EStep AxParent t) (INode []) = ([IRoot], Done) /\ eval w n (EAbbrev true) (INode []) = ([IRoot], Done).
Proof. exact (parent_root w n t). Qed.
Print Assumptions C53_parent_root.
Theorem C53_abbrev w n p i : eval w n (EAbbrev true) (INode (p ++ [i])) = ([INode p], Done).
Proof. exact (abbrev_up w n p i). Qed.
Print Assumptions C53_abbrev.
Example C53_case : eval (doc_env N1) 0 (EStep AxAncestor TStar) (INode [2; 1; 0]) = ([INode [2; 1]; INode [2]; INode []; IRoot], Done) /\
  eval (doc_env N1) 0 (EStep AxParent (TName (lit "d"))) (INode ([2; 1] ++ [0])) = ([INode [2; 1]], Done) /\
  eval (doc_env N1) 0 (EStep AxParent (TName (lit "c"))) (INode ([2; 1] ++ [0])) = ([], Done).
Proof. split; [|split]; reflexivity. Qed.

(** ** C54 *)
Theorem C54_preceding w n t p i u : subtree (doc w) (p ++ [i]) = Some u -> eval w n (EStep AxPreceding t) (INode (p ++ [i])) = ([], Done).
Proof. exact (preceding_nothing w n t p i u). Qed.
Print Assumptions C54_preceding.
(** following: only what is in later siblings. *)
Theorem C54_following w n t p i u : no_empty_text w -> subtree (doc w) (p ++ [i]) = Some u -> is_element u ->
  selects w (fun b v => in_later_sibling p i b /\ passes t v) (eval w n (EStep AxFollowing t) (INode (p ++ [i]))).
Proof. rewrite eval_step. exact (following_axis w n t p i u). Qed.
Print Assumptions C54_following.
Theorem C54_following_refuted : exists w n t a u, no_empty_text w /\ subtree (doc w) a = Some u /\ is_element u /\
  ~ selects w (fun b v => (doc_before a b /\ ~ above a b) /\ passes t v) (eval w n (EStep AxFollowing t) (INode a)).
Proof.
  exists (doc_env N1), 0, TNode, [1; 1], (el "x" [tx "1"]). split; [exact N1_text|]. split; [reflexivity|]. split; [repeat eexists|]. intros (l & [_ Hl] & E).
  change (([], Done) = (nodes l, Done)) in E. destruct l as [|x l]; [|discriminate].
  apply (Hl [2] (XE (lit "c") [(lit "i", lit "1.2")] [el "x" [tx "2"]; el "d" [el "x" [tx "3"]]])). split; [reflexivity|]. split; [|exact I].
  split; [apply db_later; lia|]. intros (j & r & K). discriminate.
Qed.
Print Assumptions C54_following_refuted.
(** ancestor-or-self never ends below the document element: no number of rounds is enough. *)
Theorem C54_ancestor_or_self w n t p i u : subtree (doc w) (p ++ [i]) = Some u -> snd (eval w n (EStep AxAncestorOrSelf t) (INode (p ++ [i]))) = Cut.
Proof. exact (ancestor_or_self_cut w n t p i u). Qed.
Print Assumptions C54_ancestor_or_self.
Theorem C54_ancestor_or_self_top w n t c : c = IRoot \/ c = INode [] -> exists l, eval w n (EStep AxAncestorOrSelf t) c = (l, Exn AssertionErr).
Proof. exact (ancestor_or_self_top w n t c). Qed.
Print Assumptions C54_ancestor_or_self_top.
Example C54_case : eval (doc_env N1) 3 (EStep AxAncestorOrSelf TStar) (INode ([1] ++ [1])) = ([INode [1; 1]; INode [1]; INode [1]; INode [1]], Cut).
Proof. reflexivity. Qed.

(** ** C55 *)
Theorem C55_grouped w n t c : no_empty_text w -> c = IRoot \/ element_item w c ->
  exists all groups, listing (doc w) (fun _ _ => True) all /\
    Forall2 (fun p g => listing (doc w) (fun b u => child_of p b /\ child_passes t u) g) (IRoot :: nodes all) groups /\
    eval w n (EAbs true (Some (EStep AxChild t))) c = ((match t with TNode => [IRoot] | _ => [] end) ++ concat (map nodes groups), Done).
Proof. exact (deep_grouped w n t c). Qed.
Print Assumptions C55_grouped.
Theorem C55_once w n t c : no_empty_text w -> c = IRoot \/ element_item w c -> t <> TNode ->
  exists l out, listing (doc w) (fun _ u => child_passes t u) l /\ eval w n (EAbs true (Some (EStep AxChild t))) c = (out, Done) /\ Permutation out (nodes l).
Proof. exact (deep_exactly_once w n t c). Qed.
Print Assumptions C55_once.
(** Any relative path after //: evaluated at the root and at every node in document order. *)
Theorem C55_any w n e c all outs : no_empty_text w -> c = IRoot \/ element_item w c -> just_node e = false -> listing (doc w) (fun _ _ => True) all ->
  Forall2 (fun p o => eval w n e p = (o, Done)) (IRoot :: nodes all) outs -> eval w n (EAbs true (Some e)) c = (concat outs, Done).
Proof. exact (deep_any w n e c all outs). Qed.
Print Assumptions C55_any.
Example C55_case : element_item (doc_env N1) (INode [2; 1]) /\
  eval (doc_env N1) 0 (EAbs true (Some (child "x"))) (INode [2; 1]) = ([INode [3]; INode [1; 1]; INode [2; 0]; INode [2; 1; 0]], Done).
Proof. split; [repeat eexists|reflexivity]. Qed.
(** Not in document order, although XPath has it so. *)
Theorem C55_order_refuted : exists w n t c, no_empty_text w /\ c = IRoot /\
  ~ selects w (fun _ u => child_passes t u) (eval w n (EAbs true (Some (EStep AxChild t))) c).
Proof.
  exists (doc_env N1), 0, (TName (lit "x")), IRoot. split; [exact N1_text|]. split; [reflexivity|]. intros (l & [S _] & E).
  change (([INode [3]; INode [1; 1]; INode [2; 0]; INode [2; 1; 0]], Done) = (nodes l, Done)) in E. inversion E as [E'].
  destruct l as [|[a u] [|[b v] l]]; try discriminate. cbn in E'. inversion E'; subst. cbn in S. inversion S as [|x y S' F]; subst. inversion F as [|x y K _]; subst.
  inversion K; subst; lia.
Qed.
Print Assumptions C55_order_refuted.

(** ** C56 *)
Theorem C56_step w n l ax t c : eval w n (EBin l OpDeep (EStep ax t)) c = eval w n (EBin l OpPath (EStep AxDescendantOrSelf t)) c.
Proof. exact (deep_step w n l ax t c). Qed.
Print Assumptions C56_step.
Theorem C56_below w n l ax t c addrs : no_empty_text w -> Forall (fun a => subtree (doc w) a <> None) addrs -> eval w n l c = (map INode addrs, Done) ->
  exists groups, Forall2 (fun a g => listing (doc w) (fun b v => (b = a \/ above a b) /\ passes t v) g) addrs groups /\
    eval w n (EBin l OpDeep (EStep ax t)) c = (concat (map nodes groups), Done).
Proof. exact (deep_below w n l ax t c addrs). Qed.
Print Assumptions C56_below.
(** Anything but a single step after an inner // : no descent at all. *)
Theorem C56_other w n l r c : (forall ax t, r <> EStep ax t) -> eval w n (EBin l OpDeep r) c = eval w n (EBin l OpPath r) c.
Proof. exact (deep_other w n l r c). Qed.
Print Assumptions C56_other.
Example C56_case : eval (doc_env N1) 0 (EBin (child "a") OpDeep (child "a")) IRoot = ([INode []], Done) /\
  eval (doc_env N1) 0 (EBin (child "a") OpDeep (EStep AxAttribute (TName (lit "i")))) IRoot = ([], Done) /\
  eval (doc_env N1) 0 (child "a" /_ child "b" /_ EStep AxAttribute (TName (lit "i"))) IRoot = ([IAttr [1] (lit "i") (lit "1.1") Made], Done) /\
  eval (doc_env N1) 0 (EBin (child "a") OpDeep dot) IRoot = ([INode []], Done).
Proof. repeat split. Qed.

(** ** C57 *)
Theorem C57_predicates w n e ps c items : eval w n e c = (items, Done) ->
  (forall i p j, In i items -> In p ps -> moved w c i j -> exists v, first_value (eval w n p j) v /\ usable v) ->
  exists out, kept (fun pos i => forall p j v, In p ps -> moved w c i j -> first_value (eval w n p j) v -> holds_as w v pos) 1 items out /\
    eval w n (EPred e ps) c = (out, Done).
Proof. exact (predicates_kept w n e ps c items). Qed.
Print Assumptions C57_predicates.
(** A predicate that is not a number or infinite is an error at the first item. *)
Theorem C57_unusable w n e p ps c i j items f v x : eval w n e c = (i :: items, f) -> moved w c i j -> first_value (eval w n p j) v ->
  (v = IFlt FNan /\ x = ValueErr) \/ (exists b, v = IFlt (FInf b)) /\ x = OverflowErr -> eval w n (EPred e (p :: ps)) c = ([], Exn x).
Proof. exact (predicates_unusable w n e p ps c i j items f v x). Qed.
Print Assumptions C57_unusable.
Example C57_unusable_case : let w := mkEnv N1 [(lit "k", IFlt FNan)] (fun _ => inr TypeErr) (fun _ => None) (fun _ => []) in
  eval w 0 (EPred (slit "x") [EVar (lit "k")]) IRoot = ([], Exn ValueErr) /\
  first_value (eval w 0 (EVar (lit "k")) (IStr (lit "x"))) (IFlt FNan) /\ moved w IRoot (IStr (lit "x")) (IStr (lit "x")).
Proof. cbv zeta. split; [vm_compute; reflexivity|]. split; [left; exists [], Done; vm_compute; reflexivity|]. left. split; [|reflexivity]. intros [H|[H|[(z & H)|[H|(a & H & _)]]]]; discriminate H. Qed.
Example C57_case : let e := ESeq [slit "x"; slit "y"; slit "z"] in
  eval (doc_env N1) 0 (EPred e [ilit 2]) IRoot = ([IStr (lit "y")], Done) /\
  eval (doc_env N1) 0 (EPred e [EBin dot OpNe (slit "x"); ilit 2]) IRoot = ([IStr (lit "y")], Done) /\
  eval (doc_env N1) 0 (EPred (EPred e [EBin dot OpNe (slit "x")]) [ilit 2]) IRoot = ([IStr (lit "z")], Done) /\
  first_value (eval (doc_env N1) 0 (ilit 2) (IStr (lit "x"))) (IInt 2) /\ usable (IInt 2) /\ holds_as (doc_env N1) (IInt 2) 2 /\ ~ holds_as (doc_env N1) (IInt 2) 1.
Proof.
  cbv zeta. split; [reflexivity|]. split; [reflexivity|]. split; [reflexivity|]. split; [left; exists [], Done; reflexivity|]. split; [split; discriminate|]. split.
  - left. split; [exact I|]. constructor.
  - intros [[_ H]|[H _]]; [inversion H|apply H; exact I].
Qed.

(** ** C58 *)
Theorem C58_union w n l r c ls rs : document w -> parent c <> None -> eval w n l c = (ls, Done) -> eval w n r c = (rs, Done) ->
  (forall i, In i (ls ++ rs) -> element_item w i \/ (i = IRoot /\ c = IRoot)) ->
  exists out, eval w n (EBin l OpUnion r) c = (out, Done) /\ Permutation out (ls ++ rs) /\ StronglySorted item_before out.
Proof. exact (union_sorted w n l r c ls rs). Qed.
Print Assumptions C58_union.
Theorem C58_fails w n l r c ls rs i : eval w n l c = (ls, Done) -> eval w n r c = (rs, Done) -> In i (ls ++ rs) ->
  (forall a u, i = INode a -> subtree (doc w) a = Some u -> ~ is_element u) -> (i = IRoot -> c <> IRoot) -> document w ->
  eval w n (EBin l OpUnion r) c = ([], Exn AttributeErr).
Proof. exact (union_fails_text w n l r c ls rs i). Qed.
Print Assumptions C58_fails.
Example C58_case : parent IRoot <> None /\
  eval (doc_env N1) 0 (EBin (EAbs true (Some (child "x"))) OpUnion (EAbs true (Some (child "b")))) IRoot =
    ([INode [1]; INode [1; 1]; INode [2; 0]; INode [2; 1; 0]; INode [3]], Done) /\
  eval (doc_env N1) 0 (EBin (child "a") OpUnion (child "a")) IRoot = ([INode []; INode []], Done) /\
  eval (doc_env N1) 0 (EBin (child "a") OpUnion (child "a" /_ EStep AxChild TText)) IRoot = ([], Exn AttributeErr).
Proof. split; [discriminate|]. repeat split. Qed.

(** ** C59 *)
Theorem C59_equality w n l r c i ls rs x : eval w n l c = (i :: ls, Done) -> eval w n r c = (rs, Done) -> compared w i x -> (forall j, In j rs -> ~ is_node_item j) ->
  exists b, eval w n (EBin l OpEq r) c = ([IBool b], Done) /\ (b = true <-> exists j, In j rs /\ same_value x j).
Proof. exact (equality_spec w n l r c i ls rs x). Qed.
Print Assumptions C59_equality.
Theorem C59_empty w n l r c : eval w n l c = ([], Done) -> eval w n (EBin l OpEq r) c = ([IBool false], Done).
Proof. exact (equality_empty w n l r c). Qed.
Print Assumptions C59_empty.
Theorem C59_node w n l r c i ls f pre j post g x : eval w n l c = (i :: ls, f) -> eval w n r c = (pre ++ j :: post, g) -> compared w i x -> is_node_item j ->
  (forall k, In k pre -> ~ is_node_item k /\ ~ same_value x k) -> eval w n (EBin l OpEq r) c = ([], Exn AttributeErr).
Proof. exact (equality_node w n l r c i ls f pre j post g x). Qed.
Print Assumptions C59_node.
Example C59_case : compared (doc_env N1) (INode [3]) (IStr (lit "4")) /\
  eval (doc_env N1) 0 (EBin (child "a" /_ child "x") OpEq (ESeq [ilit 4; slit "4"])) IRoot = ([IBool true], Done) /\
  eval (doc_env N1) 0 (EBin (child "a" /_ child "x") OpEq (ilit 4)) IRoot = ([IBool false], Done) /\
  eval (doc_env N1) 0 (EBin (ESeq [ilit 1; ilit 2]) OpEq (ilit 2)) IRoot = ([IBool false], Done) /\
  eval (doc_env N1) 0 (EBin (slit "4") OpEq (child "a" /_ child "x")) IRoot = ([], Exn AttributeErr).
Proof. split; [exists (lit "4"); split; [apply (sv_node (doc_env N1) [3] (el "x" [tx "4"])); reflexivity|reflexivity]|]. repeat split. Qed.

(** ** C60 *)
Theorem C60_boolean w n e c : (eval w n e c = ([], Done) -> eval w n (fn "boolean" [e]) c = ([IBool false], Done)) /\
  (forall i l f, eval w n e c = (i :: l, f) -> exists b, eval w n (fn "boolean" [e]) c = ([IBool b], Done) /\ (b = false <-> falsy w i)).
Proof. exact (boolean_spec w n e c). Qed.
Print Assumptions C60_boolean.
Theorem C60_not w n e c b : eval w n (fn "boolean" [e]) c = ([IBool b], Done) -> eval w n (fn "not" [e]) c = ([IBool (negb b)], Done).
Proof. exact (not_spec w n e c b). Qed.
Print Assumptions C60_not.
Theorem C60_short w n l r c i l' f : eval w n l c = (i :: l', f) ->
  (~ falsy w i -> eval w n (EBin l OpOr r) c = ([i], Done)) /\ (falsy w i -> eval w n (EBin l OpAnd r) c = ([i], Done)).
Proof. exact (connective_short w n l r c i l' f). Qed.
Print Assumptions C60_short.
Theorem C60_second w n l r c i l' f j r' g : eval w n l c = (i :: l', f) -> eval w n r c = (j :: r', g) ->
  (falsy w i -> eval w n (EBin l OpOr r) c = ([j], Done)) /\ (~ falsy w i -> eval w n (EBin l OpAnd r) c = ([j], Done)).
Proof. exact (connective_second w n l r c i l' f j r' g). Qed.
Print Assumptions C60_second.
(** An empty left operand makes connectives, order comparisons and != fail. *)
Theorem C60_empty w n op l r c : strict op -> eval w n l c = ([], Done) -> eval w n (EBin l op r) c = ([], Exn RuntimeErr).
Proof. exact (empty_left w n op l r c). Qed.
Print Assumptions C60_empty.
Example C60_case : falsy (doc_env N1) (IInt 0) /\ ~ falsy (doc_env N1) (IStr (lit "0")) /\
  eval (doc_env N1) 0 (EBin (ilit 0) OpOr (slit "x")) IRoot = ([IStr (lit "x")], Done) /\
  eval (doc_env N1) 0 (EBin (slit "0") OpAnd (slit "x")) IRoot = ([IStr (lit "x")], Done) /\
  eval (doc_env N1) 0 (fn "boolean" [ELit (LFlt FNan)]) IRoot = ([IBool true], Done) /\
  eval (doc_env N1) 0 (EBin (child "q") OpOr (slit "x")) IRoot = ([], Exn RuntimeErr).
Proof.
  split; [right; left; reflexivity|]. split; [intros [K|[K|[(x & K)|[K|(x & K & _)]]]]; discriminate|]. repeat split.
Qed.

(** ** C61 *)
Theorem C61_count w n e c l : eval w n e c = (l, Done) -> eval w n (fn "count" [e]) c = ([IInt (Z.of_nat (length l))], Done).
Proof. exact (count_eq w n e c l). Qed.
Print Assumptions C61_count.
Theorem C61_sequence w n l c outs : Forall2 (fun e o => eval w n e c = (o, Done)) l outs -> eval w n (ESeq l) c = (concat outs, Done).
Proof. exact (seq_eq w n l c outs). Qed.
Print Assumptions C61_sequence.
Theorem C61_sequence_fails w n l1 e l2 c outs o f : f <> Done -> Forall2 (fun e o => eval w n e c = (o, Done)) l1 outs -> eval w n e c = (o, f) ->
  eval w n (ESeq (l1 ++ e :: l2)) c = (concat outs ++ o, f).
Proof. exact (seq_fails w n l1 e l2 c outs o f). Qed.
Print Assumptions C61_sequence_fails.
Theorem C61_for_each w n e y c s p items outs : arg_string w (eval w (S n) y c) s -> xparse w s = inl p -> eval w (S n) e c = (items, Done) ->
  Forall2 (fun i o => exists j, moved w c i j /\ eval w n p j = (o, Done)) items outs -> eval w (S n) (fn "for-each" [e; y]) c = (concat outs, Done).
Proof. exact (foreach_eq w n e y c s p items outs). Qed.
Print Assumptions C61_for_each.
Example C61_case : let w := doc_env N10 in arg_string w (eval w 1 (slit "name()") IRoot) (lit "name()") /\
  eval w 1 (child "a" /_ star) IRoot = ([INode [0]; INode [1]; INode [2]], Done) /\ moved w IRoot (INode [0]) (INode [0]) /\
  eval w 1 (fn "for-each" [child "a" /_ star; slit "name()"]) IRoot = ([IStr (lit "b"); IStr (lit "b"); IStr (lit "b")], Done).
Proof.
  cbv zeta. split; [exists (IStr (lit "name()")); split; [left; exists [], Done; reflexivity|constructor]|]. split; [reflexivity|].
  split; [left; split; [intros [K|[K|[(x & K)|[K|(x & K & G)]]]]; try discriminate; inversion K; subst; discriminate|reflexivity]|]. reflexivity.
Qed.

(** ** C62 *)
Theorem C62_concat w n l c outs ss : Forall2 (fun e o => eval w n e c = (o, Done)) l outs -> Forall2 (string_value w) (concat outs) ss ->
  eval w n (fn "concat" l) c = ([IStr (concat ss)], Done).
Proof. exact (concat_eq w n l c outs ss). Qed.
Print Assumptions C62_concat.
Theorem C62_starts_with w n x y c s t : arg_string w (eval w n x c) s -> arg_string w (eval w n y c) t ->
  exists b, eval w n (fn "starts-with" [x; y]) c = ([IBool b], Done) /\ (b = true <-> exists q, s = t ++ q).
Proof. exact (starts_with_spec w n x y c s t). Qed.
Print Assumptions C62_starts_with.
Theorem C62_contains w n x y c s t : arg_string w (eval w n x c) s -> arg_string w (eval w n y c) t ->
  exists b, eval w n (fn "contains" [x; y]) c = ([IBool b], Done) /\ (b = true <-> exists p q, s = p ++ t ++ q).
Proof. exact (contains_spec w n x y c s t). Qed.
Print Assumptions C62_contains.
Theorem C62_before w n x y c s t : arg_string w (eval w n x c) s -> arg_string w (eval w n y c) t ->
  (t = [] -> eval w n (fn "substring-before" [x; y]) c = ([], Exn ValueErr)) /\
  (forall p q, t <> [] -> first_at t s p q -> eval w n (fn "substring-before" [x; y]) c = ([IStr p], Done)) /\
  (t <> [] -> (forall p q, s <> p ++ t ++ q) -> exists i, string_value w i s /\ eval w n (fn "substring-before" [x; y]) c = ([i], Done)).
Proof. exact (before_spec w n x y c s t). Qed.
Print Assumptions C62_before.
Theorem C62_after w n x y c s t : arg_string w (eval w n x c) s -> arg_string w (eval w n y c) t ->
  (t = [] -> eval w n (fn "substring-after" [x; y]) c = ([], Exn ValueErr)) /\
  (forall p q, t <> [] -> first_at t s p q -> eval w n (fn "substring-after" [x; y]) c = ([IStr q], Done)) /\
  (t <> [] -> (forall p q, s <> p ++ t ++ q) -> eval w n (fn "substring-after" [x; y]) c = ([IStr []], Done)).
Proof. exact (after_spec w n x y c s t). Qed.
Print Assumptions C62_after.
Theorem C62_substring w n x c s (i k : nat) : arg_string w (eval w n x c) s ->
  eval w n (fn "substring" [x; ilit (Z.of_nat (S i)); ilit (Z.of_nat k)]) c = ([IStr (firstn k (skipn i s))], Done).
Proof. exact (substring_plain w n x c s i k). Qed.
Print Assumptions C62_substring.
(** XPath has the first k - 1 characters here. *)
Theorem C62_substring_zero w n x c s (k : nat) : arg_string w (eval w n x c) s -> 0 < k -> k <= length s ->
  eval w n (fn "substring" [x; ilit 0; ilit (Z.of_nat k)]) c = ([IStr []], Done).
Proof. exact (substring_zero w n x c s k). Qed.
Print Assumptions C62_substring_zero.
(** Any literals: a slice, with negative indices counting from the end; arguments that are not literals are not computed. *)
Theorem C62_substring_any w n x l1 l2 c s a b p q : arg_string w (eval w n x c) s -> whole_number w l1 a -> whole_number w l2 b ->
  slice_pos (length s) (a - 1) p -> slice_pos (length s) (a - 1 + b) q ->
  eval w n (fn "substring" [x; ELit l1; ELit l2]) c = ([IStr (firstn (q - p) (skipn p s))], Done).
Proof. exact (substring_any w n x l1 l2 c s a b p q). Qed.
Print Assumptions C62_substring_any.
Theorem C62_substring_computed w n x y z c s : arg_string w (eval w n x c) s -> (forall l, y <> ELit l) ->
  eval w n (fn "substring" [x; y; z]) c = ([], Exn RuntimeErr).
Proof. exact (substring_computed w n x y z c s). Qed.
Print Assumptions C62_substring_computed.
Example C62_substring_any_case : let w := doc_env N1 in
  whole_number w (LFlt (FFin (-7) (-1))) (-3) /\ whole_number w (LStr (lit "2")) 2 /\ slice_pos 5 (-4) 1 /\ slice_pos 5 (-2) 3 /\
  eval w 0 (fn "substring" [slit "12345"; ELit (LFlt (FFin (-7) (-1))); slit "2"]) IRoot = ([IStr (lit "23")], Done) /\
  eval w 0 (fn "substring" [slit "x"; ilit 0; ilit 2]) IRoot = ([IStr (lit "x")], Done).
Proof.
  cbv zeta. split; [apply wn_flt, (po_fraction (-7) (-1)); lia|]. split; [apply (wn_str _ _ (FFin 2 0)); [reflexivity|apply (po_whole 2 0); lia]|].
  split; [apply (sp_back 5 4); lia|]. split; [apply (sp_back 5 2); lia|]. split; reflexivity.
Qed.
Example C62_case : let w := doc_env N1 in
  arg_string w (eval w 0 (child "a" /_ child "c") IRoot) (lit "23") /\ arg_string w (eval w 0 (child "nothing") IRoot) (lit "False") /\
  first_at (lit "b") (lit "abcb") (lit "a") (lit "cb") /\
  eval w 0 (fn "substring-before" [slit "abcb"; slit "b"]) IRoot = ([IStr (lit "a")], Done) /\
  eval w 0 (fn "substring-after" [slit "abcb"; slit "b"]) IRoot = ([IStr (lit "cb")], Done) /\
  eval w 0 (fn "substring-before" [slit "abcb"; slit "x"]) IRoot = ([IStr (lit "abcb")], Done) /\
  eval w 0 (fn "concat" [child "a" /_ star; slit "!"]) IRoot = ([IStr (lit "+2+12345!")], Done) /\
  eval w 0 (fn "substring" [slit "12345"; ilit 2; ilit 3]) IRoot = ([IStr (lit "234")], Done) /\
  eval w 0 (fn "substring" [slit "12345"; ilit 0; ilit 3]) IRoot = ([IStr []], Done).
Proof.
  cbv zeta. split; [exists (INode [2]); split; [left; exists [], Done; reflexivity|apply (sv_node (doc_env N1) [2] (XE (lit "c") [(lit "i", lit "1.2")] [el "x" [tx "2"]; el "d" [el "x" [tx "3"]]])); reflexivity]|].
  split; [exists (IBool false); split; [right; split; reflexivity|constructor]|].
  split; [split; [reflexivity|intros [|? ?] q E; [discriminate|cbn; lia]]|]. repeat split.
Qed.

(** ** C63 *)
Theorem C63_root h c i : history h c -> is_elem h i -> exists c' r, get h c (RNode i) = Some (RGot c' r) /\ top_of h i (docelem r).
Proof. exact (history_get h c i). Qed.
Print Assumptions C63_root.
Theorem C63_unique h c i r r' : history h c -> top_of h i r -> top_of h i r' -> r = r'.
Proof. exact (fun H => top_unique h i r r' (proj1 (history_ok h c H))). Qed.
Print Assumptions C63_unique.
Theorem C63_text h c i s : history h c -> HeapSpec.is_text h i s -> get h c (RNode i) = Some RAssertion.
Proof. exact (history_text h c i s). Qed.
Print Assumptions C63_text.
(** The heap after parsing, without any garbage collection. *)
Definition parsed (s : string) : bstate :=
  fold_left (fun s st => exec st s) (flat_map handler_stmts (fst (feed [lit s]))) (new_builder empty_heap).
Definition abc : string := "<a><b></b>t<c></c></a>".
Lemma abc_parse : tree_parse (new_builder empty_heap) (lit abc) (parsed abc) (broot (parsed abc)).
Proof. refine (tp _ _ _ _ _ _ (runs_exec _ _)). vm_compute. reflexivity. Qed.
Lemma abc_well_linked : well_linked (bheap (parsed abc)).
Proof. apply (parse_well_linked (new_builder empty_heap) _ _ _ empty_well_linked abc_parse). intros j Hj. cbn in Hj. lia. Qed.
Lemma abc_nodes : is_elem (bheap (parsed abc)) 1 /\ HeapSpec.is_text (bheap (parsed abc)) 2 (lit "t") /\ is_elem (bheap (parsed abc)) 3.
Proof.
  split; [exists (lit "b"), [], [], (Some 0); vm_compute; reflexivity|]. split; [exists (Some 0); vm_compute; reflexivity|exists (lit "c"), [], [], (Some 0); vm_compute; reflexivity].
Qed.
(** The root node object is not a function of the document: siblings get different ones. *)
Theorem C63_identity_refuted : exists h c i j c1 r1 c2 r2, history h c /\ is_elem h i /\ is_elem h j /\
  get h c (RNode i) = Some (RGot c1 r1) /\ get h c1 (RNode j) = Some (RGot c2 r2) /\ docelem r1 = docelem r2 /\ rid r1 <> rid r2.
Proof.
  exists (bheap (parsed abc)), empty_cache, 1, 3, (mkC [(1, mkRoot 0 0)] 1), (mkRoot 0 0), (mkC [(3, mkRoot 1 0); (1, mkRoot 0 0)] 2), (mkRoot 1 0).
  split; [constructor; exact abc_well_linked|]. split; [apply abc_nodes|]. split; [apply abc_nodes|]. split; [vm_compute; reflexivity|]. split; [vm_compute; reflexivity|]. split; [reflexivity|discriminate].
Qed.
Print Assumptions C63_identity_refuted.
(** A root node made for an element is found again whenever it is asked for, and at once in any case. *)
Theorem C63_kept h c i c1 r h2 c2 : get h c (RNode i) = Some (RGot c1 r) -> c1 <> c -> later h c1 h2 c2 -> get h2 c2 (RNode i) = Some (RGot c2 r).
Proof. exact (get_kept h c i c1 r h2 c2). Qed.
Print Assumptions C63_kept.
Theorem C63_again h c i c1 r : get h c (RNode i) = Some (RGot c1 r) -> get h c1 (RNode i) = Some (RGot c1 r).
Proof. exact (get_again h c i c1 r). Qed.
Print Assumptions C63_again.
(** A root node is its own root, and asking it adds nothing to the cache. *)
Theorem C63_self h c r : get h c (RRoot r) = Some (RGot c r).
Proof. reflexivity. Qed.
Print Assumptions C63_self.
(** The root node found for an element changes when other elements are asked for. *)
Definition abcde : string := "<a><b><c><d><e></e></d></c></b></a>".
Lemma abcde_parse : tree_parse (new_builder empty_heap) (lit abcde) (parsed abcde) (broot (parsed abcde)).
Proof. refine (tp _ _ _ _ _ _ (runs_exec _ _)). vm_compute. reflexivity. Qed.
Lemma abcde_well_linked : well_linked (bheap (parsed abcde)).
Proof. apply (parse_well_linked (new_builder empty_heap) _ _ _ empty_well_linked abcde_parse). intros j Hj. cbn in Hj. lia. Qed.
Theorem C63_stable_refuted : exists h c i c1 r1 h2 c2 c3 r2, history h c /\ is_elem h i /\ get h c (RNode i) = Some (RGot c1 r1) /\
  later h c1 h2 c2 /\ get h2 c2 (RNode i) = Some (RGot c3 r2) /\ docelem r1 = docelem r2 /\ rid r1 <> rid r2.
Proof.
  set (c1 := mkC [(0, mkRoot 0 0)] 1). set (c2 := mkC [(1, mkRoot 1 0); (0, mkRoot 0 0)] 2).
  exists (bheap (parsed abcde)), c1, 4, c1, (mkRoot 0 0), (bheap (parsed abcde)), c2, c2, (mkRoot 1 0).
  split; [apply (hi_get _ empty_cache 0 c1 (mkRoot 0 0)); [constructor; exact abcde_well_linked|vm_compute; reflexivity]|].
  split; [exists (lit "e"), [], [], (Some 3); vm_compute; reflexivity|]. split; [vm_compute; reflexivity|].
  split; [apply (la_get _ _ _ c1 1 c2 (mkRoot 1 0)); [apply la_same|vm_compute; reflexivity]|]. split; [vm_compute; reflexivity|]. split; [reflexivity|discriminate].
Qed.
Print Assumptions C63_stable_refuted.
Example C63_case : let h := bheap (parsed abc) in history h empty_cache /\ is_elem h 3 /\ HeapSpec.is_text h 2 (lit "t") /\
  get h empty_cache (RNode 3) = Some (RGot (mkC [(3, mkRoot 0 0)] 1) (mkRoot 0 0)).
Proof. split; [constructor; exact abc_well_linked|]. split; [apply abc_nodes|]. split; [apply abc_nodes|vm_compute; reflexivity]. Qed.

(** ** C64 *)
Theorem C64_stale h c i c' r self index h' : history h c -> is_elem h i -> parent_is h i None -> ~ below h i self ->
  get h c (RNode i) = Some (RGot c' r) -> xml_insert h self (ARef i) index = EOk h' ->
  get h' c' (RNode i) = Some (RGot c' r) /\ forall top, top_of h' i top -> docelem r <> top.
Proof. exact (fun H Hi Hp Hb G => stale h c i c' r self index h' H Hi Hp Hb G (own_entry h c i c' r H Hi Hp G)). Qed.
Print Assumptions C64_stale.
(** Two elements; the second one is moved into the first one. *)
Example C64_case : let h := fst (alloc (fst (alloc empty_heap (OElem (lit "a") [] [] None))) (OElem (lit "b") [] [] None)) in
  history h empty_cache /\ is_elem h 1 /\ parent_is h 1 None /\ ~ below h 1 0 /\
  exists c' h', get h empty_cache (RNode 1) = Some (RGot c' (mkRoot 0 1)) /\ xml_insert h 0 (ARef 1) (-1) = EOk h' /\ top_of h' 1 0.
Proof.
  cbv zeta. set (h := fst _). assert (W : well_linked h).
  { apply editing_well_linked. eapply eds_cons; [apply (ed_new_elem empty_heap (lit "a") [])|]. eapply eds_cons; [apply (ed_new_elem _ (lit "b") [])|]. apply eds_nil. }
  split; [constructor; exact W|]. split; [do 4 eexists; reflexivity|]. split; [eexists; split; reflexivity|]. split.
  - intros H. inversion H as [|p j x H1 (o & Ho & Hin)]; subst. destruct j as [|[|j]]; cbn in Ho; inversion Ho; subst; destruct Hin.
  - eexists. eexists. split; [vm_compute; reflexivity|]. split; [vm_compute; reflexivity|]. split; [eapply be_kid; [constructor|]; eexists; split; [reflexivity|left; reflexivity]|eexists; split; reflexivity].
Qed.

(** ** C65 *)
Theorem C65_in_document w n e c : (forall k i, dict_get (vars w) k = Some i -> of_document w i) -> of_document w c -> forall i, In i (fst (eval w n e c)) -> of_document w i.
Proof. exact (fun Hv Hc => proj1 (Forall_forall _ _) (eval_ok w Hv n e c Hc)). Qed.
Print Assumptions C65_in_document.
Theorem C65_again w n e e' c : evaluated e e' -> eval w n e c = eval w n e' c.
Proof. exact (fun H => eval_again w n e e' H c). Qed.
Print Assumptions C65_again.
Example C65_case : (forall k i, dict_get (vars (doc_env N1)) k = Some i -> of_document (doc_env N1) i) /\
  evaluated (EBin (child "a") OpDeep (child "b")) (EBin (child "a") OpDeep (EStep AxDescendantOrSelf (TName (lit "b")))).
Proof.
  split; [|apply ev_deep; constructor]. intros k i. unfold doc_env. cbn [vars dict_get]. destruct (str_eqb (lit "a") k); [intros E; inversion E; exact I|].
  destruct (str_eqb (lit "b") k); [intros E; inversion E; exact I|]. destruct (str_eqb (lit "a1") k); [intros E; inversion E; eexists; reflexivity|discriminate].
Qed.

(** ** C66 *)
Theorem C66_path w n l r c items outs : eval w n l c = (items, Done) ->
  Forall2 (fun i o => exists j, moved w c i j /\ eval w n r j = (o, Done)) items outs -> eval w n (EBin l OpPath r) c = (concat outs, Done).
Proof. exact (path_eq w n l r c items outs). Qed.
Print Assumptions C66_path.
Theorem C66_falsy w n l r c i : eval w n l c = ([i], Done) -> falsy w i -> eval w n (EBin l OpPath r) c = eval w n r c.
Proof. exact (path_falsy w n l r c i). Qed.
Print Assumptions C66_falsy.
Example C66_case : falsy (doc_env N1) (IInt 0) /\ eval (doc_env N1) 0 (ilit 0 /_ dot) (INode []) = ([INode []], Done) /\
  eval (doc_env N1) 0 (ilit 1 /_ dot) (INode []) = ([IInt 1], Done).
Proof. split; [right; left; reflexivity|]. split; reflexivity. Qed.

(** ** C67 *)
Theorem C67_minus w n e c : exists f, eval w n (ENeg e) c = ([], f) /\ f <> Done /\ (forall i l g, eval w n e c = (i :: l, g) -> f = Exn TypeErr).
Proof. exact (neg_never w n e c). Qed.
Print Assumptions C67_minus.
Example C67_case : eval (doc_env N1) 0 (ENeg (ilit 1)) IRoot = ([], Exn TypeErr).
Proof. reflexivity. Qed.

(** ** C68 *)
(** Every text that an expression serialises to is also that of a string literal. *)
Theorem C68_literal w e : serialize w (ELit (LStr (serialize w e))) = serialize w e.
Proof. exact (serialize_literal w e). Qed.
Print Assumptions C68_literal.
Theorem C68_refuted : exists w e e', serialize w e = serialize w e' /\ exists n c, eval w n e c <> eval w n e' c.
Proof. exists (doc_env N1), (child "b"), (slit "child::b"). split; [reflexivity|]. exists 0, (INode []). discriminate. Qed.
Print Assumptions C68_refuted.
(** Evaluating changes the serialisation. *)
Theorem C68_changes_refuted : exists w e e', evaluated e e' /\ serialize w e <> serialize w e'.
Proof.
  exists (doc_env N1), (EBin (child "a") OpDeep (child "b")), (EBin (child "a") OpDeep (EStep AxDescendantOrSelf (TName (lit "b")))). split; [apply ev_deep; constructor|discriminate].
Qed.
Print Assumptions C68_changes_refuted.

(** ** C84 *)
Theorem C84_ends w n e c : tame e -> snd (eval w n e c) <> Cut.
Proof. exact (fun H => eval_ends w n e H c). Qed.
Print Assumptions C84_ends.
Theorem C84_fuel w n m e c : n <= m -> snd (eval w n e c) <> Cut -> eval w m e c = eval w n e c.
Proof. exact (fuel_enough w n m e c). Qed.
Print Assumptions C84_fuel.
Theorem C84_prefix w n m e c : n <= m -> snd (eval w n e c) = Cut -> exists more, fst (eval w m e c) = fst (eval w n e c) ++ more.
Proof. exact (fuel_prefix w n m e c). Qed.
Print Assumptions C84_prefix.
Example C84_case : tame (EPred (EBin (child "a") OpDeep (EStep AxAncestorOrSelf TStar)) [fn "contains" [dot; slit "1"]]).
Proof. repeat constructor; discriminate. Qed.

(** ** C85 *)
Theorem C85_attributes w n a m ats ks : subtree (doc w) a = Some (XE m ats ks) -> NoDup (map fst ats) ->
  eval w n (EStep AxAttribute TStar) (INode a) = (map (fun kv => IAttr a (fst kv) (snd kv) Made) ats, Done) /\
  (forall k v, k <> lit "*" -> In (k, v) ats -> eval w n (EStep AxAttribute (TName k)) (INode a) = ([IAttr a k v Made], Done)) /\
  (forall k, k <> lit "*" -> ~ In k (map fst ats) -> eval w n (EStep AxAttribute (TName k)) (INode a) = ([], Done)).
Proof. exact (attribute_axis w n a m ats ks). Qed.
Print Assumptions C85_attributes.
Theorem C85_elsewhere w n t c : ~ element_item w c -> eval w n (EStep AxAttribute t) c = ([], Done).
Proof. exact (attribute_nothing w n t c). Qed.
Print Assumptions C85_elsewhere.
(** node() and text() after @ are taken as attribute names; an attribute has no name. *)
Theorem C85_type_tests w n c : eval w n (EStep AxAttribute TNode) c = eval w n (EStep AxAttribute (TName (lit "node"))) c /\
  eval w n (EStep AxAttribute TText) c = eval w n (EStep AxAttribute (TName (lit "text"))) c.
Proof. exact (attribute_type w n c). Qed.
Print Assumptions C85_type_tests.
Theorem C85_value w n e c a k v o l f : eval w n e c = (IAttr a k v o :: l, f) ->
  eval w n (fn "string" [e]) c = ([IStr v], Done) /\ eval w n (fn "name" [e]) c = ([IStr []], Done).
Proof. exact (attribute_string w n e c a k v o l f). Qed.
Print Assumptions C85_value.
Example C85_case : eval (doc_env N1) 0 (EStep AxAttribute TStar) (INode [1]) = ([IAttr [1] (lit "i") (lit "1.1") Made], Done) /\
  eval (doc_env N1) 0 (EStep AxAttribute TNode) (INode [1]) = ([], Done) /\ NoDup (map fst [(lit "i", lit "1.1")]).
Proof. split; [reflexivity|]. split; [reflexivity|]. constructor; [intros []|constructor]. Qed.

(** ** C86 *)
Theorem C86_strings w n op l r c i l' f j r' g s t : is_order op -> eval w n l c = (i :: l', f) -> eval w n r c = (j :: r', g) -> text_item w i s -> text_item w j t ->
  exists b, eval w n (EBin l op r) c = ([IBool b], Done) /\ (b = true <-> ordered op (str_before s t) (s = t) (str_before t s)).
Proof. exact (order_strings w n op l r c i l' f j r' g s t). Qed.
Print Assumptions C86_strings.
Theorem C86_numbers w n op l r c i l' f j r' g x y : is_order op -> eval w n l c = (i :: l', f) -> eval w n r c = (j :: r', g) -> number_value i = Some x -> number_value j = Some y ->
  exists b, eval w n (EBin l op r) c = ([IBool b], Done) /\ (b = true <-> ordered op (num_before x y) (same_number x y) (num_before y x)).
Proof. exact (order_numbers w n op l r c i l' f j r' g x y). Qed.
Print Assumptions C86_numbers.
(** Nodes are not converted: comparing an element or attribute, or a string with a number, fails. *)
Theorem C86_mixed w n op l r c i l' f j r' g : is_order op -> eval w n l c = (i :: l', f) -> eval w n r c = (j :: r', g) ->
  ~ (exists s t, text_item w i s /\ text_item w j t) -> ~ (exists x y, number_value i = Some x /\ number_value j = Some y) -> eval w n (EBin l op r) c = ([], Exn TypeErr).
Proof. exact (order_mixed w n op l r c i l' f j r' g). Qed.
Print Assumptions C86_mixed.
Theorem C86_differ w n l r c i l' f j r' g : eval w n l c = (i :: l', f) -> eval w n r c = (j :: r', g) -> ~ is_node_item i -> ~ is_node_item j ->
  exists b, eval w n (EBin l OpNe r) c = ([IBool b], Done) /\ (b = true <-> ~ same_value i j).
Proof. exact (differ_values w n l r c i l' f j r' g). Qed.
Print Assumptions C86_differ.
(** != does not take the string value of an element: it always differs, so = and != can both be true. *)
Theorem C86_differ_element w n l r c i l' f j r' g : eval w n l c = (i :: l', f) -> eval w n r c = (j :: r', g) -> element_item w i -> ~ is_node_item j ->
  eval w n (EBin l OpNe r) c = ([IBool true], Done).
Proof. exact (differ_element w n l r c i l' f j r' g). Qed.
Print Assumptions C86_differ_element.
Theorem C86_differ_attributes w n l r c i l' f j r' g : attributes_of l \/ attributes_of r -> eval w n l c = (i :: l', f) -> eval w n r c = (j :: r', g) ->
  eval w n (EBin l OpNe r) c = ([IBool true], Done).
Proof. exact (differ_attributes w n l r c i l' f j r' g). Qed.
Print Assumptions C86_differ_attributes.
Theorem C86_differ_itself w n a k v o : eval w n (EBin (EAbbrev false) OpNe (EAbbrev false)) (IAttr a k v o) = ([IBool false], Done).
Proof. exact (differ_itself w n a k v o). Qed.
Print Assumptions C86_differ_itself.
Example C86_case : eval (doc_env N1) 0 (EBin (slit "ab") OpLt (slit "b")) IRoot = ([IBool true], Done) /\ str_before (lit "ab") (lit "b") /\
  eval (doc_env N1) 0 (EBin (ilit 3) OpGe (ELit (LFlt (FFin 5 (-1))))) IRoot = ([IBool true], Done) /\ num_before (FFin 5 (-1)) (FFin 3 0) /\
  eval (doc_env N1) 0 (EBin (child "a" /_ child "x") OpLt (ilit 5)) IRoot = ([], Exn TypeErr) /\
  eval (doc_env N1) 0 (EBin (child "a" /_ child "x") OpEq (slit "4")) IRoot = ([IBool true], Done) /\
  eval (doc_env N1) 0 (EBin (child "a" /_ child "x") OpNe (slit "4")) IRoot = ([IBool true], Done) /\
  (let at_i := child "a" /_ child "b" /_ EStep AxAttribute (TName (lit "i")) in
   attributes_of at_i /\ eval (doc_env N1) 0 (EBin at_i OpNe at_i) IRoot = ([IBool true], Done) /\
   eval (doc_env N1) 0 (EPred at_i [EBin dot OpNe (EAbbrev true /_ EStep AxAttribute TStar)]) IRoot = eval (doc_env N1) 0 at_i IRoot /\
   eval (doc_env N1) 0 (EPred at_i [EBin dot OpNe dot]) IRoot = ([], Done)).
Proof. split; [reflexivity|]. split; [apply sb_less; reflexivity|]. split; [reflexivity|]. split; [apply (nb_fin 5 (-1) 3 0 1); reflexivity || discriminate|]. repeat split. repeat constructor. Qed.

(** ** C87 *)
Theorem C87_context w n d e c : c = IRoot \/ element_item w c -> d = false \/ no_empty_text w -> eval w n (EAbs d (Some e)) c = eval w n (EAbs d (Some e)) IRoot.
Proof. exact (absolute_context w n d e c). Qed.
Print Assumptions C87_context.
Theorem C87_relative w n e c : c = IRoot \/ element_item w c -> just_node e = false -> eval w n (EAbs false (Some e)) c = eval w n e IRoot.
Proof. exact (absolute_relative w n e c). Qed.
Print Assumptions C87_relative.
Theorem C87_root w n c d : c = IRoot \/ element_item w c -> eval w n (EAbs d None) c = ([IRoot], Done).
Proof. exact (fun H => absolute_root w n c H d). Qed.
Print Assumptions C87_root.
(** From a text node, attribute or value an absolute path fails. *)
Theorem C87_elsewhere w n d e c : c <> IRoot -> ~ element_item w c -> eval w n (EAbs d e) c = ([], Exn AssertionErr).
Proof. exact (absolute_elsewhere w n d e c). Qed.
Print Assumptions C87_elsewhere.
Example C87_case : element_item (doc_env N1) (INode [2; 1]) /\ eval (doc_env N1) 0 (EAbs false (Some (child "a" /_ child "y"))) (INode [2; 1]) = ([INode [4]], Done) /\
  eval (doc_env N1) 0 (EAbs false (Some (child "a" /_ child "y"))) (INode [0]) = ([], Exn AssertionErr).
Proof. split; [repeat eexists|]. split; reflexivity. Qed.

(** ** C88 *)
Theorem C88_name w n c : (forall a m ats ks, c = INode a -> subtree (doc w) a = Some (XE m ats ks) -> eval w n (fn "name" []) c = ([IStr m], Done)) /\
  (forall a s, c = INode a -> subtree (doc w) a = Some (XT s) -> eval w n (fn "name" []) c = ([IStr (lit "#text")], Done)) /\
  ((forall a, c <> INode a) -> eval w n (fn "name" []) c = ([IStr []], Done)).
Proof. exact (name_context w n c). Qed.
Print Assumptions C88_name.
Theorem C88_name_of w n e c : (eval w n e c = ([], Done) -> eval w n (fn "name" [e]) c = ([IStr []], Done)) /\
  (forall i l f, eval w n e c = (i :: l, f) -> eval w n (fn "name" [e]) c = eval w n (fn "name" []) i).
Proof. exact (name_first w n e c). Qed.
Print Assumptions C88_name_of.
Theorem C88_string w n c s : string_value w c s -> exists i, eval w n (fn "string" []) c = ([i], Done) /\ text_item w i s.
Proof. exact (string_context w n c s). Qed.
Print Assumptions C88_string.
Theorem C88_string_of w n e c : (eval w n e c = ([], Done) -> eval w n (fn "string" [e]) c = ([IStr []], Done)) /\
  (forall i l f, eval w n e c = (i :: l, f) -> eval w n (fn "string" [e]) c = eval w n (fn "string" []) i).
Proof. exact (string_first w n e c). Qed.
Print Assumptions C88_string_of.
Theorem C88_number w n e c : (eval w n e c = ([], Done) -> eval w n (fn "number" [e]) c = converted w []) /\
  (forall i l f s, eval w n e c = (i :: l, f) -> number_value i = None -> string_value w i s -> eval w n (fn "number" [e]) c = converted w s) /\
  (forall i l f x, eval w n e c = (i :: l, f) -> number_value i = Some x -> eval w n (fn "number" [e]) c = ([i], Done)).
Proof. exact (number_first w n e c). Qed.
Print Assumptions C88_number.
Theorem C88_length w n e c : (eval w n e c = ([], Done) -> eval w n (fn "string-length" [e]) c = ([IInt 0], Done)) /\
  (forall i l f s, eval w n e c = (i :: l, f) -> text_item w i s -> eval w n (fn "string-length" [e]) c = ([IInt (Z.of_nat (length s))], Done)) /\
  (forall i l f, eval w n e c = (i :: l, f) -> (forall s, ~ text_item w i s) -> eval w n (fn "string-length" [e]) c = ([], Exn TypeErr)).
Proof. exact (length_first w n e c). Qed.
Print Assumptions C88_length.
Theorem C88_unknown w n f l c : ~ In f (map (fun x => lit (fst x)) signatures) -> eval w n (ECall f l) c = ([], Exn RuntimeErr).
Proof. exact (unknown_function w n f l c). Qed.
Print Assumptions C88_unknown.
Theorem C88_arity w n f lo hi l c : In (f, (lo, hi)) signatures -> ~ takes lo hi (length l) -> eval w n (ECall (lit f) l) c = ([], Exn TypeErr).
Proof. exact (wrong_arity w n f lo hi l c). Qed.
Print Assumptions C88_arity.
Theorem C88_not_implemented w n f lo hi l c : In f not_implemented -> In (f, (lo, hi)) signatures -> takes lo hi (length l) ->
  eval w n (ECall (lit f) l) c = ([], Exn NotImplErr).
Proof. exact (stubs w n f lo hi l c). Qed.
Print Assumptions C88_not_implemented.
Theorem C88_constants w n c : eval w n (fn "last" []) c = ([IInt (-1)], Done) /\ eval w n (fn "number" []) c = ([IInt 0], Done) /\
  eval w n (fn "string-length" []) c = ([], Exn AttributeErr) /\ eval w n (fn "true" []) c = ([IBool true], Done) /\ eval w n (fn "false" []) c = ([IBool false], Done) /\
  (forall e, eval w n (fn "sum" [e]) c = ([], Exn NotImplErr)).
Proof. exact (call_nothing w n c). Qed.
Print Assumptions C88_constants.
Example C88_case : eval (doc_env N1) 0 (fn "name" [child "a" /_ EStep AxChild TNode]) IRoot = ([IStr (lit "#text")], Done) /\
  eval (doc_env N1) 0 (fn "string" [child "a" /_ child "c"]) IRoot = ([IStr (lit "23")], Done) /\
  eval (doc_env N1) 0 (fn "number" [fn "true" []]) IRoot = ([IBool true], Done) /\ converted (doc_env N1) [] = ([], Exn ValueErr) /\
  eval (doc_env N1) 0 (fn "string-length" [slit "abc"]) IRoot = ([IInt 3], Done) /\
  eval (doc_env N1) 0 (fn "string-length" [child "a"]) IRoot = ([], Exn TypeErr) /\ ~ In (lit "id") (map (fun x => lit (fst x)) signatures) /\
  eval (doc_env N1) 0 (fn "count" []) IRoot = ([], Exn TypeErr) /\ eval (doc_env N1) 0 (fn "string" [ELit (LInt (-120))]) IRoot = ([IStr (lit "-120")], Done) /\
  eval (doc_env N1) 0 (fn "floor" [slit "1"]) IRoot = ([], Exn NotImplErr).
Proof. do 6 (split; [reflexivity|]). split; [|split; [|split]; vm_compute; reflexivity]. intros K. cbn in K. repeat destruct K as [K|K]; try discriminate; auto. Qed.
