(** Theorems about the command line tool (exec/microx). *)
From Verif Require Import PyStr XTree Tree Path Nodes Pattern PatternSpec TreeUtil TreeUtilSpec XPath Microx MicroxSpec MicroxFacts.

(** ** C75 *)
(** match: every element, in document order, is a context node once. *)
Theorem C75_match w fuel e foreach limit show : is_element (doc w) -> exists l, listing (doc w) (fun _ u => is_element u) l /\
  in_turn (fun x => print_results w fuel e foreach (INode (fst x))) l (run w fuel (CmdMatch e) foreach limit show).
Proof. exact (match_elements w fuel e foreach). Qed.
Print Assumptions C75_match.
Theorem C75_match_ok w fuel e foreach limit show l g : is_element (doc w) -> listing (doc w) (fun _ u => is_element u) l ->
  (forall a u, In (a, u) l -> print_results w fuel e foreach (INode a) = (g a, Done)) ->
  run w fuel (CmdMatch e) foreach limit show = (flat_map (fun x => g (fst x)) l, Done).
Proof. exact (match_all_ok w fuel e foreach l g). Qed.
Print Assumptions C75_match_ok.
(** The results of an expression are printed in turn; with an inner expression those of its
    results, evaluated at each of the outer ones. *)
Theorem C75_results w fuel e foreach c ls : eval w fuel e c = (ls, Done) ->
  in_turn (fun i => match foreach with None => print_item w i | Some e2 => print_results w fuel e2 None i end) ls (print_results w fuel e foreach c).
Proof. exact (results_in_turn w fuel e foreach c ls). Qed.
Print Assumptions C75_results.
Theorem C75_results_fail w fuel e foreach c ls f o : eval w fuel e c = (ls, f) ->
  in_turn (fun i => match foreach with None => print_item w i | Some e2 => print_results w fuel e2 None i end) ls (o, Done) ->
  print_results w fuel e foreach c = (o, f).
Proof. exact (results_fail w fuel e foreach c ls f o). Qed.
Print Assumptions C75_results_fail.
(** Finding: the limit has no effect. *)
Theorem C75_limit w fuel c foreach limit limit' show : run w fuel c foreach limit show = run w fuel c foreach limit' show.
Proof. reflexivity. Qed.
Print Assumptions C75_limit.
(** find-text: the elements in document order, for each one line per text child with the text. *)
Theorem C75_find w fuel search foreach limit show : is_element (doc w) -> exists l, listing (doc w) (fun _ u => is_element u) l /\
  forall b : str -> bool, (forall s, b s = true <-> contains s search) ->
  run w fuel (CmdFind search) foreach limit show =
    (flat_map (fun x => repeat (xpath_to w show (fst x)) (length (filter (fun k => match k with XT s => b s | XE _ _ _ => false end) (kids_of (snd x))))) l, Done).
Proof. exact (find_text_lines w search show). Qed.
Print Assumptions C75_find.
(** Finding: the path printed for an element has its proper ancestors only. *)
Theorem C75_path w show a u : subtree (doc w) a = Some u ->
  slashed (map (fun k => step_line show (subtree (doc w) (firstn k a))) (seq 0 (length a))) (xpath_to w show a).
Proof. exact (xpath_to_steps w show a u). Qed.
Print Assumptions C75_path.
Theorem C75_path_names w a u : subtree (doc w) a = Some u ->
  slashed (match a with [] => [] | _ => path_names (doc w) (removelast a) end) (xpath_to w [] a).
Proof. exact (xpath_to_names w a u). Qed.
Print Assumptions C75_path_names.
Theorem C75_slashed l s t : slashed l s -> slashed l t -> s = t.
Proof. exact (slashed_fun l s t). Qed.
Print Assumptions C75_slashed.

(** The example of the documentation string *)
Definition xe (n : string) (ks : list xtree) : xtree := XE (lit n) [] ks.
Definition record (i n ad : string) : xtree := XE (lit "record") [(lit "id", lit i)] [xe "name" [XT (lit n)]; xe "address" [XT (lit ad)]].
Definition db : xtree := xe "db" [record "1" "Alex" "123 Maple St."; record "2" "Bob" "456 Birch Rd."; record "3" "Chris" "789 Pine St."].
Definition dbw : env := mkEnv db [] (fun _ => inr RuntimeErr) (fun _ => None) (fun _ => []).
Definition step_name (n : string) : expr := EStep AxChild (TName (lit n)).
Example C75_case : run dbw 3 (CmdExpr (EAbs true (Some (step_name "name")))) None None [] =
  ([lit "<name>Alex</name>"; lit "<name>Bob</name>"; lit "<name>Chris</name>"], Done) /\
  run dbw 3 (CmdMatch (step_name "name")) None (Some 2) [] = ([lit "<name>Alex</name>"; lit "<name>Bob</name>"; lit "<name>Chris</name>"], Done) /\
  run dbw 3 (CmdMatch (step_name "name")) (Some (EStep AxParent TNode)) None [] =
    (map xml_encode [record "1" "Alex" "123 Maple St."; record "2" "Bob" "456 Birch Rd."; record "3" "Chris" "789 Pine St."], Done) /\
  run dbw 3 (CmdFind (lit "b")) None None [lit "id"] = ([lit "db/record[@id=""2""]"], Done) /\
  run dbw 3 (CmdFind (lit "St")) None None [] = ([lit "db/record"; lit "db/record"], Done).
Proof. repeat split; vm_compute; reflexivity. Qed.
Example C75_match_case : exists l, listing db (fun _ u => is_element u) l /\ length l = 10 /\
  (forall a u, In (a, u) l -> exists g, print_results dbw 3 (step_name "name") None (INode a) = (g, Done)).
Proof.
  exists (([], db) :: descendants db). split; [apply elements_listing|]. split; [reflexivity|]. intros a u Hin. vm_compute in Hin.
  repeat (destruct Hin as [Hin|Hin]; [inversion Hin; subst; eexists; vm_compute; reflexivity|]). destruct Hin.
Qed.
(** [contains] can be decided, for instance for one character. *)
Example C75_find_case : let b := existsb (N.eqb 98) in (forall s, b s = true <-> contains s (lit "b")) /\ b (lit "Bob") = true /\ b (lit "Alex") = false.
Proof.
  split; [|split; reflexivity]. intros s. cbv zeta. rewrite existsb_exists. split.
  - intros (x & Hx & E). apply N.eqb_eq in E. subst x. apply in_split in Hx as (p & q & E). exists p, q. exact E.
  - intros (p & q & E). exists 98%N. split; [|reflexivity]. rewrite E. apply in_or_app. right. left. reflexivity.
Qed.

(** ** C93 *)
(** Nodes are printed as markup. *)
Theorem C93_node w a t : subtree (doc w) a = Some t -> print_item w (INode a) = ([xml_encode t], Done).
Proof. intros H. unfold print_item, node_at. rewrite H. reflexivity. Qed.
Print Assumptions C93_node.
(** Finding: a text node without its references. *)
Theorem C93_text w a s : subtree (doc w) a = Some (XT s) -> print_item w (INode a) = ([s], Done).
Proof. intros H. unfold print_item, node_at. rewrite H. reflexivity. Qed.
Print Assumptions C93_text.
(** Finding: of an attribute the value only, between {=" and "}. *)
Theorem C93_attribute w a n v o : print_item w (IAttr a n v o) = ([lit "{=""" ++ v ++ lit """}"], Done).
Proof. reflexivity. Qed.
Print Assumptions C93_attribute.
(** Finding: the root node cannot be printed; expression "/" ends in an exception. *)
Theorem C93_root w fuel limit show : run w (S fuel) (CmdExpr (EAbs false None)) None limit show = ([], Exn NotImplErr).
Proof. reflexivity. Qed.
Print Assumptions C93_root.
Example C93_case : run dbw 3 (CmdExpr (EBin (EAbs true (Some (step_name "record"))) OpPath (EStep AxAttribute (TName (lit "id"))))) None None [] =
    ([lit "{=""1""}"; lit "{=""2""}"; lit "{=""3""}"], Done) /\
  run (mkEnv (xe "a" [XT (lit "x<y")]) [] (fun _ => inr RuntimeErr) (fun _ => None) (fun _ => [])) 3 (CmdExpr (EAbs true (Some (EStep AxChild TText)))) None None [] = ([lit "x<y"], Done).
Proof. split; vm_compute; reflexivity. Qed.
