(** Theorems about the lines of microx --find-text as expressions (exec/microx, uxpath). *)
From Coq Require Import Lia.
From Verif Require Import PyStr XTree Path XPath XPathSpec XPathFacts Lalr XGram XLex XLexSpec XText XQuery Microx MicroxSpec MicroxLineSpec MicroxLineFacts Prop_XPath Prop_XSyntax Prop_Microx.

(** ** C144 *)
(** The line printed for an element, asked at the document element, gives, in document order and once, the
    elements at the depth of its parent whose path from the top has the names and the shown attributes of the line. *)
Theorem C144_line w v n show a u : xparse w = uxpath_parse v -> no_empty_text w -> subtree (doc w) a = Some u -> a <> [] ->
  (forall k, k < length a -> writable show (subtree (doc w) (firstn k a))) ->
  selects w (fun b _ => S (length b) = length a /\ forall k, k < length a -> resembles show (subtree (doc w) (firstn k a)) (subtree (doc w) (firstn k b)))
    (xml_xpath w n (INode []) (Text (xpath_to w show a))).
Proof. exact (line_selects w show v n a u). Qed.
Print Assumptions C144_line.
(** The parent is among them. *)
Theorem C144_parent w v n show a u : xparse w = uxpath_parse v -> no_empty_text w -> subtree (doc w) a = Some u -> a <> [] ->
  (forall k, k < length a -> writable show (subtree (doc w) (firstn k a))) ->
  exists l, xml_xpath w n (INode []) (Text (xpath_to w show a)) = (l, Done) /\ In (INode (removelast a)) l.
Proof. exact (line_finds w show v n a u). Qed.
Print Assumptions C144_parent.
(** The shown attributes can tell the elements apart: the parent alone, if no other element has such a path. *)
Theorem C144_alone w v n show a u : xparse w = uxpath_parse v -> no_empty_text w -> subtree (doc w) a = Some u -> a <> [] ->
  (forall k, k < length a -> writable show (subtree (doc w) (firstn k a))) ->
  (forall b, S (length b) = length a -> (forall k, k < length a -> resembles show (subtree (doc w) (firstn k a)) (subtree (doc w) (firstn k b))) -> b = removelast a) ->
  xml_xpath w n (INode []) (Text (xpath_to w show a)) = ([INode (removelast a)], Done).
Proof. exact (line_alone w show v n a u). Qed.
Print Assumptions C144_alone.

(** Every line of find-text that is not empty leads to the parent of an element with the text. *)
Theorem C144_found w v n fuel q foreach limit show s : is_element (doc w) -> xparse w = uxpath_parse v -> no_empty_text w ->
  (forall a, writable show (subtree (doc w) a)) -> In s (fst (run w fuel (CmdFind q) foreach limit show)) ->
  exists a i x, subtree (doc w) (a ++ [i]) = Some (XT x) /\ contains x q /\
    (a = [] /\ s = [] \/ a <> [] /\ exists l, xml_xpath w n (INode []) (Text s) = (l, Done) /\ In (INode (removelast a)) l).
Proof. exact (found w show v n fuel q foreach limit s). Qed.
Print Assumptions C144_found.
(** And for every element with the text, except the document element, there is such a line. *)
Theorem C144_every_text w v n fuel q foreach limit show a i x : is_element (doc w) -> xparse w = uxpath_parse v -> no_empty_text w ->
  (forall a, writable show (subtree (doc w) a)) -> subtree (doc w) (a ++ [i]) = Some (XT x) -> contains x q -> a <> [] ->
  exists s l, In s (fst (run w fuel (CmdFind q) foreach limit show)) /\ xml_xpath w n (INode []) (Text s) = (l, Done) /\ In (INode (removelast a)) l.
Proof. exact (every_text w show v n fuel q foreach limit a i x). Qed.
Print Assumptions C144_every_text.

(** Findings: a line is no expression if a value has a double quote, if a name has a letter
    from U+00C0 to U+00D6 (which the lexer of MicroXPath does not know), and for the document element, whose line is empty. *)
Definition asked (t : xtree) : env := mkEnv t [] (uxpath_parse plain_env) (fun _ => None) (fun _ => []).
Theorem C144_quote_refuted : exists t a show, is_element t /\ no_empty_text (asked t) /\ subtree t a <> None /\ a <> [] /\
  forall n, exists e, xml_xpath (asked t) n (INode []) (Text (xpath_to (asked t) show a)) = ([], Exn e).
Proof.
  exists (XE (lit "a") [(lit "k", [34%N])] [xe "b" [XT (lit "x")]]), [0], [lit "k"]. split; [do 3 eexists; reflexivity|]. split; [now apply check_text|]. split; [discriminate|]. split; [discriminate|].
  intros n. eexists. vm_compute. reflexivity.
Qed.
Print Assumptions C144_quote_refuted.
Theorem C144_letter_refuted : exists t a, is_element t /\ no_empty_text (asked t) /\ subtree t a <> None /\ a <> [] /\
  forall n, exists e, xml_xpath (asked t) n (INode []) (Text (xpath_to (asked t) [] a)) = ([], Exn e).
Proof.
  exists (XE [201%N] [] [xe "b" [XT (lit "x")]]), [0]. split; [do 3 eexists; reflexivity|]. split; [now apply check_text|]. split; [discriminate|]. split; [discriminate|].
  intros n. eexists. vm_compute. reflexivity.
Qed.
Print Assumptions C144_letter_refuted.
Theorem C144_top t n : is_element t -> exists e, xml_xpath (asked t) n (INode []) (Text (xpath_to (asked t) [] [])) = ([], Exn e).
Proof. intros (m & ats & ks & ->). eexists. cbn. reflexivity. Qed.
Print Assumptions C144_top.
(** Finding: without attributes a line may be that of many elements. *)
Theorem C144_many_refuted : exists t a b, is_element t /\ a <> b /\ subtree t a <> None /\ subtree t b <> None /\ xpath_to (asked t) [] a = xpath_to (asked t) [] b.
Proof. exists db, [0; 0], [1; 1]. split; [do 3 eexists; reflexivity|]. repeat split; try discriminate. Qed.
Print Assumptions C144_many_refuted.
Lemma plain_name s : forallb (fun c => N.leb 97 c && N.leb c 122)%bool s = true -> s <> [] -> name s.
Proof.
  intros H NE. assert (B : forall c, In c s -> begins [c]).
  { intros c I. rewrite forallb_forall in H. apply H in I. apply andb_prop in I as (I1 & I2). apply N.leb_le in I1, I2. apply B_char. exists 97%N, 122%N. split; [right; right; now left|auto]. }
  destruct s as [|c s]; [congruence|]. exists [c], (map (fun x => [x]) s). split; [|split; [apply B; now left|]].
  - cbn. f_equal. clear. induction s as [|x s IH]; cbn; congruence.
  - apply Forall_map, Forall_forall. intros x I. apply C_begins, B. now right.
Qed.
Example C144_case : let w := asked db in no_empty_text w /\ (forall k, k < length [1; 0] -> writable [lit "id"] (subtree db (firstn k [1; 0]))) /\
  xpath_to w [lit "id"] [1; 0] = lit "db/record[@id=""2""]" /\ xml_xpath w 9 (INode []) (Text (lit "db/record[@id=""2""]")) = ([INode [1]], Done) /\
  xpath_to w [] [1; 0] = lit "db/record" /\ xml_xpath w 9 (INode []) (Text (lit "db/record")) = ([INode [0]; INode [1]; INode [2]], Done) /\
  (forall b, S (length b) = length [1; 0] -> (forall k, k < length [1; 0] -> resembles [lit "id"] (subtree db (firstn k [1; 0])) (subtree db (firstn k b))) -> b = [1]).
Proof.
  cbv zeta. split; [now apply check_text|]. split.
  { intros [|[|k]] K; [| |cbn in K; lia]; intros n ats ks E; cbn in E; injection E as <- <- <-.
    - split; [apply plain_name; [reflexivity|discriminate]|]. intros k v _ X. discriminate X.
    - split; [apply plain_name; [reflexivity|discriminate]|]. intros k v [<-|[]] X. vm_compute in X. injection X as <-. split; [apply plain_name; [reflexivity|discriminate]|]. intros [X|[]]. discriminate X. }
  split; [reflexivity|]. split; [vm_compute; reflexivity|]. split; [reflexivity|]. split; [vm_compute; reflexivity|].
  intros b L R. destruct b as [|j [|j' b]]; [discriminate| |discriminate]. destruct (R 1 ltac:(cbn; lia)) as (n & ats & ks & ats' & ks' & E & E' & A). cbn [firstn] in E, E'.
  vm_compute in E. injection E as <- <- <-. specialize (A (lit "id") (lit "2") (or_introl eq_refl) eq_refl).
  destruct j as [|[|[|j]]]; cbn in E'; [|reflexivity| |destruct j; discriminate]; injection E' as <- <-; vm_compute in A; discriminate.
Qed.
Example C144_found_case : (forall a, writable [lit "id"] (subtree db a)) /\ fst (run (asked db) 3 (CmdFind (lit "b")) None None [lit "id"]) = [lit "db/record[@id=""2""]"] /\
  subtree db ([1; 0] ++ [0]) = Some (XT (lit "Bob")) /\ contains (lit "Bob") (lit "b").
Proof.
  split; [|split; [vm_compute; reflexivity|split; [reflexivity|exists (lit "Bo"), []; reflexivity]]].
  intros a n ats ks E. assert (I : In (a, XE n ats ks) (all_nodes db)) by now apply all_nodes_in. clear E. vm_compute in I.
  repeat (destruct I as [I|I]; [inversion I; subst; (split; [apply plain_name; [reflexivity|discriminate]|]); intros k v [<-|[]] X; vm_compute in X; try discriminate X; injection X as <-;
    (split; [apply plain_name; [reflexivity|discriminate]|]); intros [X|[]]; discriminate X|]). destruct I.
Qed.
