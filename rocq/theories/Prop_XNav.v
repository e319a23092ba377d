(** Theorems about what paths with conditions select (uxpath/xast.py), for documents given as
    trees and as texts. *)
From Verif Require Import PyStr XTree Grammar Path XPath XPathSpec XPathFacts XGramSpec XLex XLexSpec XQuery XQueryFacts XNavSpec XNav XNavOrder XNavMain XNavUse.
From Verif Require Import ParserInv ParserMore.
From Coq Require Import Sorted Permutation.

(** ** C110 *)
(** The nodes selected are those the path leads to; evaluation ends normally. *)
Theorem C110_selects w n e k k' c : proper w -> kind_of k e = Some k' -> of_kind w k c ->
  exists ls, eval w n e c = (ls, Done) /\ (forall d, In d ls <-> nav w e c d) /\ (forall d, In d ls -> of_kind w k' d) /\ (is_value k' = true -> exists i, ls = [i]).
Proof. intros W. exact (nav_result w n W e k k' c). Qed.
Print Assumptions C110_selects.
(** In document order, or from the end of it *)
Theorem C110_order w n e k k' c : proper w -> in_line e = true -> kind_of k e = Some k' -> of_kind w k c -> StronglySorted (direction w e) (fst (eval w n e c)).
Proof. intros W. exact (nav_line w n W e k k' c). Qed.
Print Assumptions C110_order.
(** Each once *)
Theorem C110_once w n e k k' c : proper w -> once e = true -> kind_of k e = Some k' -> of_kind w k c -> NoDup (fst (eval w n e c)).
Proof. intros W. exact (nav_once w n W e k k' c). Qed.
Print Assumptions C110_once.
(** Documents that the parser accepts are such documents. *)
Theorem C110_document text t w : lenient_doc text t -> doc w = t -> proper w.
Proof. exact (document_proper text t w). Qed.
Print Assumptions C110_document.
Theorem C110_query h v vs tf fs n text t s e k : lenient_doc text t -> expression v s e -> kind_of KElem e = Some k ->
  exists ls, (forall r, qquery_str h (world v vs tf fs) n text (Text s) r <-> r = (ls, Done)) /\
    (forall d, In d ls <-> nav (world v vs tf fs t) e IRoot d) /\
    (in_line e = true -> StronglySorted (direction (world v vs tf fs t) e) ls) /\ (once e = true -> NoDup ls).
Proof. exact (query_nav h v vs tf fs n text t s e k). Qed.
Print Assumptions C110_query.
(** [//n[@k='x']] selects each element of that name that has the attribute with that value once. *)
Theorem C110_attribute h v vs tf fs i text t n k x : lenient_doc text t -> XLexSpec.name n -> XLexSpec.name k -> ~ In 39%N x ->
  exists l out, listing t (fun _ u => exists ats ks, u = XE n ats ks /\ In (k, x) ats) l /\ Permutation out (nodes l) /\
    forall r, qquery_str h (world v vs tf fs) i text (Text (lit "//" ++ n ++ lit "[@" ++ k ++ lit "='" ++ x ++ lit "']")) r <-> r = (out, Done).
Proof. exact (attribute_query h v vs tf fs i text t n k x). Qed.
Print Assumptions C110_attribute.

(** A list of books *)
Definition lex0 : lexenv := mkLx (fun _ => None) (fun _ => FFin 0 0).
Definition books : xtree :=
  XE (lit "list") [] [XE (lit "book") [(lit "lang", lit "en"); (lit "id", lit "1")] [XE (lit "title") [] [XT (lit "T1")]; XE (lit "author") [] [XT (lit "A")]; XE (lit "author") [] [XT (lit "B")]];
                      XE (lit "book") [(lit "lang", lit "de")] [XE (lit "title") [] [XT (lit "T2")]];
                      XE (lit "box") [] [XE (lit "book") [(lit "id", lit "3"); (lit "lang", lit "en")] [XE (lit "title") [] [XT (lit "T3")]; XT (lit "x")]]].
Definition shop : env := world lex0 [] (fun _ => None) (fun _ => []) books.
Lemma shop_proper : proper shop. Proof. apply check_proper; reflexivity. Qed.
Definition parsed (s : string) : option expr := match uxpath_parse lex0 (lit s) with inl e => Some e | inr _ => None end.
Definition about (s : string) : option (option kind * bool * bool * (list item * fin)) :=
  option_map (fun e => (kind_of KElem e, in_line e, once e, eval shop 0 e IRoot)) (parsed s).
Example C110_case : proper shop /\ of_kind shop KElem IRoot /\
  map about ["/list/book[@lang='en']/title/text()"; "//book[@lang='en' and not(author)]/title"; "//title[../@id]"; "list//book"; "list/book/@*"; "list/book[author]/following-sibling::*//title"; "//author/.."]%string =
  [Some (Some KNode, true, true, ([INode [0; 0; 0]], Done));
   Some (Some KElem, false, true, ([INode [2; 0; 0]], Done));
   Some (Some KElem, false, true, ([INode [0; 0]; INode [2; 0; 0]], Done));
   Some (Some KElem, true, true, ([INode [0]; INode [1]; INode [2; 0]], Done));
   Some (Some KAttr, true, true, ([IAttr [0] (lit "lang") (lit "en") Made; IAttr [0] (lit "id") (lit "1") Made; IAttr [1] (lit "lang") (lit "de") Made], Done));
   Some (Some KElem, false, false, ([INode [1; 0]; INode [2; 0; 0]], Done));
   Some (Some KElem, false, false, ([INode [0]; INode [0]], Done))].
Proof. split; [exact shop_proper|]. split; [left; reflexivity|]. vm_compute. reflexivity. Qed.
(** Positions, texts, counts and unions *)
Example C110_conditions :
  map about ["/list/book[title='T1']/author[2]"; "list/*[preceding-sibling::book[1][@id]]"; "//book[count(author) > 1]"; "//book[contains(title, '3') or starts-with(title, 'T2')]/title"; "list/book | list/box/book";
             "/list/*[boolean(book)]/book[1]/title"; "list/box/book[ancestor::*[1]/book]"; "//author[.='B']"]%string =
  [Some (Some KElem, true, true, ([INode [0; 2]], Done));
   Some (Some KElem, true, true, ([INode [1]], Done));
   Some (Some KElem, false, true, ([INode [0]], Done));
   Some (Some KElem, false, true, ([INode [1; 0]; INode [2; 0; 0]], Done));
   Some (Some KElem, false, false, ([INode [0]; INode [1]; INode [2; 0]], Done));
   Some (Some KElem, true, true, ([INode [2; 0; 0]], Done));
   Some (Some KElem, true, true, ([INode [2; 0]], Done));
   Some (Some KElem, false, true, ([INode [0; 2]], Done))].
Proof. vm_compute. reflexivity. Qed.
(** Values, also in conditions; [last()] is never a position. *)
Example C110_values :
  map about ["list/book[last()]"; "//book[string-length(string(title)) > 1]/@id"; "concat(list/book/title, '-', count(list/book))"; "//*[name() = 'book'][string(@id) != '1']/title"; "list/book[string(@lang) < 'en']";
             "substring-before(list/book/@lang, 'n')"; "substring-after('T1', 'x')"; "list/box/book[substring(title, 2, 1) = '3']"; "list/book[count(//box)]"; "name(list/*[3])"; "list/*[false() or count(*) = 1]"; "count(list/book) >= 2"; "string(list/pen)"]%string =
  [Some (Some KElem, true, true, ([], Done));
   Some (Some KAttr, false, true, ([IAttr [0] (lit "id") (lit "1") Made; IAttr [2; 0] (lit "id") (lit "3") Made], Done));
   Some (Some KStr, false, false, ([IStr (lit "T1T2-2")], Done));
   Some (Some KElem, false, true, ([INode [1; 0]; INode [2; 0; 0]], Done));
   Some (Some KElem, true, true, ([INode [1]], Done));
   Some (Some KStr, false, false, ([IStr (lit "e")], Done));
   Some (Some KStr, false, false, ([IStr []], Done));
   Some (Some KElem, true, true, ([INode [2; 0]], Done));
   Some (Some KElem, true, true, ([INode [0]], Done));
   Some (Some KStr, false, false, ([IStr (lit "box")], Done));
   Some (Some KElem, true, true, ([INode [1]; INode [2]], Done));
   Some (Some KBool, false, false, ([IBool true], Done));
   Some (Some KStr, false, false, ([IStr []], Done))].
Proof. vm_compute. reflexivity. Qed.
(** In general a node is selected once for each way to it, and not in document order: the
    results of a path are not brought together as XPath has it. *)
Theorem C110_twice_refuted : exists w n e k c, proper w /\ kind_of KElem e = Some k /\ of_kind w KElem c /\ ~ NoDup (fst (eval w n e c)).
Proof.
  exists shop, 0, (EBin (EAbs true (Some (EStep AxChild (TName (lit "author"))))) OpPath (EAbbrev true)), KElem, IRoot. split; [exact shop_proper|]. split; [reflexivity|]. split; [left; reflexivity|].
  vm_compute. intros H. inversion H as [|? ? X _]; subst. apply X. left. reflexivity.
Qed.
Print Assumptions C110_twice_refuted.
Theorem C110_order_refuted : exists w n e k c, proper w /\ kind_of KElem e = Some k /\ once e = true /\ of_kind w KElem c /\ ~ StronglySorted (precedes w) (fst (eval w n e c)).
Proof.
  exists shop, 0, (EAbs true (Some (EStep AxChild TStar))), KElem, IRoot. split; [exact shop_proper|]. split; [reflexivity|]. split; [reflexivity|]. split; [left; reflexivity|].
  assert (E : exists l, fst (eval shop 0 (EAbs true (Some (EStep AxChild TStar))) IRoot) = INode [] :: INode [0] :: INode [1] :: INode [2] :: INode [0; 0] :: l) by (eexists; vm_compute; reflexivity).
  destruct E as (l & ->). intros H. do 2 apply StronglySorted_inv in H as (H & _). apply StronglySorted_inv in H as (_ & F). rewrite Forall_forall in F.
  specialize (F (INode [0; 0]) (or_intror (or_introl eq_refl))). inversion F as [|a b B| |]; subst. inversion B as [| |]; subst; lia.
Qed.
Print Assumptions C110_order_refuted.
