(** The cases of the project's own tests (/repo/test/uxml), computed with the model: what the tests
    assert about the code holds of the model too. *)
From Verif Require Import PyStr Parser XTree Grammar Heap Builder HeapSpec Tree Writer Nodes Path Pattern TreeUtil Expat TreeIter TreeIterMore XmlIter.
From Verif Require Import XPath Lalr XGram XLex XQuery.

(** ** test_parser.py *)
(** Lines 112-125: the pieces are sent one by one, the last one flagged as final. *)
Fixpoint flagged (l : list str) : list (str * bool) :=
  match l with [] => [] | [x] => [(x, true)] | x :: r => (x, false) :: flagged r end.
Definition events_of (l : list str) : option (list event) :=
  match sends new_parser (flagged l) with (evs, Suspended _) => Some evs | _ => None end.
Example test_parser_1 : Forall (fun l => events_of l = Some
    [EvStart (lit "spam") [] []; EvChars (lit "eggs"); EvEnd (lit "spam") []])
  [[lit "<spam>eggs</spam>"];
   [lit " <spam>eggs</spam> "];
   [lit "  <spam>eggs</spam>  "];
   [lit "<"; lit "spam>eggs</spam>"];
   [lit "< "; lit "spam"; lit ">eggs</spam>"];
   [lit "< "; lit "spam"; lit ">"; lit "eggs</spam>"];
   [lit "< "; lit "spam"; lit ">eggs"; lit "</spam>"];
   [lit "< "; lit "spam"; lit ">eggs"; lit "<"; lit "/spam>"];
   [lit "< "; lit "spam"; lit ">eggs"; lit "<"; lit "/"; lit "spam>"];
   [lit "< "; lit "spam"; lit ">eggs"; lit "<"; lit "/"; lit "spam"; lit ">"];
   [lit "<s"; lit "pam>eggs</spam>"];
   [lit "<spa"; lit "m>eggs</spam>"];
   [lit "<spam"; lit ">eggs</spam>"];
   [lit "<spam>eggs</spam>"]].
Proof. repeat constructor; vm_compute; reflexivity. Qed.
Example test_parser_2 : Forall (fun l => events_of l = Some
    [EvStart (lit "spam") [(lit "x", lit "y")] []; EvChars (lit "eggs"); EvEnd (lit "spam") []])
  [[lit "<spam x='y'>eggs</spam>"];
   [lit "<spam x='y'>eggs</spam>"]].
Proof. repeat constructor; vm_compute; reflexivity. Qed.
Example test_parser_3 : Forall (fun l => events_of l = Some
    [EvStart (lit "spam") [] []; EvStart (lit "a") [] [lit "spam"]; EvChars (lit "b"); EvEnd (lit "a") [lit "spam"]; EvChars (lit "eggs"); EvEnd (lit "spam") []])
  [[lit "<spam><a>b</a>eggs</spam>"];
   [lit "<spam><a>b</a"; lit ">eggs</spam>"];
   [lit "<spam>"; lit "<a>b</a>eggs<"; lit "/spam>"];
   [lit "<spam>"; lit "<a>b</a>eggs</spam>"];
   [lit "<spam><a>"; lit "b</a>eggs</spam>"];
   [lit "<spam><a>"; lit "b</a"; lit ">eggs</spam>"];
   [lit "<spam><a>b<"; lit "/a>eggs</spam>"];
   [lit "<spam><a>b<"; lit "/a>eggs</spam>"];
   [lit "<spam><a>b</a>"; lit "eggs</spam>"];
   [lit "<spam><a>b</a>"; lit "eggs</sp"; lit "am>"];
   [lit "<sp"; lit "am><a>b</a>"; lit "eggs</spam>"];
   [lit "<"; lit "spam"; lit "><a>b</a>eggs"; lit "<"; lit "/spam>"];
   [lit "<"; lit "sp"; lit "am"; lit "><a>b</a>eggs"; lit "<"; lit "/spam>"];
   [lit "<sp"; lit "am><a>b</a>eggs"; lit "<"; lit "/spam>"];
   [lit "< "; lit "spam "; lit " ><a>b</a>eggs"; lit "<"; lit " / spam > "];
   [lit "<spam><a>b</a>eggs</spam>"]].
Proof. repeat constructor; vm_compute; reflexivity. Qed.
Example test_parser_4 : Forall (fun l => events_of l = Some
    [EvStart (lit "spam") [(lit "x", lit "y"); (lit "zz", lit "zzz")] []; EvStart (lit "a") [] [lit "spam"]; EvChars (lit "b"); EvEnd (lit "a") [lit "spam"]; EvChars (lit "eggs"); EvEnd (lit "spam") []])
  [[lit "<spam x='y' zz='zzz'><a>b</a>eggs</spam>"];
   [lit "<spam x='y' zz='zzz'><a>b</a>eggs</spam>"]].
Proof. repeat constructor; vm_compute; reflexivity. Qed.
Example test_parser_5 : Forall (fun l => events_of l = Some
    [EvStart (lit "spam") [(lit "x", lit "<y>"); (lit "zz", lit "zzz")] []; EvStart (lit "a") [] [lit "spam"]; EvChars (lit "b"); EvEnd (lit "a") [lit "spam"]; EvChars (lit "eggs"); EvEnd (lit "spam") []])
  [[lit "<spam x='&lt;y&#x3E;' zz='zzz'><a>b</a>eggs</spam>"];
   [lit "<spam x='&lt;y&#x3E;' zz='zzz'><a>b</a>eggs</spam>"]].
Proof. repeat constructor; vm_compute; reflexivity. Qed.
Example test_parser_6 : Forall (fun l => events_of l = Some
    [EvStart (lit "spam") [(lit "x", lit "<y>"); (lit "zz", lit "zzz")] []; EvStart (lit "a") [] [lit "spam"]; EvChars (lit " <boo!> "); EvEnd (lit "a") [lit "spam"]; EvChars (lit "eggs"); EvEnd (lit "spam") []])
  [[lit "<spam x='&lt;y&#x3E;' zz='zzz'><a> &lt;boo!&#x3E; </a>eggs</spam>"];
   [lit "<spam x='&lt;y&#x3E;' zz='zzz'><a> &lt;boo!&#x3E; </a>eggs</spam>"]].
Proof. repeat constructor; vm_compute; reflexivity. Qed.

(** ** test_tree.py *)
(** An execution of treebuilder.parse (no collection happens; C23), and the tree it returns. *)
Definition built (text : str) : option (heap * ref) :=
  match sends new_parser [(text, false); ([], true)] with
  | (evs, Suspended _) => let s := fold_left (fun s st => Builder.exec st s) (flat_map handler_stmts evs) (new_builder empty_heap) in
                          match broot s with Some i => Some (bheap s, i) | None => None end
  | _ => None
  end.
Fixpoint read (fuel : nat) (h : heap) (i : ref) : option xtree :=
  match fuel with
  | 0 => None
  | S f => match hp h i with
           | Some (OText s _) => Some (XT s)
           | Some (OElem n a ks _) => option_map (XE n a) (fold_right (fun k r => match read f h k, r with Some t, Some l => Some (t :: l) | _, _ => None end) (Some []) ks)
           | None => None
           end
  end.
Definition parsed (text : str) : xtree := match built text with Some (h, i) => match read 20 h i with Some t => t | None => XT [] end | None => XT [] end.
Definition DOC1 : str := lit "<a><b>1</b><b>2</b><b>3</b></a>".
Definition DOC2 : str := lit "<a><b>1</b><c>2</c><d>3</d></a>".
Definition DOC3 : str := lit "<a><b><x>1</x></b><c><x>2</x><d><x>3</x></d></c><x>4</x></a>".
Definition DOC4 : str := lit "<a><b><x>1</x></b><c><x>2</x><d><x>3</x></d></c><x>4</x><y>5</y></a>".
Definition DOC5 : str := lit "<a><b><x>1</x></b><b><x>2</x></b><b><x>3</x></b><b><x>4</x></b></a>".
Definition kids_of (h : heap) (i : ref) : list ref := match hp h i with Some o => okids o | None => [] end.
Definition last_ (l : list ref) : option ref := nth_error l (length l - 1).
Definition same_ref (x : option ref) (y : ref) : bool := match x with Some z => Nat.eqb z y | None => false end.
Definition nav (d : str) : option (option ref * bool * bool) :=
  match built d with
  | Some (h, i) => Some (xml_parent h i, match hp h i with Some (OElem _ _ _ _) => true | _ => false end, forallb (fun k => same_ref (xml_parent h k) i) (kids_of h i))
  | None => None
  end.
Example test_basic_nav : map nav [DOC1; DOC2; DOC3; DOC4; DOC5] = repeat (Some (None, true, true)) 5.
Proof. vm_compute. reflexivity. Qed.
(** Lines 38-50 *)
Definition mutated (d : str) : option (heap * ref * ref * ref) :=
  match built d with
  | Some (h, i) => let '(h1, e1) := alloc h (OElem (lit "dee") [(lit "a", lit "1")] [] None) in
      match xml_append h1 i (ARef e1) with
      | EOk h2 => let '(h3, e2) := alloc h2 (OElem (lit "dum") [(lit "a", lit "2")] [] None) in
                  match xml_insert h3 i (ARef e2) 0 with EOk h4 => Some (h4, i, e1, e2) | _ => None end
      | _ => None
      end
  | None => None
  end.
Example test_basic_mutate : map (fun d => match mutated d with Some (h, i, e1, e2) => same_ref (last_ (kids_of h i)) e1 && same_ref (nth_error (kids_of h i) 0) e2 | None => false end)
  [DOC1; DOC2; DOC3; DOC4; DOC5] = repeat true 5.
Proof. vm_compute. reflexivity. Qed.
(** Lines 53-65 *)
Definition add_remove (d : str) : option (nat * nat * nat * option str) :=
  match built d with
  | Some (h, i) => let '(h1, e) := alloc h (OElem (lit "dee") [(lit "a", lit "1")] [] None) in
      match xml_append h1 i (ARef e) with
      | EOk h2 => match xml_remove h2 i (ARef e) with
                  | EOk h3 => Some (length (kids_of h i), length (kids_of h2 i), length (kids_of h3 i), option_map xml_encode (read 5 h3 e))
                  | _ => None
                  end
      | _ => None
      end
  | None => None
  end.
Example test_add_remove : add_remove DOC1 = Some (3, 4, 3, Some (lit "<dee a=""1""></dee>")).
Proof. vm_compute. reflexivity. Qed.

(** ** test_treeutil.py *)
Example test_make_pretty : xml_encode (make_pretty 0 (lit "  ") (parsed DOC4)) =
  lit "<a>" ++ [10%N] ++ lit "  <b>" ++ [10%N] ++ lit "    <x>1</x>" ++ [10%N] ++ lit "  </b>" ++ [10%N] ++ lit "  <c>" ++ [10%N] ++ lit "    <x>2</x>" ++ [10%N] ++ lit "    <d>" ++ [10%N] ++ lit "      <x>3</x>" ++ [10%N] ++ lit "    </d>" ++ [10%N] ++ lit "  </c>" ++ [10%N] ++ lit "  <x>4</x>" ++ [10%N] ++ lit "  <y>5</y>" ++ [10%N] ++ lit "</a>".
Proof. vm_compute. reflexivity. Qed.


(** ** test_writer.py *)
Definition spam (a : dict str) : list wcall := [CStart (lit "spam") a false; CText (lit "eggs"); CEnd (lit "spam")].
Definition raw_of (a : dict str) : str := snd (raw_run (new_raw [] 0) (spam a)).
Definition ns_of (a : dict str) : str := snd (ns_run [([], lit "http://example.com")] [] new_namespacer (spam a)).
Example test_writer :
  raw_of [] = lit "<spam>eggs</spam>" /\
  raw_of [(lit "a", lit """"); (lit "b", lit "&")] = lit "<spam a='""' b=""&amp;"">eggs</spam>" /\
  raw_of [(lit "a", lit "'")] = lit "<spam a=""'"">eggs</spam>" /\
  ns_of [(lit "a", lit """"); (lit "b", lit "&")] = lit "<spam xmlns=""http://example.com"" a='""' b=""&amp;"">eggs</spam>" /\
  ns_of [(lit "a", lit "'")] = lit "<spam xmlns=""http://example.com"" a=""'"">eggs</spam>".
Proof. vm_compute. repeat split. Qed.

(** ** test_treeiter.py and the values in test_treegc.py *)
Definition sent_trees (s : tstate) : list (option xtree) := map (fun x => match x with (_, Some i, h) => read 20 h i | _ => None end) (tsent s).
Definition streamed (a : parg) (d : str) : option (list str) :=
  match norm_patterns a 1, sends new_parser [(d, true)] with
  | Some ps, (evs, Suspended _) => Some (map (fun t => match t with Some t => xml_value t | None => lit "?" end)
      (sent_trees (fst (handle1 (stateses ps) (TreeIter.new_handler (new_sender empty_heap ps)) evs))))
  | _, _ => None
  end.
Definition s_ (s : string) : rstage := RStr (lit s).
Example test_treeiter : map (fun x => streamed (ATuple (fst x)) (snd x))
  [([s_ "a"; s_ "b"], DOC1); ([s_ "a"; s_ "*"], DOC1); ([s_ "a"; RTup [lit "b"; lit "c"]], DOC2); ([s_ "a"; s_ "**"; s_ "x"], DOC3); ([s_ "*"; s_ "**"; s_ "x"], DOC3);
   ([s_ "a"; s_ "**"; s_ "x"], DOC4); ([s_ "*"; s_ "**"; s_ "x"], DOC4); ([s_ "*"; s_ "*"], DOC3); ([s_ "a"; s_ "b"], DOC5)] =
  map (fun l => Some (map lit l))
  [["1"; "2"; "3"]; ["1"; "2"; "3"]; ["1"; "2"]; ["1"; "2"; "3"; "4"]; ["1"; "2"; "3"; "4"]; ["1"; "2"; "3"; "4"]; ["1"; "2"; "3"; "4"]; ["1"; "23"; "4"]; ["1"; "2"; "3"; "4"]]%string.
Proof. vm_compute. reflexivity. Qed.

(** ** test_chunk_parse_write.py: what expat calls for /repo/test/resource/quoteattr.xml *)
Definition xmlns_ : str := lit "http://www.w3.org/XML/1998/namespace ".
Definition record (test id : string) (body : string) : list cb :=
  [CbStart (lit "http://example.com record") [(lit "test", lit test); (xmlns_ ++ lit "id", lit id); (xmlns_ ++ lit "lang", lit "en")]; CbChars (lit body); CbEnd (lit "http://example.com record")].
Definition indent_ : list cb := [CbChars [10%N]; CbChars (lit "  ")].
Definition quoteattr : list cb :=
  [CbNamespace; CbStart (lit "http://example.com wrapper") []] ++ indent_ ++ record """" "1&1" "One" ++ indent_ ++ record "'" "2&2" "Two" ++ [CbChars [10%N]; CbEnd (lit "http://example.com wrapper"); CbNamespace].
Example test_quoteattr1 :
  let p := [StName (lit "wrapper"); StName (lit "record")] in
  let sent := sent_trees (fst (handle1 (stateses [p]) (fst (new_xsender empty_heap [p])) (fst (callbacks [] quoteattr)))) in
  snd (ns_run [([], lit "http://example.com")] [] new_namespacer
    (CStart (lit "wrapper") [] false :: flat_map (fun t => match t with Some t => write_calls t | None => [] end) sent ++ [CEnd (lit "wrapper")])) =
  lit "<wrapper xmlns=""http://example.com""><record test='""' id=""1&amp;1"" lang=""en"">One</record><record test=""'"" id=""2&amp;2"" lang=""en"">Two</record></wrapper>".
Proof. vm_compute. reflexivity. Qed.

(** ** test_uxpath.py, from the texts of the documents and of the expressions *)
Definition N1 : xtree := parsed (lit "<a>+1+<b i=""1.1"">+2+<x>1</x></b><c i=""1.2""><x>2</x><d><x>3</x></d></c><x>4</x><y>5</y></a>").
Definition N10 : xtree := parsed (lit "<a><b>1</b><b>2</b><b>3</b></a>").
Definition N11 : xtree := parsed (lit "<a><b>1</b><c>2</c><d>3</d></a>").
Definition N12 : xtree := parsed (lit "<a><b><x>1</x></b><c><x>2</x><d><x>3</x></d></c><x>4</x></a>").
Definition N13 : xtree := parsed (lit "<a><b><x>1</x></b><c><x>2</x><d><x>3</x></d></c><x>4</x><y>5</y></a>").
Definition N14 : xtree := parsed (lit "<a><b><x>1</x></b><b><x>2</x></b><b><x>3</x></b><b><x>4</x></b></a>").
(** Lines 29 and 121-160; the variable a1.2, a node of another document, is left out. *)
Definition lex_env : lexenv := mkLx (fun _ => None) (fun _ => FFin 0 0).
Definition test_env (t : xtree) : env := world lex_env [(lit "a", IInt 1); (lit "b", IStr (lit "x")); (lit "a1", INode [])]
  (fun s => if str_eqb s (lit "2") then Some (FFin 2 0) else None) (fun _ => lit "?") t.
Definition show (t : xtree) (i : item) : str * str + item :=
  match i with
  | INode a => match subtree t a with
               | Some (XE n _ ks) => inl (n, flat_map (fun k => match k with XT s => s | _ => [] end) ks)
               | Some (XT s) => inl (lit "#text", s)
               | None => inr i
               end
  | IRoot => inl ([], [])
  | _ => inr i
  end.
Definition from (t : xtree) (i : item) (path : string) : res :=
  match uxpath_parse lex_env (lit path) with inl e => in_context (test_env t) 3 true i e | inr x => raise x end.
Definition case (t : xtree) (finder : option string) (path : string) : list (str * str + item) * fin :=
  let top := match finder with Some f => hd (IInt 0) (fst (from t (INode []) f)) | None => INode [] end in
  let '(l, f) := from t top path in (map (show t) l, f).
Definition n_ (a b : string) : str * str + item := inl (lit a, lit b).
Definition v_ (i : item) : str * str + item := inr i.
Example test_uxpath_relative_cases :
  [case N1 None "a";
   case N1 None "*";
   case N1 None "b";
   case N1 None "b/x";
   case N1 None "b[x]";
   case N1 None "a/b";
   case N1 None "a/*";
   case N1 None "a/b/x";
   case N1 None "a/b/*";
   case N1 None "a/b[x]";
   case N1 None "/a/c/d[x]";
   case N1 None "/a/c[d/x]";
   case N1 None "a/c/x";
   case N1 None "(a/b/x, a/c/x)"] =
  [([n_ "a" "+1+"], Done);
   ([n_ "a" "+1+"], Done);
   ([], Done);
   ([], Done);
   ([], Done);
   ([n_ "b" "+2+"], Done);
   ([n_ "b" "+2+"; n_ "c" ""; n_ "x" "4"; n_ "y" "5"], Done);
   ([n_ "x" "1"], Done);
   ([n_ "x" "1"], Done);
   ([n_ "b" "+2+"], Done);
   ([n_ "d" ""], Done);
   ([n_ "c" ""], Done);
   ([n_ "x" "2"], Done);
   ([n_ "x" "1"; n_ "x" "2"], Done)].
Proof. vm_compute. reflexivity. Qed.
Example test_uxpath_absolute_cases :
  [case N1 None "/";
   case N1 None "/a";
   case N1 None "//*";
   case N1 None "//node()";
   case N1 (Some "a/b"%string) "/";
   case N1 (Some "a/b"%string) "/a";
   case N1 (Some "a/b"%string) "//*";
   case N1 (Some "a/b"%string) "//node()"] =
  [([n_ "" ""], Done);
   ([n_ "a" "+1+"], Done);
   ([n_ "a" "+1+"; n_ "b" "+2+"; n_ "c" ""; n_ "x" "4"; n_ "y" "5"; n_ "x" "1"; n_ "x" "2"; n_ "d" ""; n_ "x" "3"], Done);
   ([n_ "" ""; n_ "a" "+1+"; n_ "#text" "+1+"; n_ "b" "+2+"; n_ "c" ""; n_ "x" "4"; n_ "y" "5"; n_ "#text" "+2+"; n_ "x" "1"; n_ "#text" "1"; n_ "x" "2"; n_ "d" ""; n_ "#text" "2"; n_ "x" "3"; n_ "#text" "3"; n_ "#text" "4"; n_ "#text" "5"], Done);
   ([n_ "" ""], Done);
   ([n_ "a" "+1+"], Done);
   ([n_ "a" "+1+"; n_ "b" "+2+"; n_ "c" ""; n_ "x" "4"; n_ "y" "5"; n_ "x" "1"; n_ "x" "2"; n_ "d" ""; n_ "x" "3"], Done);
   ([n_ "" ""; n_ "a" "+1+"; n_ "#text" "+1+"; n_ "b" "+2+"; n_ "c" ""; n_ "x" "4"; n_ "y" "5"; n_ "#text" "+2+"; n_ "x" "1"; n_ "#text" "1"; n_ "x" "2"; n_ "d" ""; n_ "#text" "2"; n_ "x" "3"; n_ "#text" "3"; n_ "#text" "4"; n_ "#text" "5"], Done)].
Proof. vm_compute. reflexivity. Qed.
Example test_uxpath_sequence_cases :
  [case N1 None "()";
   case N1 None "(1, 2)";
   case N1 None "(""a"", ""b"", ""c"")";
   case N1 None "(1, 2, 3, 4, 5)[. > 3]"] =
  [([], Done);
   ([v_ (IInt 1); v_ (IInt 2)], Done);
   ([v_ (IStr (lit "a")); v_ (IStr (lit "b")); v_ (IStr (lit "c"))], Done);
   ([v_ (IInt 4); v_ (IInt 5)], Done)].
Proof. vm_compute. reflexivity. Qed.
Example test_uxpath_axis_cases :
  [case N10 None "a/b[2]";
   case N10 None "a/b[2]/preceding-sibling::b";
   case N10 None "a/b[2]/preceding-sibling::*";
   case N10 None "a/b[1]/preceding-sibling::b";
   case N10 None "a/b[1]/preceding-sibling::*";
   case N10 None "a/b/preceding-sibling::b";
   case N10 None "a/b/preceding-sibling::*";
   case N10 None "a/b[2]/following-sibling::b";
   case N10 None "a/b[2]/following-sibling::*";
   case N10 None "a/b[3]/following-sibling::b";
   case N10 None "a/b[3]/following-sibling::*";
   case N10 None "a/b/following-sibling::b";
   case N10 None "a/b/following-sibling::*"] =
  [([n_ "b" "2"], Done);
   ([n_ "b" "1"], Done);
   ([n_ "b" "1"], Done);
   ([], Done);
   ([], Done);
   ([n_ "b" "1"; n_ "b" "2"; n_ "b" "1"], Done);
   ([n_ "b" "1"; n_ "b" "2"; n_ "b" "1"], Done);
   ([n_ "b" "3"], Done);
   ([n_ "b" "3"], Done);
   ([], Done);
   ([], Done);
   ([n_ "b" "2"; n_ "b" "3"; n_ "b" "3"], Done);
   ([n_ "b" "2"; n_ "b" "3"; n_ "b" "3"], Done)].
Proof. vm_compute. reflexivity. Qed.
Example test_uxpath_predicate_cases :
  [case N1 None "a/text()";
   case N1 None "a[starts-with(., ""+"")]";
   case N1 None "a/b[starts-with(., ""+"")]";
   case N1 None "a[not(starts-with(., ""+""))]";
   case N1 None "a[contains(., ""+"")]";
   case N1 None "a/b[contains(., ""+"")]";
   case N1 None "a[not(contains(., ""+""))]"] =
  [([n_ "#text" "+1+"], Done);
   ([n_ "a" "+1+"], Done);
   ([n_ "b" "+2+"], Done);
   ([], Done);
   ([n_ "a" "+1+"], Done);
   ([n_ "b" "+2+"], Done);
   ([], Done)].
Proof. vm_compute. reflexivity. Qed.
Example test_uxpath_function_cases :
  [case N14 None "count(a/b)";
   case N14 None "for-each(a/b, ""name(.)"")";
   case N14 None "for-each(/a/b, ""name(.)"")";
   case N14 None "for-each(a/b, ""name()"")";
   case N14 None "for-each(a/b, ""x"")";
   case N14 None "for-each(a/b, ""name(x)"")";
   case N1 None "substring(a, 2, 1)"] =
  [([v_ (IInt 4)], Done);
   ([v_ (IStr (lit "b")); v_ (IStr (lit "b")); v_ (IStr (lit "b")); v_ (IStr (lit "b"))], Done);
   ([v_ (IStr (lit "b")); v_ (IStr (lit "b")); v_ (IStr (lit "b")); v_ (IStr (lit "b"))], Done);
   ([v_ (IStr (lit "b")); v_ (IStr (lit "b")); v_ (IStr (lit "b")); v_ (IStr (lit "b"))], Done);
   ([n_ "x" "1"; n_ "x" "2"; n_ "x" "3"; n_ "x" "4"], Done);
   ([v_ (IStr (lit "x")); v_ (IStr (lit "x")); v_ (IStr (lit "x")); v_ (IStr (lit "x"))], Done);
   ([v_ (IStr (lit "1"))], Done)].
Proof. vm_compute. reflexivity. Qed.
Example test_uxpath_typecast_cases :
  [case N1 None "boolean(a)";
   case N1 None "boolean(a/b)";
   case N1 None "boolean(x)";
   case N1 None "boolean(x/y)";
   case N1 None "number(a/c/x)"] =
  [([v_ (IBool true)], Done);
   ([v_ (IBool true)], Done);
   ([v_ (IBool false)], Done);
   ([v_ (IBool false)], Done);
   ([v_ (IFlt (FFin 2 0))], Done)].
Proof. vm_compute. reflexivity. Qed.
Example test_uxpath_var_cases :
  [case N1 None "$a";
   case N1 None "$a1"] =
  [([v_ (IInt 1)], Done);
   ([n_ "a" "+1+"], Done)].
Proof. vm_compute. reflexivity. Qed.
