(** Entry points that fail before they do anything: ns_expat_callbacks (xml.py 51-83), html5iter.sender
    (html5iter.py), html5.markup_fragment (html5.py 353-367) and coax.run (coax.py). *)
From Verif Require Import PyStr Lex.
From Verif Require IsXml.

Inductive uexn := UType | UAttr | UName | UEncode.

(** ** Calls: the parameters of a function, in order, and whether they have a default; a call with so
    many positional arguments and these keywords (each at most once, which the syntax ensures). *)
Definition params : Type := list (str * bool).
Definition binds (ps : params) (npos : nat) (kws : list str) : bool :=
  Nat.leb npos (length ps)
  && forallb (fun k => existsb (str_eqb k) (map fst (skipn npos ps))) kws
  && forallb (fun p => snd p || existsb (str_eqb (fst p)) kws) (skipn npos ps).

(** xml.py 16 and 52, without [self] *)
Definition expat_init : params := [(lit "handler", false); (lit "prime_handler", true)].
Definition ns_init : params := [(lit "handler", false); (lit "asyncio_based_handler", true); (lit "stream", true)].
(** xml.py 16-22: [expat_callbacks(...)]; [None]: an object is made. *)
Definition make_expat (npos : nat) (kws : list str) : option uexn := if binds expat_init npos kws then None else Some UType.
(** xml.py 52-66: [ns_expat_callbacks(...)].  Line 53 is the call
    [expat_callbacks.__init__(self, handler, asyncio_based_handler=...)]. *)
Definition make_ns (npos : nat) (kws : list str) : option uexn :=
  if binds ns_init npos kws then if binds expat_init 1 [lit "asyncio_based_handler"] then None else Some UType else Some UType.

(** xmliter.py 36-38: the class is called with the handler alone. *)
Inductive cb_class := CbPlain | CbNs.
Definition make_xmliter (c : cb_class) : option uexn := match c with CbPlain => make_expat 1 [] | CbNs => make_ns 1 [] end.

(** ** Names of a module, attributes of an object *)
(** What treeutil exports (treeutil.py 11). *)
Definition treeutil_all : list str :=
  map lit ["descendants"; "select_elements"; "select_name"; "select_name_pattern"; "select_value"; "select_attribute";
           "following_siblings"; "select_pattern"; "make_pretty"]%string.
(** The global names of html5.py, besides those with two underscores: its imports (40-42, 46-47) and
    its definitions.  As a package's attribute a submodule of html5 would count too; html5 has none. *)
Definition html5_names : list str :=
  map lit ["tree"; "treeiter"; "html5lib"; "TreeBuilder"; "Node"; "node"; "qname_to_local"; "element"; "comment"; "document"; "doctype";
           "MARKER"; "BOGUS_NAMESPACE"; "NAME_FOR_ELEMENTS_UNNAMED_BY_HTML5LIB"; "XHTML_NAMESPACE"; "treebuilder"; "parse";
           "parse_lax_xml"; "markup_fragment"]%string ++ treeutil_all.
(** html5iter.py 27-32: [_handler()] makes a generator, which does not run; then [html5.parser]. *)
Definition html5iter_parse (doc : str) : option uexn :=
  if existsb (str_eqb (lit "parser")) html5_names then None else Some UAttr.

(** The attributes of an html5.element: those set in objects (tree.py 21-23, 73-75; html5.py 133, 285-287),
    those of the classes (tree.py 19-157; html5.py 50-158), and what html5lib's Node has. *)
Definition element_attrs : list str :=
  map lit ["_xml_parent"; "xml_name"; "xml_attributes"; "xml_children"; "_flags"; "xml_html5lib_namespace"; "xml_html5lib_name";
           "xml_parent"; "xml_encode"; "xml_write"; "xml_xpath"; "xml_value"; "xml_append"; "xml_insert"; "xml_remove";
           "parent"; "value"; "appendChild"; "removeChild"; "insertText"; "insertBefore"; "cloneNode"; "hasContent";
           "name"; "namespace"; "nameTuple"; "xml_get_childNodes_"; "xml_set_childNodes_"; "childNodes"; "xml_set_attributes_";
           "xml_get_attributes_"; "attributes"; "reparentChildren"]%string.
(** html5.py 365-367: the result of [parse] is an element or [None], which has no attributes but
    those with two underscores; [doc.html]. *)
Definition markup_fragment {A} (doc : option A) : option uexn :=
  match doc with
  | Some _ => if existsb (str_eqb (lit "html")) element_attrs then None else Some UAttr
  | None => Some UAttr
  end.

(** ** coax.py 18-24: the tokens come one by one, the first one is looked up in TOKEN_HANDLERS, which
    no statement defines.  Without a token the result is [None]. *)
Definition coax_run (l : lexer) (s : str) : option uexn :=
  if existsb (fun i => match i with Tok _ => true | Bad _ => false end) (fst (run l s)) then Some UName else None.

(** The global names of coax.py as imported (coax.py 10-15, 18, 35, 53, 63, 68), besides those with two underscores. *)
Definition coax_globals : list str :=
  map lit ["lex"; "START_ELEMENT"; "END_ELEMENT"; "TEXT"; "run"; "parse"; "start_tag"; "start_empty_tag"; "end_tag"]%string.
(** coax.py 54 and 69, without [self]; start_empty_tag (63) has start_tag's. *)
Definition tag_init : params := [(lit "name", false); (lit "attrmap", true)].
(** coax.py 53-57, 63, 68-71: [start_tag(...)], [start_empty_tag(...)], [end_tag(...)]; the last line of each
    constructor reads [g_ancestor_stack].  [set]: the names which the caller has put into the module. *)
Definition make_tag (set : list str) (npos : nat) (kws : list str) : option uexn :=
  if binds tag_init npos kws
  then if existsb (str_eqb (lit "g_ancestor_stack")) (set ++ coax_globals) then None else Some UName
  else Some UType.

(** ** coax.py 59-60, 64-65, 73-74: unparse of a tag that has been made after all.  Strings and bytes are added from
    left to right; [str.encode] (UnicodeEncodeError for surrogates) by what it gives, [enc]. *)
Inductive pyval := PyText (s : str) | PyBytes (l : list N).
Definition py_add (a : pyval) (b : pyval + uexn) : pyval + uexn :=
  match b with
  | inr x => inr x
  | inl b => match a, b with
             | PyText x, PyText y => inl (PyText (x ++ y)) | PyBytes x, PyBytes y => inl (PyBytes (x ++ y))
             | _, _ => inr UType
             end
  end.
Definition py_then (r : pyval + uexn) (b : pyval + uexn) : pyval + uexn := match r with inl a => py_add a b | inr x => inr x end.
Definition py_encode (enc : str -> list N) (s : str) : pyval + uexn :=
  if existsb IsXml.is_surrogate s then inr UEncode else inl (PyBytes (enc s)).
Inductive tag_class := StartTag | StartEmptyTag | EndTag.
(** [attrs]: what unparse_attrmap(self.attrmap) does, a function the module does not define and the caller may. *)
Definition unparse_tag (enc : str -> list N) (attrs : pyval + uexn) (k : tag_class) (name : str) : pyval + uexn :=
  match k with
  | StartTag => py_then (py_then (py_add (PyText (lit "<")) (py_encode enc name)) attrs) (inl (PyText (lit ">")))
  | StartEmptyTag => py_then (py_then (py_add (PyText (lit "<")) (py_encode enc name)) attrs) (inl (PyText (lit "/>")))
  | EndTag => py_then (py_add (PyText (lit "</")) (py_encode enc name)) (inl (PyText (lit ">")))
  end.
