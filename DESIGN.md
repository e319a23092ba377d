# Formal model of amara3-xml (MicroXML / uxml) in Rocq/Coq 8.16.1

Everything under `rocq/theories` is plain Coq (standard library only).  `properties.jsonl`
lists the properties, `MANIFEST.json` maps each one to theorem names (both are written by
`tools/props.py`), `seeded/LOG.jsonl` records the experiments with wrong programs.

## Conventions

* A character is an `N` code point (`chr`), a Python `str` is `list N` (`str`).  Lone
  surrogates are therefore representable, as they are in Python.
* A Python `dict` is an insertion ordered association list with unique keys (`dict_set`
  keeps the position of an existing key, as CPython does).
* Exceptions are values.  A loop that may not terminate is run with fuel; running out of
  fuel is a separate outcome, and it is proved either that it does not occur or that it is
  genuine: no amount of fuel changes it.
* Generators/coroutines are modelled by their suspended state plus the list of values they
  yielded or sent before suspending / raising.
* Mutable nodes live in a heap of objects with identities; a node refers weakly to its
  parent.  Garbage collection is a relation: between any two steps any set of unreachable
  objects may disappear.  Theorems quantify over all executions.
* Every definition of a model file carries the file and line numbers it models.
* Files `Prop_*.v` contain the property theorems (closed by `exact lemma`), each with
  `Print Assumptions` and with an `Example` that exhibits a non-trivial instance of its
  hypotheses.  Small, self-contained specifications are in `*Spec.v` (and `XTree.v`,
  `Grammar.v`, `Path.v`).
* A property that the code violates is stated in `properties.jsonl` as a finding: the
  expectation, and what the code does instead.  Names of theorems with a witness against an
  expectation end in `_refuted`; where possible a universally quantified theorem says what
  does happen.

## Files

| model | specification | proofs | theorems | models |
|---|---|---|---|---|
| `PyStr`, `CharClass` | | | | Python `str`, `list`, `dict` operations; `xml.sax.saxutils`; the character classes of `parser.py` |
| `Parser` | `XTree`, `Grammar`, `ParserSpec` | `ParserS` `ParserM` `ParserFrag` `ParserInv` `ParserGram` `ParserMore` `ParserVal` `ParserClass` | `Prop_Parser` | `parser.py`: `handle_cdata`, the `parser` coroutine, `parse`, `parsefrags` |
| `Tree`, `Heap`, `Builder` | `TreeSpec`, `HeapSpec` | `TreeFacts` `TreeMore` `HeapFacts` `BuilderFacts` `BuilderMore` | `Prop_Tree` | `tree.py`: nodes, editing, serialisation; `tree.treebuilder`, `xml.treebuilder` |
| `Writer` | `WriterSpec` | `WriterFacts` | `Prop_Writer` | `writer.py` |
| `WriterHandler` | `WriterHandlerSpec` | `WriterHandlerFacts` | `Prop_WriterHandler` | `writer.py` with `whandler` |
| `Pattern`, `Nodes`, `TreeUtil` | `Path`, `PatternSpec`, `TreeUtilSpec` | `PatternFacts` `TreeUtilFacts` | `Prop_TreeUtil` | `treeutil.py` |
| `TreeIter` | `TreeIterSpec` | `TreeIterFacts` `TreeIterMore` | `Prop_TreeIter` | `treeiter.py`; the handler is that of `xmliter.py` and `html5iter.py` |
| `PatternFun` | `PatternFunSpec` | `PatternFunFacts` `PatternFunHeap` `PatternFunRun` `PatternFunStream` `PatternFunMore` | `Prop_PatternFun` | `treeiter.py` with functions in patterns, and several patterns |
| `SelectFun` | `SelectFunSpec` | `SelectFunFacts` `SelectFunStream` | `Prop_SelectFun` | `treeutil.select_pattern` with functions in the pattern |
| `XmlIter` | `XmlIterSpec` | `XmlIterFacts` | `Prop_XmlIter` | `xmliter.py`; when a sender sends |
| `TreeSink` | `TreeSinkSpec` | `TreeSinkFacts` `TreeSinkCollect` | `Prop_TreeSink` | `treeiter.py` with sinks that edit |
| `SinkStop` | `SinkStopSpec` | `SinkStopFacts`, `SinkStopMany` | `Prop_SinkStop` | `treeiter.py` with sinks that raise |
| `NsBook` | `NsBookSpec` | `NsBookFacts` | `Prop_NsBook` | `xml.py` 51-83 `ns_expat_callbacks` |
|  | `GreedySpec` | `GreedyFacts`, `GreedySelect`, `GreedySink` | `Prop_Greedy` | (`**` in the patterns of `TreeIter`, `XmlIter`, `PatternFun`, `SelectFun`, `TreeUtil`) |
| | `CutSpec` | `CutFacts` | `Prop_Cut` | (documents that break off, on the models `Builder` and `Expat`) |
| `HandlerStop` | `HandlerStopSpec` | `HandlerStopFacts` | `Prop_HandlerStop` | `parser.py` with handlers that raise |
| | `AgreeSpec` | `AgreeFacts` | `Prop_Agree` | `treeutil.py`, `uxpath/xast.py` and `treeiter.py` on the same request |
| `XPath` | `XPathSpec` | `XPathFacts` `XPathFuel` `XDecimal` `XPathMore` `XPathHere` `XPathExpr` `XPathFun` `XPathLast` | `Prop_XPath` | `uxpath/xast.py`, `uxpath/functions.py`, contexts of `uxpath/__init__.py` |
| `RootCache` | `RootSpec` | `RootFacts` | `Prop_XPath` | `root_node` and its cache (`xast.py`) |
| `DocOrder` | `DocOrderSpec` | `DocOrderFacts` `DocOrderInv` `DocOrderUse` `DocOrderCase` | `Prop_DocOrder` | document order numbers of union expressions (`xast.py`), over edited heaps |
| `Lalr`, `XGram` | `XGramSpec`, `XTok` | `XParse` `XSim` `XParseFacts` `XReads` `XCompose` `XFind` | `Prop_XSyntax` | PLY's LALR(1) tables and driver, `uxpath/parserules.py` |
| `XLex` | `XLexSpec` | `XLexFacts` `XText` `XSerial` | `Prop_XSyntax` | `uxpath/lexrules.py` as PLY runs it; serialisation of expressions |
| `XQuery` | | `XQueryFacts` `XPaths` | `Prop_XSyntax` | `node.xml_xpath`, `uxpath.qquery` |
| `XFuncs` | `XFuncsSpec` | `XFuncsFacts` | `Prop_XFuncs` | queries with functions given by the caller |
| `AttrCells` | `AttrCellsSpec` | `AttrCellsFacts` | `Prop_AttrCells` | identity of the attribute dictionaries of elements made by builders and senders |
| `Unusable` | | `UnusableFacts` | `Prop_Unusable` | entry points that always fail: `ns_expat_callbacks`, `html5iter.py`, `html5.markup_fragment`, `coax.py` |
| | `XItemSpec` | `XItemFacts` | `Prop_XItem` | steps from values, attributes, text nodes and the root, on the model in `XPath` |
| | `XNavSpec` | `XNav` `XNavOrder` `XNavMain` `XNavUse` | `Prop_XNav` | paths with conditions, on the model in `XPath` |
| `HeapNav` | `HeapNavSpec` | `HeapNavFacts` | `Prop_HeapNav` | location paths of `xast.py` over node objects |
| `PrettyHeap` | `PrettyHeapSpec` | `PrettyHeapFacts` | `Prop_PrettyHeap` | `make_pretty` of `treeutil.py` over node objects |
| `HeapEval` | `HeapEvalSpec` | `HeapEvalFacts`, `HeapEvalMain` | `Prop_HeapEval` | all expressions of `xast.py` and `functions.py` over node objects |
| `LiveIter` | `LiveIterSpec` | `LiveIterFacts`, `LiveIterMore`, `LiveIterTests`, `LiveIterLoops`, `LiveIterText` | `Prop_LiveIter` | the generators of `treeutil.py` as suspended computations, with edits between two calls of next() |
| `LivePath` | `LivePathSpec` | `LivePathFacts`, `LivePathLoops`, `LivePathEdits`, `LivePathCut`, `LivePathGrow` | `Prop_LivePath` | location paths of `xml_xpath` as suspended generators, with edits between two results |
| `HeapQuery` | `HeapQuerySpec` | `HeapQueryFacts` | `Prop_HeapQuery` | `node.xml_xpath` and `qquery` on node objects |
| `LiveEval` | `LiveEvalSpec` | `HeapEvalFuel`, `LiveEvalFacts`, `LiveEvalStart`, `LiveEvalLoops`, `LiveEvalUp`, `LiveEvalPath`, `LiveEvalSift`, `LiveEvalCut` | `Prop_LiveEval`, `Prop_LiveFilter` | `xml_xpath` with all expressions as suspended generators, with edits between two results |
| `Expat` | `ExpatSpec` | `ExpatFacts` | `Prop_Expat` | the expat callbacks of `xml.py` |
| `Html5` | `Html5Spec` | `Html5Facts` | `Prop_Html5` | `html5.py`: the nodes html5lib edits, results of `parse` |
| `Html5Hist` | `Html5HistSpec` | `Html5HistFacts` | `Prop_Html5Hist` | `html5.py`: sequences of html5lib's calls |
| `IsXml` | `IsXmlSpec` | `IsXmlFacts` | `Prop_IsXml` | `clib/xmlstring.c`: `isxml` |
| `Microx` | `MicroxSpec` | `MicroxFacts` | `Prop_Microx` | what the commands of `exec/microx` print |
| `MicroxMain` | `MicroxMainSpec` | `MicroxMainFacts` `MicroxPart`, `MicroxUse` | `Prop_MicroxMain` | sources, --partition and command line of `exec/microx` |
| `MicroxBad` | `MicroxBadSpec` | `MicroxBadFacts` | `Prop_MicroxBad` | `exec/microx` with sources that break off or that expat rejects |
| `MicroxNone` | `MicroxNoneSpec` | `MicroxNoneFacts` | `Prop_MicroxNone` | `exec/microx` with sources that have no element |
| `XRepr` | `XReprSpec` | `XReprFacts` | `Prop_XRepr` | `__repr__` of nodes and of parsed expressions |
| `XPath`, `XQuery` | `XClosedSpec` | `XClosedFacts` | `Prop_XClosed` | absolute expressions at different nodes |
| `XPath` | `XLawsSpec` | `XLawsFacts` | `Prop_XLaws` | expressions that give the same |
| `Microx`, `XText` | `MicroxLineSpec` | `MicroxLineFacts` | `Prop_MicroxLine` | lines of microx --find-text asked as expressions |
| `XPath` | `XStringsSpec` | `XStringsFacts` | `Prop_XStrings` | how the string functions go together |
| `XPath` | `XOrderSpec` | `XOrderFacts` | `Prop_XOrder` | comparisons turned round and negated |
| `MicroxHtml` | `MicroxHtmlSpec` | `MicroxHtmlFacts` | `Prop_Html5Hist` | --html and --lax of `exec/microx` |
| `Lex` | `LexSpec` | `LexFacts` `LexScan` `LexRun` | `Prop_Lex` | `lex.py` as PLY runs it |

## How the properties are proved

* **C01-C05, C14, C17, C18, C76-C78** literal model of the coroutine (window, position, state);
  extension lemmas: every section of the loop body behaves identically when more input is
  appended, except an unfinished attribute value.  The side condition of C01 is a small
  scanner automaton on the text, independent of the parser.
* **C06, C07** grammars as inductive relations, both directions.
* **C08-C13, C15, C16, C19** the scanner of character data lifted to the parser; progress
  measure; hang = genuine divergence.
* **C20-C34, C79** heap, invariants over event and operation sequences, garbage collection
  quantified; serialisation by induction on trees, using C06.
* **C35-C38, C80** writer calls as an operation list, output as a fold.
* **C39-C43, C82, C83** sender as state machine over the events of an arbitrary tree, heap as
  in C20.
* **C44-C49, C81** structural recursion on trees with positions.
* **C50-C68, C84-C88** evaluator of expressions; axes as listings of positions in document
  order.
* **C70-C75, C89-C98** expat callbacks, HTML adapter, isxml, microx, scanner.
* **C99-C106** the LALR(1) tables are computed inside Coq from the productions and
  precedences; the run on the tables is simulated by a recursive descent parser (case
  analysis over the states, one lemma per nonterminal), which is shown to read exactly an
  unambiguous grammar.  The lexer is shown to be maximal munch.  Queries combine C20, C50-C56
  and the syntax.
* **C107-C109** microx as a whole, from C70, C75, C39/C40 and C99-C106.
* **C110** a denotation of paths (relations between items) by recursion on expressions; the
  evaluator computes it, by induction on expressions from the axes of C50-C56.  Values are
  what functions make of the sets denoted by their arguments, in the order of C110_order.  Order and
  absence of duplicates: results of child steps from places that are not below each other.
* **C111** the numbers as a map over the heap of C20; invariant over histories of unions and
  edits: a tree is numbered as a whole, increasing in document order.
* **C112** the sender of C39 where sending is an arbitrary change of the heap; for the
  collector, the heap from the current subtree on simulates the sender of C39.
* **C125** C112 up to the send that raises; after it, the stack of names and the depth alone
  (no heap) decide how often something is sent.
* **C113, C114** the state machine of C39 composed with the callbacks of C70 over several
  calls of `parse`, and run on the parts of a document before and up to an address.
* **C121, C122** the state machine of C39 on events instead of names, for any number of patterns
  at once; an invariant over the heap with one open subtree per pattern.
* **C123** as C47, with positions of nodes as arguments of the functions.
* **C128** an invariant between the maps and the calls so far, call by call.
* **C129** a path is taken by a pattern iff the rest of it is by the state after one step; the
  theorems on streams and trees are about paths on which the states end as matched.
* **C130** beginnings of the events of a tree are the events of its beginnings, up to end events
  (induction over the tree); conversely by induction over the calls that report it.
* **C131** a relation between positions and objects, both ways unique by the invariant of C32;
  every loop over objects is matched with the loop over positions, whose length is known.
* **C132** by induction over the tree, with the heap before and after each call related (what is
  unchanged, kept, new); then a case distinction on objects inside and outside the element.
* **C133** each operation maps related values to related values (induction over the expression,
  and over the nesting of for-each); for unions the numbers are in the order of the positions
  (C111), so that sorting moves both lists alike.
* **C134** what is still to come is a relation between heap, cursors and nodes; each turn of a
  loop takes one node off it (induction over the relation).  Edits are described by what they do
  to the list behind a cursor; the loops that never end by an invariant of their turns.
* **C135** the stack of generators turn by turn, composed along the steps; a loop over a copied list
  keeps the invariant that what is left of the list is still there with its children.
* **C136** the evaluation over objects (C133) from the initial context, put together with the parser
  of documents (C20), the parser of expressions (C104) and the meaning of paths (C110).
* **C137** one turn of a generator is a function with fuel, monotone in it; without edits, induction over
  the expression against C133's evaluation; for loops, an invariant of the suspended generator.
* **C139** C130 and C22 for the builder; C114's state machine stopped after any number of events.
* **C140** by the first step of the path; the builder is as new after a source without an element.
* **C141** by the tokens that the text in braces consists of (as for C104, with blanks around the operator); the reprs of
  nodes by the first or last occurrence of a character that cannot be in the number next to it.
* **C142** induction over the expression; a context enters only by the root, by items that count as false, and by the
  numbering of unions.
* **C143** generators with exceptions form a monad; a sorted list of different numbers is determined by its elements.
* **C144** the line is spelled by a list of tokens, which the grammar reads as steps with predicates; its results by induction on the steps from the right.
* **C145** from the specifications of the single functions (C62, C88).
* **C146** from the single comparison that the four operators share, and C59, C86.
* **C138** a bisimulation between C135's stacks and C137's generators, turn by turn in both directions; for the
  removal, C135's invariant with the items passed over.
* **C127** the events of C01-C10, delivered up to the first at which the handler raises.
* **C126** both sides list the same nodes in document order, and there is one such list; for paths,
  C110 with the relation composed along the pattern.
* **C124** case analysis on axis, test and item; `ancestor` as in C53.
* **C119, C120** the calls of `write` that a writer makes, independent of the handler; the
  binding of arguments and names before the entry point does anything.
* **C115, C116** an invariant of heaps (children know their parents, finite trees) over
  histories of calls; microx on the documents that result.

## Simplifications

* Parser: only what the generator receives and yields; text of error messages is dropped.
  Handlers that raise are in `HandlerStop`, elsewhere they return.
* Trees: attribute dictionaries are values; which elements share a dictionary object is in
  `AttrCells`: with a treebuilder and with one pattern none do, with several patterns elements
  of different trees may (C118).  Elements made by the caller are taken to have dictionaries
  of their own.  Identities are never reused.  Children that are neither elements nor texts do
  not occur.
* Functions in patterns depend on the event, or the node, only.
* Builders and senders: the local variables of the running generator are roots for garbage
  collection.  In `TreeIter` the sink is called with the subtree and the heap at that moment
  and does not edit the tree; sinks that do are in `TreeSink`, sinks
  that raise in `SinkStop`.
* `TreeUtil` takes the tree as a value.  In `LiveIter` it is edited between two calls of next(), by
  xml_insert and xml_remove; assignments to `xml_children` (make_pretty) while an iterator is on the
  list are not represented, nor attribute edits.
* `LivePath` has the steps along self, child, descendant, descendant-or-self, following and the sibling
  axes, without predicates; the cache of root nodes is asked once, at the first next().  `LiveEval` has
  all axes and expressions; what is computed without a yield in between (predicates, operands of unions
  and comparisons, arguments of functions) is `HeapEval`'s.  There the cache of root nodes and the
  document order numbers belong to the moment, one per item: they may be anything at each call of
  next().  A dictionary iterator notices a change of the number of attributes; keys replaced one for
  one are not represented.  Nodes that are taken out stay alive (the caller holds them).
* XPath: one document per evaluation, not edited meanwhile (except in `LivePath` and `LiveEval`); nodes are positions in
  `XPath` (`HeapNav` and `HeapEval` have the objects, and C131 and C133 relate the two).  In
  `XPath` a union numbers the nodes afresh; the history of the numbers (`DocOrder`) and the
  cache of root nodes (`RootCache`) are modelled separately, and `!=` takes all root nodes of
  a document for one object.  Attribute nodes carry whether they were made by the operand of
  a `!=` at hand, are its context item, or come from variables.  Floats are dyadic rationals, infinities and nan; conversion
  between floats and decimal strings is a parameter; negative zero is not distinguished.
* MicroXPath syntax: PLY's tables are built as PLY builds them (precedence decides conflicts);
  its default reductions do not influence results and are left out.  Which characters beyond
  U+00FF are decimal digits and what float() makes of a decimal fraction are parameters.  The
  limit on digits of int() is not modelled.
* Scanner (`lex.py`): rule order, greedy matching with backtracking, states and skipping of
  illegal characters are modelled, line numbers are not.
* isxml: decoders by their results; little-endian; `y#` lengths fit.
* html5lib: a history of calls on the nodes.  Nodes are inserted only if they are in no list
  of children (html5lib removes them first) and not above the place.
* microx: sources are what expat reports of them, or what html5lib makes of them; opening files
  and URLs, and, for sources that have no element (`MicroxNone`), expressions other than
  location paths are not modelled.  Where expat finds an error is a
  parameter of `MicroxBad`.

## Not modelled

* The regular expression engine in general (each pattern used is modelled by what it
  matches), expat and html5lib (their calls are the input), `amara3.iri`,
  `amara3.util.coroutine` (assumed: primes the generator once), file and network input.
* CPython memory exhaustion and recursion limits, threads.
* Code behind entry points that fail before they get to it (C120).
  (`unparse` of the tags of `coax.py` is modelled, for a caller who has defined what is missing; the methods of `ns_expat_callbacks` are in `NsBook`, for an object whose attributes have
  been set as its `__init__` would after the call that fails.)

## Checks of the model against the project's tests

`Cases.v` computes, with the model, what the assertions in `/repo/test/uxml` say: all cases of
`test_parser`, `test_tree`, `test_treeutil`, `test_treeiter`, `test_writer`, `test_uxpath` (from
the texts of documents and expressions) and `test_chunk_parse_write` (from expat's calls), and the
values of `test_treegc`.  Left out: one variable that holds a node of another document, reference
counts, and `test_html5` (html5lib is not modelled).

## Trusted base

* The Coq 8.16.1 kernel, including its `vm_compute`.
* The reading of the source as cited at each definition, with the simplifications above.
* `Print Assumptions` follows every theorem; each one answers "Closed under the global
  context": no axioms are used, neither of the standard library nor our own.
