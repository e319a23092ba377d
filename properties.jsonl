{"id": "C01", "title": "Chunking does not change the parse (outside quoted attribute values)", "statement": "Feeding a document to the incremental parser in pieces gives exactly the same events, the same error (if any) and the same final state as feeding it in one piece, provided no piece boundary falls inside a quoted attribute value.", "quantifier": "every text (well formed or not) and every way of cutting it into any number of pieces none of whose boundaries lies between the opening and the closing quote of an attribute value", "why_tests_cant": "the number of cuts is exponential in the length of the text and every parser state must resume correctly; the existing \"character by character\" tests actually feed the whole document (they iterate over a 1-tuple)", "anchors": ["pylib/uxml/parser.py:parser", "pylib/uxml/parser.py:parsefrags", "pylib/uxml/parser.py:handle_cdata"]}
{"id": "C02", "title": "A chunk boundary inside a quoted attribute value is not safe (finding)", "statement": "The unrestricted claim \"any chunking gives the same result\" is violated: when a piece ends inside a quoted attribute value the parser resumes at the opening quote as if it started an attribute name; the result is an error, or silently different attributes.", "quantifier": "all plain attribute values cut at any point inside the quotes (always an error); some documents (silently different events)", "why_tests_cant": "needs the resume point of a coroutine after an arbitrary cut", "anchors": ["pylib/uxml/parser.py:parser"]}
{"id": "C03", "title": "Empty pieces are ignored", "statement": "Inserting empty strings anywhere in the sequence of pieces fed to the parser changes neither the events nor the final state.", "quantifier": "every piece list, every placement of empty pieces", "why_tests_cant": "unbounded number of placements", "anchors": ["pylib/uxml/parser.py:parser"]}
{"id": "C04", "title": "Events are always well nested and carry the right ancestors", "statement": "At every moment the events delivered so far are a prefix of a well nested sequence: every end event closes the most recently opened, still open element and bears its name, the ancestor list in each start/end event is the list of currently open element names outermost first, and character events only occur inside an open element. When the document is complete exactly one element has been opened and closed at the top level.", "quantifier": "every text, well formed or not, every chunking, every moment", "why_tests_cant": "quantifies over all malformed inputs and all intermediate moments", "anchors": ["pylib/uxml/parser.py:parser", "pylib/uxml/parser.py:event"]}
{"id": "C05", "title": "Delivered events are never retracted or reordered", "statement": "The events delivered after feeding some pieces are a prefix of the events delivered after feeding further pieces.", "quantifier": "every list of pieces and every continuation", "why_tests_cant": "histories of unbounded length", "anchors": ["pylib/uxml/parser.py:parser", "pylib/uxml/parser.py:parsefrags"]}
{"id": "C06", "title": "Every well-formed document of the supported MicroXML subset is parsed to exactly its content", "statement": "For every document text made of one element with start/end tags, attributes in either quote style, optional white space where the grammar allows it, literal characters, the five named references and hexadecimal references, the parser reaches the completed state and delivers exactly the start, character and end events of that document, with references decoded.", "quantifier": "every concrete syntax tree (any depth, width, white space, quoting, mix of references)", "why_tests_cant": "infinite language", "anchors": ["pylib/uxml/parser.py:parser", "pylib/uxml/parser.py:handle_cdata"]}
{"id": "C07", "title": "Completed parses come from documents of the (lenient) grammar", "statement": "If a text parses to completion then it is a rendering of some element tree in the lenient grammar the parser implements and the delivered events are exactly the events of that tree: nothing is invented.", "quantifier": "every text", "why_tests_cant": "quantifies over all strings", "anchors": ["pylib/uxml/parser.py:parser", "pylib/uxml/parser.py:handle_cdata"]}
{"id": "C08", "title": "Character references decode to the referenced character or are rejected", "statement": "In text and in attribute values of either quote style, &lt; &gt; &amp; &quot; &apos; decode to the corresponding character and &#xH..; decodes to code point H when this is a permitted MicroXML character, and raises an error otherwise; unknown alphanumeric names raise an error.", "quantifier": "every reference, every digit string, every surrounding text", "why_tests_cant": "unbounded digit strings and contexts", "anchors": ["pylib/uxml/parser.py:handle_cdata", "pylib/uxml/parser.py:CHARNAMES", "pylib/uxml/parser.py:CHARACTER"]}
{"id": "C09", "title": "Feeding non-final input terminates, except on junk before the document element (finding)", "statement": "Feeding a piece with more to come always returns or raises, unless the first non-blank character of the document is not \"<\", in which case the call never returns.", "quantifier": "every text and chunking", "why_tests_cant": "non-termination cannot be observed by a test", "anchors": ["pylib/uxml/parser.py:parser"]}
{"id": "C10", "title": "One-shot parse agrees with incremental parse on complete documents", "statement": "If feeding a text and then closing reaches the completed state, then feeding the same text flagged as final returns normally with the same events.", "quantifier": "every text", "why_tests_cant": "all strings", "anchors": ["pylib/uxml/parser.py:parser", "pylib/uxml/parser.py:parse"]}
{"id": "C11", "title": "Truncated documents (finding): silently accepted when closed separately, endless loop when flagged final", "statement": "For a truncated document, closing with an empty final piece returns normally without error; flagging the truncated text itself as final never returns when it stops inside a tag or inside character data.", "quantifier": "every document truncated inside a tag name, attribute or text", "why_tests_cant": "non-termination; all truncation points", "anchors": ["pylib/uxml/parser.py:parser", "pylib/uxml/parser.py:parse", "pylib/uxml/tree.py:treebuilder.parse"]}
{"id": "C12", "title": "Mismatched or surplus end tags are always rejected", "statement": "A completed parse never closes an element with a different name: an end tag whose name differs from the innermost open element raises an error as soon as it is complete, and an end tag with nothing open raises an error.", "quantifier": "every prefix of a document and every end tag", "why_tests_cant": "all documents", "anchors": ["pylib/uxml/parser.py:parser"]}
{"id": "C13", "title": "Nothing but white space may follow the document element", "statement": "After the document element has been closed, further white space is accepted and any other character raises an error, whatever the chunking.", "quantifier": "every complete document and every continuation", "why_tests_cant": "all continuations", "anchors": ["pylib/uxml/parser.py:parser"]}
{"id": "C14", "title": "Only legal characters are ever delivered", "statement": "Every character in every character event and in every attribute value delivered by the parser is a permitted MicroXML character, and element names are empty or match the name pattern.", "quantifier": "every input text", "why_tests_cant": "all strings", "anchors": ["pylib/uxml/parser.py:handle_cdata", "pylib/uxml/parser.py:CHARACTER", "pylib/uxml/parser.py:DATACHAR", "pylib/uxml/parser.py:NAMESTARTCHAR", "pylib/uxml/parser.py:NAMECHAR"]}
{"id": "C15", "title": "Characters not allowed in content are silently dropped (finding)", "statement": "Raw characters that the content pattern does not allow (\">\" , carriage return, control characters; also \"<\", tab and newline inside attribute values) are not reported: they are removed from the delivered value, all other characters being kept in order.", "quantifier": "every run of raw characters without \"<\" and \"&\"", "why_tests_cant": "all strings", "anchors": ["pylib/uxml/parser.py:handle_cdata"]}
{"id": "C16", "title": "Decimal and malformed references stall the parser instead of failing (finding)", "statement": "A \"&\" followed by something that is neither a hexadecimal reference nor an alphanumeric name makes the parser wait for input for ever: no later event is delivered whatever follows, and no error is raised when the document is closed.", "quantifier": "every such reference and every continuation of the document", "why_tests_cant": "no finite test shows that no continuation recovers", "anchors": ["pylib/uxml/parser.py:handle_cdata"]}
{"id": "C17", "title": "Attribute maps have unique keys and repeated attributes are last-wins (finding)", "statement": "The attribute map of every start event has no repeated key; if a start tag repeats an attribute the value of the last one is delivered, at the position of the first, and no error is raised.", "quantifier": "every input text; every attribute list", "why_tests_cant": "all attribute lists", "anchors": ["pylib/uxml/parser.py:parser"]}
{"id": "C18", "title": "Character data is delivered whole", "statement": "No character event is empty and no two character events are adjacent, whatever the chunking.", "quantifier": "every input and chunking", "why_tests_cant": "all inputs and cuts", "anchors": ["pylib/uxml/parser.py:parser"]}
{"id": "C19", "title": "The module level parse functions deliver a spurious first item (finding)", "statement": "parser.parse and parsefrags yield one None before the events, because their accumulator coroutine is primed twice.", "quantifier": "every text", "why_tests_cant": "stated for all texts", "anchors": ["pylib/uxml/parser.py:parse", "pylib/uxml/parser.py:parsefrags", "pylib/uxml/parser.py:handler"]}
{"id": "C20", "title": "The tree is exactly the parsed document", "statement": "The tree built from the events of a document has the same elements, attributes, text and order as the document; each child has its containing element as parent and the root has none.", "quantifier": "every document tree", "why_tests_cant": "all trees", "anchors": ["pylib/uxml/tree.py:treebuilder"]}
{"id": "C21", "title": "A tree builder can be reused", "statement": "tree.treebuilder.parse returns a result that depends only on its argument, not on what the builder parsed before (including truncated documents).", "quantifier": "every history of previous parses and every document", "why_tests_cant": "histories of any length", "anchors": ["pylib/uxml/tree.py:treebuilder.parse"]}
{"id": "C22", "title": "The XML tree builder cannot be reused (finding)", "statement": "After one complete document, every further call of parse on the same xml.treebuilder returns the root of the first document, whose tree is unchanged; after a truncated first document the second document becomes a child of the innermost unclosed element of the first.", "quantifier": "every pair of documents", "why_tests_cant": "all pairs of documents, all states in between", "anchors": ["pylib/uxml/xml.py:treebuilder.parse", "pylib/uxml/tree.py:treebuilder._handler"]}
{"id": "C23", "title": "Tree building is safe against garbage collection", "statement": "Whenever and whatever the garbage collector reclaims among unreachable objects during building, the builder delivers the same tree: the weak parent references it follows are never dead while needed.", "quantifier": "every document and every garbage collection schedule", "why_tests_cant": "schedules cannot be enumerated by tests", "anchors": ["pylib/uxml/tree.py:treebuilder", "pylib/uxml/tree.py:node.xml_parent"]}
{"id": "C24", "title": "Serialising then parsing restores the tree", "statement": "For every tree whose names are valid and whose attribute values contain no tab, newline or carriage return, parsing the serialisation gives back the tree, with adjacent text merged, empty text removed and characters that are not MicroXML characters removed (so exactly the same tree when there are none).", "quantifier": "every tree", "why_tests_cant": "all trees, all strings", "anchors": ["pylib/uxml/tree.py:element.xml_encode", "pylib/uxml/tree.py:parse"]}
{"id": "C25", "title": "Attribute values with tab, newline or carriage return do not survive a round trip (finding)", "statement": "If any attribute value in the tree contains a tab, newline or carriage return, parsing the serialisation returns no complete tree.", "quantifier": "every tree with such an attribute value", "why_tests_cant": "all trees", "anchors": ["pylib/uxml/tree.py:element.xml_encode", "pylib/uxml/parser.py:handle_cdata"]}
{"id": "C26", "title": "Serialisation is injective on normalised trees", "statement": "Two normalised trees in the round-trip domain with the same serialisation are equal.", "quantifier": "every pair of trees", "why_tests_cant": "all pairs", "anchors": ["pylib/uxml/tree.py:element.xml_encode"]}
{"id": "C27", "title": "The string value of a node is the concatenation of its text in document order", "statement": "xml_value and strval agree on every node and equal the concatenation, in document order, of all text contained in it.", "quantifier": "every tree", "why_tests_cant": "all trees", "anchors": ["pylib/uxml/tree.py:element.xml_value", "pylib/uxml/tree.py:strval"]}
{"id": "C28", "title": "Inserting puts the child at the requested position", "statement": "xml_append adds at the end; xml_insert with index i places the child at the position Python list insertion defines (clamped) and index -1 means the end; the other children keep their relative order, and an inserted element has the receiver as parent.", "quantifier": "every heap, element, child and integer index", "why_tests_cant": "all indexes, all trees", "anchors": ["pylib/uxml/tree.py:element.xml_insert", "pylib/uxml/tree.py:element.xml_append"]}
{"id": "C29", "title": "Removing detaches exactly the given element", "statement": "xml_remove of an element child removes that occurrence only, keeps the other children in order and clears its parent; if it is not a child an error is raised and nothing changes.", "quantifier": "every heap, element and child", "why_tests_cant": "all trees", "anchors": ["pylib/uxml/tree.py:element.xml_remove"]}
{"id": "C30", "title": "Removing a text node may remove another one (finding)", "statement": "Because text nodes compare by value, removing a text node removes the first child text with the same characters.", "quantifier": "all children lists with an earlier equal text", "why_tests_cant": "needs the general list semantics", "anchors": ["pylib/uxml/tree.py:element.xml_remove", "pylib/uxml/tree.py:text"]}
{"id": "C31", "title": "Appending an existing text node attaches a copy (finding)", "statement": "Inserting a text node stores a new text node: the given object keeps its parent unchanged.", "quantifier": "every heap, element and text node", "why_tests_cant": "all states", "anchors": ["pylib/uxml/tree.py:element.xml_insert"]}
{"id": "C32", "title": "Parent and child links stay consistent under disciplined editing", "statement": "Starting from a parsed tree and applying any sequence of inserting detached or new nodes and removing element children, every child of an element has that element as parent, no element occurs twice as a child, and an element that is nobody's child and has been removed has no parent.", "quantifier": "every sequence of such operations", "why_tests_cant": "histories of any length", "anchors": ["pylib/uxml/tree.py:element.xml_insert", "pylib/uxml/tree.py:element.xml_remove"]}
{"id": "C33", "title": "Undisciplined insertion breaks the tree (finding)", "statement": "Inserting an element that already has a parent leaves it in both child lists.", "quantifier": "some histories", "why_tests_cant": "-", "anchors": ["pylib/uxml/tree.py:element.xml_insert"]}
{"id": "C34", "title": "Markup in data cannot escape", "statement": "The serialisation of text contains no \"<\" and no \">\" and every \"&\" in it starts one of the references the parser decodes; the serialisation of an attribute value contains its quote only at both ends.", "quantifier": "every string", "why_tests_cant": "all strings", "anchors": ["pylib/uxml/tree.py:element.xml_encode", "pylib/uxml/writer.py:raw.write"]}
{"id": "C35", "title": "The raw writer and xml_encode agree", "statement": "Writing any element through the raw writer without indentation outputs exactly what xml_encode returns.", "quantifier": "every tree", "why_tests_cant": "all trees", "anchors": ["pylib/uxml/writer.py:write", "pylib/uxml/writer.py:raw", "pylib/uxml/tree.py:element.xml_encode"]}
{"id": "C36", "title": "Balanced writer calls produce a document that parses back to the same events", "statement": "For any properly nested sequence of start_element/text/end_element calls with valid names and attributes, the text written parses to the corresponding events.", "quantifier": "every balanced call sequence", "why_tests_cant": "all sequences", "anchors": ["pylib/uxml/writer.py:raw"]}
{"id": "C37", "title": "The namespacing writer declares the prefixes exactly once, on the first element", "statement": "The output of the namespacing writer is the output of the raw writer with the prefix declarations inserted right after the name of the first element, and with mapped names prefixed; with no prefixes and no mapping the outputs are identical.", "quantifier": "every call sequence, every prefix table and mapping", "why_tests_cant": "all histories", "anchors": ["pylib/uxml/writer.py:namespacer"]}
{"id": "C38", "title": "Writer indentation only adds white space", "statement": "With white space indentation the output differs from the unindented output only by added white space outside tags, and depth bookkeeping returns to its start value after balanced calls. Exactly these line breaks are added: before a start tag if only text was written since the start tag of its parent, and after every end tag and every empty element tag; each is followed by the indentation of the nesting level reached there (so children after the first, and end tags after children, stand one level deeper than the first child).", "quantifier": "every call sequence and indent", "why_tests_cant": "all histories", "anchors": ["pylib/uxml/writer.py:raw"]}
{"id": "C39", "title": "Streaming delivers exactly the outermost matching subtrees", "statement": "A sender with one pattern sends its sink, in document order, exactly the subtrees rooted at the elements whose path from the document element matches the pattern and that have no matching ancestor, each equal to the corresponding subtree of the whole document tree.", "quantifier": "every document tree and every pattern of names, \"*\" and alternatives", "why_tests_cant": "all trees and patterns", "anchors": ["pylib/uxml/treeiter.py:sender"]}
{"id": "C40", "title": "Streaming with \"**\"", "statement": "With a \"**\" stage the sender uses the earliest position at which the following stage matches, and never reconsiders: for \"**\" directly before the last stage this is exact (all outermost elements matching the last stage below the prefix), otherwise some matching subtrees are missed (finding).", "quantifier": "every tree; some trees for the finding", "why_tests_cant": "all trees", "anchors": ["pylib/uxml/treeiter.py:sender._any_until"]}
{"id": "C41", "title": "Several patterns in one sender interfere (finding)", "statement": "With two or more patterns the stack of open elements is shared and each pattern is chained to the earlier ones: a sink never gets anything, whatever the document, if the chain for its pattern starts with two different names; so two patterns that each deliver alone can deliver nothing together.", "quantifier": "every list of two or more patterns, every sequence of events", "why_tests_cant": "-", "anchors": ["pylib/uxml/treeiter.py:sender.__init__", "pylib/uxml/treeiter.py:sender._prep_patterns"]}
{"id": "C42", "title": "A sender only holds the current subtree", "statement": "While streaming, the tree nodes referenced by a sender are exactly those of the subtree currently being built (or the last one sent); everything else of the document is never materialised.", "quantifier": "every document, pattern and moment", "why_tests_cant": "every moment of unbounded documents", "anchors": ["pylib/uxml/treeiter.py:sender"]}
{"id": "C43", "title": "Streaming a document agrees with building the tree and selecting", "statement": "For every document, the subtrees sent for a pattern r/p are the results of select_pattern with p on the fully built tree if the document element satisfies the stage r, and none otherwise; for a pattern starting with \"**\" they are the results of select_pattern with the same pattern, provided the document element itself does not satisfy the next stage (otherwise they differ). Patterns without alternatives, not ending in \"**\".", "quantifier": "every document and pattern", "why_tests_cant": "all", "anchors": ["pylib/uxml/treeiter.py:sender", "pylib/uxml/treeutil.py:select_pattern"]}
{"id": "C44", "title": "descendants enumerates every descendant element once, in document order", "statement": "descendants yields each element strictly below the start exactly once, in document order, and nothing else.", "quantifier": "every tree", "why_tests_cant": "all trees", "anchors": ["pylib/uxml/treeutil.py:descendants"]}
{"id": "C45", "title": "The select functions are exact order-preserving filters", "statement": "select_elements, select_name, select_value and select_attribute yield exactly the source items that satisfy the stated condition, in order.", "quantifier": "every source sequence and argument", "why_tests_cant": "all sequences", "anchors": ["pylib/uxml/treeutil.py:select_elements", "pylib/uxml/treeutil.py:select_name", "pylib/uxml/treeutil.py:select_value", "pylib/uxml/treeutil.py:select_attribute"]}
{"id": "C46", "title": "following_siblings yields what follows the element", "statement": "For an element that is a child of its parent, following_siblings yields exactly the siblings after it, in order; for a text node that repeats an earlier text it also yields itself and what lies between (finding).", "quantifier": "every children list", "why_tests_cant": "all lists", "anchors": ["pylib/uxml/treeutil.py:following_siblings"]}
{"id": "C47", "title": "select_pattern selects by path", "statement": "Without \"**\" select_pattern yields, in document order, exactly the elements whose path below the start matches the pattern; with \"**\" before the last stage it yields exactly the outermost matching elements (finding: documented as any descendant); in general it yields only matching elements, but may miss some (finding); alternatives raise an error and a trailing \"**\" never yields anything (findings).", "quantifier": "every tree and pattern", "why_tests_cant": "all trees and patterns", "anchors": ["pylib/uxml/treeutil.py:select_pattern", "pylib/uxml/treeutil.py:_prep_pattern", "pylib/uxml/treeutil.py:any_until"]}
{"id": "C48", "title": "make_pretty only touches white space", "statement": "make_pretty keeps all elements, attributes and their order, and all text that is not entirely white space, at the same place relative to the elements; every text it adds or changes is white space.", "quantifier": "every tree, depth and white space indent", "why_tests_cant": "all trees", "anchors": ["pylib/uxml/treeutil.py:make_pretty"]}
{"id": "C49", "title": "make_pretty is not idempotent and ignores the indent below the first level (finding)", "statement": "Applying make_pretty again to an element that had only elements in it changes the indentation of its end tag, the third application changes nothing more; a custom indent is used for the top level only.", "quantifier": "every element for the indent claim; some for idempotence", "why_tests_cant": "all trees", "anchors": ["pylib/uxml/treeutil.py:make_pretty"]}
{"id": "C50", "title": "child axis", "statement": "child::name yields exactly the child elements with that name in document order, child::* all child elements, child::text() all text children and child::node() all children (name tests always; the others in documents without empty text nodes, as parsed documents are).", "quantifier": "every document and context node", "why_tests_cant": "all trees", "anchors": ["pylib/uxml/uxpath/xast.py:step.compute", "pylib/uxml/uxpath/xast.py:name_test", "pylib/uxml/uxpath/xast.py:node_type_test"]}
{"id": "C51", "title": "descendant axis", "statement": "descendant::name yields exactly the descendant elements of that name, each once, in document order; descendant-or-self adds the context node first. Finding: descendant::* also yields text nodes, unlike child::*.", "quantifier": "every document and context node", "why_tests_cant": "all trees", "anchors": ["pylib/uxml/uxpath/xast.py:step.compute"]}
{"id": "C52", "title": "sibling axes", "statement": "following-sibling and preceding-sibling yield exactly the siblings after (in document order) and before (in reverse document order) a context element, filtered by the node test. Finding: a context text node is looked up by equality, so with an equal earlier text sibling the wrong siblings are selected.", "quantifier": "every document and context element", "why_tests_cant": "all trees", "anchors": ["pylib/uxml/uxpath/xast.py:step.compute"]}
{"id": "C53", "title": "parent and ancestor axes", "statement": "ancestor::name yields the ancestors with that name, nearest first, followed by the root node; parent of an element is its containing element if it passes the test, and the root node for the document element.", "quantifier": "every document and context element", "why_tests_cant": "all trees", "anchors": ["pylib/uxml/uxpath/xast.py:step.compute", "pylib/uxml/uxpath/xast.py:abbreviated_step"]}
{"id": "C54", "title": "Broken axes (finding)", "statement": "preceding never yields anything; following misses what follows ancestors; ancestor-or-self never completes normally: it loops for ever below the document element and fails at the document element.", "quantifier": "every document and context node", "why_tests_cant": "non-termination; all trees", "anchors": ["pylib/uxml/uxpath/xast.py:step.compute"]}
{"id": "C55", "title": "A leading // reaches every element exactly once", "statement": "//name yields exactly the elements of the document with that name, each once, grouped by parent in document order of the parents (finding: not in document order), whatever element of the document is the context; //E is E evaluated at the root and at every node in document order.", "quantifier": "every document and context node", "why_tests_cant": "all trees", "anchors": ["pylib/uxml/uxpath/xast.py:absolute_path.compute"]}
{"id": "C56", "title": "Inner // includes the starting node (finding)", "statement": "a//b is evaluated as descendant-or-self::b from each a: it yields every b below each a, and in addition a itself when the test accepts it; an attribute step after // loses its axis, and anything but a single step after an inner // is evaluated without any descent.", "quantifier": "every document", "why_tests_cant": "all trees", "anchors": ["pylib/uxml/uxpath/xast.py:binary_expression.compute"]}
{"id": "C57", "title": "Predicates filter by position and truth", "statement": "E[p1]..[pn] yields, in order, exactly the items of E at which every predicate holds, a numeric predicate value meaning equality with the 1-based position in E (not renumbered between predicates) and any other value its truth value. A value that is not a number (nan) is a ValueError, an infinite one an OverflowError.", "quantifier": "every sequence, every predicate list", "why_tests_cant": "all sequences", "anchors": ["pylib/uxml/uxpath/xast.py:predicated_expression.compute"]}
{"id": "C58", "title": "Union is in document order but not a set (finding)", "statement": "A union of element sequences is the sorted merge of both operands in document order, keeping duplicates; unions involving text or attributes fail.", "quantifier": "every document and operands", "why_tests_cant": "all trees", "anchors": ["pylib/uxml/uxpath/xast.py:binary_expression.compute", "pylib/uxml/uxpath/xast.py:index_docorder"]}
{"id": "C59", "title": "Equality comparison", "statement": "When the left operand is a single item and no right item is a node, E1 = E2 is true exactly when some right item equals the string value (or value) of the left item; with several left items only the first is compared, and a node on the right makes the comparison fail (finding).", "quantifier": "every operand sequences", "why_tests_cant": "all sequences", "anchors": ["pylib/uxml/uxpath/xast.py:binary_expression.compute"]}
{"id": "C60", "title": "Boolean casts and connectives", "statement": "boolean() is false exactly for the empty sequence, false, zero and the empty string as first item; not() is its negation on non-empty sequences; and/or return one of their operands' first items with the corresponding truth value.", "quantifier": "every sequence", "why_tests_cant": "all sequences", "anchors": ["pylib/uxml/uxpath/xast.py:to_boolean", "pylib/uxml/uxpath/functions.py:boolean", "pylib/uxml/uxpath/functions.py:_not"]}
{"id": "C61", "title": "count counts, sequences concatenate, for-each maps", "statement": "count(E) is the number of items of E; (E1, ..., En) is the concatenation of the operands; for-each(E, s) is the concatenation of s evaluated at each item of E.", "quantifier": "every expression list", "why_tests_cant": "all expressions", "anchors": ["pylib/uxml/uxpath/functions.py:count", "pylib/uxml/uxpath/xast.py:Sequence", "pylib/uxml/uxpath/functions.py:foreach_"]}
{"id": "C62", "title": "String functions", "statement": "concat joins the string values of all items of its arguments; contains and starts-with decide the substring and prefix relations; substring-before/after split at the first occurrence, and when there is none substring-before returns the whole string (finding); the substring function with start below 1 slices from the end (finding); with any literals for start and length substring is the slice [start-1:start-1+length] of the string; for a start that is not a literal it raises (finding).", "quantifier": "every strings", "why_tests_cant": "all strings", "anchors": ["pylib/uxml/uxpath/functions.py:concat", "pylib/uxml/uxpath/functions.py:contains", "pylib/uxml/uxpath/functions.py:starts_with", "pylib/uxml/uxpath/functions.py:substring_before", "pylib/uxml/uxpath/functions.py:substring_after", "pylib/uxml/uxpath/functions.py:substring"]}
{"id": "C63", "title": "The root node is a function of the tree, for every query history", "statement": "As long as trees are not edited, asking for the root of any node yields a root whose only child is the document element of that node, whatever roots were asked for before, for any number of documents. A root node object made for an element is found for it ever after, and a root node is its own root. Findings: different elements of one document get different root node objects, and the object found for an element can change because another element was asked for.", "quantifier": "every history of root lookups over every forest", "why_tests_cant": "cache histories of any length", "anchors": ["pylib/uxml/uxpath/xast.py:root_node.get"]}
{"id": "C64", "title": "The root cache is stale after editing (finding)", "statement": "After an element is moved under another element, the root found for it is still the old one.", "quantifier": "some histories", "why_tests_cant": "-", "anchors": ["pylib/uxml/uxpath/xast.py:root_node.get"]}
{"id": "C65", "title": "Queries return nodes of the document and do not change it", "statement": "Every node yielded by evaluating an expression belongs to the queried document (or is its root node or one of its attributes), and evaluation is repeatable: the second evaluation of the same parsed expression on the same tree gives the same result.", "quantifier": "every expression, document and context", "why_tests_cant": "all expressions", "anchors": ["pylib/uxml/uxpath/xast.py:binary_expression.compute", "pylib/uxml/uxpath/__init__.py:context"]}
{"id": "C66", "title": "Falsy items keep the outer context (finding)", "statement": "Stepping to an item that is 0, false or an empty string leaves the context item unchanged.", "quantifier": "every context and falsy item", "why_tests_cant": "all contexts", "anchors": ["pylib/uxml/uxpath/__init__.py:context.copy"]}
{"id": "C67", "title": "Unary minus never works (finding)", "statement": "Evaluating a negated expression always raises.", "quantifier": "every expression", "why_tests_cant": "all expressions", "anchors": ["pylib/uxml/uxpath/xast.py:unary_expression.compute"]}
{"id": "C68", "title": "Serialised expressions do not determine the expression (finding)", "statement": "Two different expressions (a string literal and a step) serialise to the same text, so serialising cannot be inverted.", "quantifier": "some expressions", "why_tests_cant": "-", "anchors": ["pylib/uxml/uxpath/xast.py:serialize", "pylib/uxml/uxpath/xast.py:literal_wrapper._serialize"]}
{"id": "C70", "title": "Namespaces are stripped consistently", "statement": "For every expanded name whose namespace has no white space, the start and end events carry the same local name, ancestor lists are the open local names, and events are well nested whenever the underlying parser's callbacks are.", "quantifier": "every callback sequence", "why_tests_cant": "all sequences", "anchors": ["pylib/uxml/xml.py:expat_callbacks"]}
{"id": "C71", "title": "Namespace names with white space break end events; same-named attributes collide (finding)", "statement": "With white space in the namespace name the end event has a different name than the start event; attributes of different namespaces with one local name collapse to the last one.", "quantifier": "all such names", "why_tests_cant": "all strings", "anchors": ["pylib/uxml/xml.py:expat_callbacks"]}
{"id": "C72", "title": "The HTML adapter edits children as html5lib requires", "statement": "insertBefore puts the node immediately before the reference node, appendChild at the end, childNodes assignment keeps order, cloneNode copies name and attributes only, and a comment becomes an empty text node.", "quantifier": "every heap and arguments", "why_tests_cant": "all heaps", "anchors": ["pylib/uxml/html5.py:node", "pylib/uxml/html5.py:element", "pylib/uxml/html5.py:comment"]}
{"id": "C73", "title": "isxml recognises exactly byte strings whose first non-blank character is \"<\"", "statement": "For UTF-8 text without byte order mark that does not start with a NUL or one of the declared signatures, isxml is true exactly when the first character other than white space is \"<\".", "quantifier": "every byte string", "why_tests_cant": "all byte strings", "anchors": ["clib/xmlstring.c:string_isxml"]}
{"id": "C74", "title": "Line endings are normalised before tokenising", "statement": "The scanner sees no carriage return; CRLF and lone CR each become one newline, other characters are unchanged, and normalising twice is the same as once.", "quantifier": "every text", "why_tests_cant": "all strings", "anchors": ["pylib/uxml/lex.py:run"]}
{"id": "C75", "title": "The command line match and find-text commands visit every element", "statement": "match evaluates its expression once at the root element and every descendant element in document order; the limit option has no effect (finding); find-text prints one line per matching text node, the path of names of the proper ancestors of its parent element (finding: the parent itself is missing).", "quantifier": "every document", "why_tests_cant": "all documents", "anchors": ["exec/microx:run", "exec/microx:xpath_to"]}
{"id": "C76", "title": "The character classes are those of MicroXML, except for names (finding)", "statement": "Text, attribute and name-start character classes are exactly those of the MicroXML specification, white space, quotes, hexadecimal digits and letters and digits of references the expected ASCII characters; the name class is not: the full stop and U+00C1-U+00D5 are missing and U+00B8-U+00BF are wrongly included.", "quantifier": "every code point", "why_tests_cant": "more than a million code points, and a range typo inside a character class is invisible to sample documents", "anchors": ["pylib/uxml/parser.py:CHARACTER", "pylib/uxml/parser.py:DATACHAR", "pylib/uxml/parser.py:NAMESTARTCHAR", "pylib/uxml/parser.py:NAMECHAR"]}
{"id": "C77", "title": "Markup other than start and end tags is rejected (finding)", "statement": "Empty element tags, comments, processing instructions, declarations and CDATA sections, and names with a full stop, raise an error as soon as the offending character is seen, wherever in the document they occur.", "quantifier": "every beginning of a document and every offending character", "why_tests_cant": "all documents", "anchors": ["pylib/uxml/parser.py:parser"]}
{"id": "C78", "title": "White space after the equals sign of an attribute is rejected (finding)", "statement": "Although white space before \"=\" is accepted, white space between \"=\" and the opening quote raises an error, for every attribute of every document.", "quantifier": "every beginning of a document, every attribute", "why_tests_cant": "all documents", "anchors": ["pylib/uxml/parser.py:parser"]}
{"id": "C79", "title": "Indented serialisation keeps the content", "statement": "Serialising with a white space indent and parsing back gives a tree with the same markup and the same non-white-space characters, in the same order, as without indentation.", "quantifier": "every writable tree and every white space indent", "why_tests_cant": "all trees, all indents", "anchors": ["pylib/uxml/tree.py:element.xml_encode"]}
{"id": "C80", "title": "What the writers can write but the parser of the library rejects", "statement": "Finding: wherever a document is in progress, an empty element tag written with empty=True, and an element name with a mapped prefix, are rejected by the parser with an error after the events of what precedes; a declaration of a named prefix written by the namespacing writer is rejected on the first element.", "quantifier": "every call sequence, every prefix table and mapping", "why_tests_cant": "all histories", "anchors": ["pylib/uxml/writer.py:raw.start_element", "pylib/uxml/writer.py:namespacer.write", "pylib/uxml/parser.py:parser"]}
{"id": "C81", "title": "make_pretty lays out data documents", "statement": "For every tree in which each element has only elements in it or a single text that is not white space, make_pretty with the default indent puts every child element on its own line, indented two spaces per level, and the end tag of every element without text on its own line at the level of the element (also for empty elements); single texts stay as they are.", "quantifier": "every such tree and depth", "why_tests_cant": "all trees", "anchors": ["pylib/uxml/treeutil.py:make_pretty"]}
{"id": "C82", "title": "How a sender reads its patterns argument", "statement": "A tuple starting with a string is one pattern and a list is a list of patterns. Finding: a tuple whose first component is itself a tuple of alternatives is taken for a list of patterns, so with one sink a longer pattern is rejected and a single group of alternatives is read as a path with those names as successive levels.", "quantifier": "every pattern argument", "why_tests_cant": "all pattern shapes", "anchors": ["pylib/uxml/treeiter.py:sender.__init__"]}
{"id": "C83", "title": "A sender cannot be reused after an incomplete document", "statement": "Finding: the open elements of a document that ended early stay on the stack of the sender, so a complete document parsed next with the same sender does not deliver the matches a new sender delivers.", "quantifier": "exists a pattern and two documents", "why_tests_cant": "histories of several documents", "anchors": ["pylib/uxml/treeiter.py:sender.__init__", "pylib/uxml/treeiter.py:sender._handler"]}
{"id": "C84", "title": "Evaluation ends", "statement": "The evaluation of every expression that uses neither ancestor-or-self nor for-each ends, on every document, with a sequence of items or an exception; the number of rounds allowed to the model does not influence results, and what has been yielded when rounds run out is a prefix of what is yielded with more.", "quantifier": "every expression, document and context", "why_tests_cant": "all expressions", "anchors": ["pylib/uxml/uxpath/xast.py:binary_expression.compute", "pylib/uxml/uxpath/xast.py:step.compute"]}
{"id": "C85", "title": "attribute axis", "statement": "attribute::name yields the attribute of that name of an element if it has one and nothing otherwise, attribute::* all in order, and on anything but an element nothing; string() of an attribute is its value. Findings: node() and text() after @ are taken as attribute names, and name() of an attribute is empty.", "quantifier": "every document and context", "why_tests_cant": "all documents", "anchors": ["pylib/uxml/uxpath/xast.py:step.compute", "pylib/uxml/uxpath/functions.py:name", "pylib/uxml/uxpath/functions.py:string_"]}
{"id": "C86", "title": "Order comparisons and !=", "statement": "Comparing first items, <, >, <= and >= order strings and text nodes by code points and numbers and booleans by value. Findings: anything else, such as an element or a string and a number, is a TypeError; != between values is the negation of equality but is always true for an element and a value, so E = s and E != s can both hold; attribute nodes are made anew by every attribute step and compared by identity, so that != with attribute steps is always true, @a != @a included, while . != . is false.", "quantifier": "every operands", "why_tests_cant": "all operands", "anchors": ["pylib/uxml/uxpath/xast.py:binary_expression.compute"]}
{"id": "C87", "title": "Absolute paths do not depend on the context", "statement": "From the root or any element of the document, /E and //E give the same result, /E being E at the root; from text nodes, attributes and values they fail (finding).", "quantifier": "every expression, document and context", "why_tests_cant": "all contexts", "anchors": ["pylib/uxml/uxpath/xast.py:absolute_path.compute", "pylib/uxml/uxpath/xast.py:root_node.get"]}
{"id": "C88", "title": "name, string, number, string-length and constants", "statement": "name() is the element name, #text for text and empty otherwise; string(E) is the string value of the first item or empty; number(E) converts the string value of a node or string and leaves numbers and booleans as they are (finding: booleans are not converted, and an empty sequence is a ValueError); string-length(E) is the length of a string and a TypeError for elements, and without argument an AttributeError (findings); last() is always -1, number() always 0 (findings); an unknown function is a RuntimeError, a wrong number of arguments a TypeError; seven functions (normalize-space, translate, same-lang, sum, floor, ceiling, round) are not implemented (finding). The string value of an integer is its decimal notation.", "quantifier": "every document, context and argument", "why_tests_cant": "all arguments", "anchors": ["pylib/uxml/uxpath/functions.py:name", "pylib/uxml/uxpath/functions.py:string_", "pylib/uxml/uxpath/functions.py:number", "pylib/uxml/uxpath/functions.py:string_length", "pylib/uxml/uxpath/functions.py:last", "pylib/uxml/uxpath/xast.py:function_call.compute"]}
{"id": "C89", "title": "removeChild of the HTML adapter", "statement": "removeChild removes exactly the first child equal to its argument (elements by identity, text by value), changes nothing else, and raises ValueError without any change if there is none. Finding: the removed element keeps the old parent as its parent, so parent and child links disagree; they agree again once the element is inserted elsewhere, which keeps the whole tree consistent.", "quantifier": "every consistent tree, every child and destination", "why_tests_cant": "all trees and moves", "anchors": ["pylib/uxml/html5.py:node"]}
{"id": "C90", "title": "Attribute assignment of the HTML adapter", "statement": "Assigning attributes sets, for every key of html5lib, the attribute of that name (the local name for namespaced keys), the last assignment winning, ignores names that start with xmlns, and keeps all other attributes: nothing is ever removed.", "quantifier": "every attribute dictionary and element", "why_tests_cant": "all dictionaries", "anchors": ["pylib/uxml/html5.py:element"]}
{"id": "C91", "title": "Names and namespaces that html5lib reads back", "statement": "The name of an element made for html5lib is what follows the last colon of the requested name, or a fixed name if none was requested. html5lib reads back the name and namespace it requested exactly if the name has no colon and the namespace is none or, unless use_xhtml_ns, XHTML. Findings: otherwise (SVG, MathML, names with colons) it reads back something else, and a clone loses its namespace.", "quantifier": "every name and namespace", "why_tests_cant": "all names", "anchors": ["pylib/uxml/html5.py:treebuilder", "pylib/uxml/html5.py:element"]}
{"id": "C92", "title": "Results of html5.parse and parse_lax_xml", "statement": "parse returns the first html5 element among the root nodes, skipping doctypes and comments, or None. parse_lax_xml returns the first element of the body detached, leaving the other nodes as they were and the tree consistent. Finding: for an empty body it raises IndexError; its ValueError is unreachable.", "quantifier": "every list of root nodes, every tree", "why_tests_cant": "all trees", "anchors": ["pylib/uxml/html5.py:parse", "pylib/uxml/html5.py:parse_lax_xml"]}
{"id": "C93", "title": "How the command line tool prints items", "statement": "A node is printed as its markup. Findings: a text node is printed without escaping; an attribute is printed as its value between {=\" and \"} without its name; the root node cannot be printed, so the expression \"/\" ends with NotImplementedError.", "quantifier": "every document and item", "why_tests_cant": "all documents", "anchors": ["exec/microx:run"]}
{"id": "C94", "title": "isxml honours byte order marks", "statement": "UTF-8, UTF-16 and UTF-32 text after its byte order mark, in either byte order, is recognised exactly when its first non-blank character is \"<\" (for UTF-16: unless it starts with NUL), and every signature is accepted whatever follows. Findings: UTF-16 big endian without mark is rejected unless it begins \"<?\", and text with NUL characters can be accepted without beginning with \"<\".", "quantifier": "every text, both byte orders", "why_tests_cant": "all strings", "anchors": ["clib/xmlstring.c:string_isxml"]}
{"id": "C95", "title": "The scanner yields exactly the tokens of the text, losing nothing", "statement": "The items yielded by a run are exactly those of the declarative reading of the rules: at each position the unique lexeme of the current state, otherwise one illegal character; the pieces concatenate to the normalised text and each token carries the offset of its piece.", "quantifier": "every text and initial lexer state", "why_tests_cant": "all strings", "anchors": ["pylib/uxml/lex.py:run", "pylib/uxml/lex.py:rules"]}
{"id": "C96", "title": "Documents can be read off their tokens", "statement": "For every MicroXML document (strict grammar) the token sequence denotes exactly its tree, unambiguously; the only illegal characters reported are white space in tags, and the lexer is left in its initial state.", "quantifier": "every document", "why_tests_cant": "all documents", "anchors": ["pylib/uxml/lex.py:run"]}
{"id": "C97", "title": "What the scanner cannot recognise (finding)", "statement": "An empty element tag is scanned as a start tag; a comment containing \"<\" or \"&\" is scanned as text and markup; a byte order mark becomes text; tabs, line ends and decimal references in attribute values are illegal; the letters U+00C1-U+00D5 end a name; a tag name can come out empty.", "quantifier": "every name, comment, text", "why_tests_cant": "all strings", "anchors": ["pylib/uxml/lex.py:run"]}
{"id": "C98", "title": "Runs of the scanner share one lexer (finding)", "statement": "A run depends on previous runs only through the state they left, which changes the reading of the next text if the previous one ended inside a tag; after a second run has begun, everything either generator yields comes in turn from the second text.", "quantifier": "every text, schedule and lexer", "why_tests_cant": "all histories", "anchors": ["pylib/uxml/lex.py:run", "pylib/uxml/lex.py:lexer"]}
{"id": "C99", "title": "The MicroXPath parser accepts exactly the grammar, unambiguously", "statement": "A sequence of tokens is parsed to an expression exactly if the expression is its reading in a small grammar that makes precedence and grouping explicit; every sequence has at most one reading; every other sequence is a RuntimeError, and one that ends in something that is no token is a RuntimeError or a TypeError.", "quantifier": "every sequence of tokens of any length", "why_tests_cant": "infinite language; the grammar of parserules.py is ambiguous and its conflicts are resolved by table construction", "anchors": ["pylib/uxml/uxpath/parserules.py:precedence", "pylib/uxml/uxpath/parserules.py:p_expr_boolean", "pylib/uxml/uxpath/parserules.py:p_error", "pylib/uxml/uxpath/__init__.py:parse"]}
{"id": "C100", "title": "How MicroXPath expressions are put together", "statement": "A predicate in brackets applies to the whole expression before it; a step continues the path at the end of the expression, or applies to the whole expression if it does not end in a path; of two operators the one that binds tighter is applied first, of two that bind equally tight the left one (\"or\" and \"and\" bind equally); a unary minus binds tighter than all but the union.", "quantifier": "every expressions, steps and operators", "why_tests_cant": "all nestings", "anchors": ["pylib/uxml/uxpath/parserules.py:precedence", "pylib/uxml/uxpath/parserules.py:p_expr_predicates", "pylib/uxml/uxpath/parserules.py:p_path_expr_binary"]}
{"id": "C101", "title": "The MicroXPath lexer takes the longest token", "statement": "The lexer yields the tokens obtained by repeatedly skipping blanks and taking the longest beginning of the rest that is a token; there is always exactly one such sequence; no text is two different tokens; tokens written with blanks between them are read back, and blanks before a token do not matter.", "quantifier": "every text", "why_tests_cant": "all texts", "anchors": ["pylib/uxml/uxpath/lexrules.py:t_NAME", "pylib/uxml/uxpath/lexrules.py:NAME_REGEX", "pylib/uxml/uxpath/lexrules.py:t_error"]}
{"id": "C102", "title": "Texts to expressions", "statement": "parse returns an expression exactly if the text consists of tokens whose reading is that expression. It always ends; otherwise it raises RuntimeError or TypeError: RuntimeError if the tokens have no reading, TypeError if the text does not begin with a token.", "quantifier": "every text", "why_tests_cant": "all texts", "anchors": ["pylib/uxml/uxpath/__init__.py:parse", "pylib/uxml/uxpath/lexrules.py:t_NAME", "pylib/uxml/uxpath/parserules.py:p_error"]}
{"id": "C103", "title": "Surprises of the MicroXPath syntax (findings)", "statement": "No expression is ever a multiplication: * is always a node test. A name cannot begin with a letter from U+00C0 to U+00D6 (TypeError). \"/\" followed by two words such as \"or a\" is an error. An unknown axis is an error wherever it occurs. text() and node() alone are tests of the context node, not steps to the children, whatever stands between the parentheses. A predicate after the last operand of an operator applies to the result of the operator.", "quantifier": "every text, every letter of the range, every argument list", "why_tests_cant": "all texts", "anchors": ["pylib/uxml/uxpath/lexrules.py:NameStartChar", "pylib/uxml/uxpath/parserules.py:p_axis_specifier_full", "pylib/uxml/uxpath/xast.py:node_type_test"]}
{"id": "C104", "title": "Serialised expressions are read back", "statement": "str of an expression that came from the parser, if it has no string literals, no floats whose text is not a decimal fraction, and no \"-\" right after a name or step right after a lone \"/\", parses to the same expression. Findings: strings are written without quotes and read as names, a - b is written as something that does not parse, and \"/ / a\" is written as //a.", "quantifier": "every expression", "why_tests_cant": "all expressions", "anchors": ["pylib/uxml/uxpath/xast.py:binary_expression._serialize", "pylib/uxml/uxpath/__init__.py:parse"]}
{"id": "C105", "title": "Queries by text from a node", "statement": "xml_xpath with a text evaluates the expression read from it at the node, or at the root if the node is the document element (where a name therefore selects the document element itself); with a parsed expression it evaluates that; a text that is no expression is a RuntimeError or TypeError, anything else is a ValueError, and a text node that is in no element has nothing to start from and raises AssertionError. for-each reads its second argument in the same way. qquery does the same for texts. Findings: qquery with anything but a text, a parsed expression included, raises UnboundLocalError (AssertionError from a text node that is in no element), and from an empty text node yields nothing whatever the expression.", "quantifier": "every document, node, text and expression", "why_tests_cant": "all documents and expressions", "anchors": ["pylib/uxml/tree.py:node", "pylib/uxml/uxpath/__init__.py:qquery", "pylib/uxml/uxpath/functions.py:foreach_"]}
{"id": "C106", "title": "Queries over document texts, end to end", "statement": "qquery with the text of a document of the grammar and the text of an expression evaluates the expression at the root of the tree of the document. A path of names yields, in document order and each once, exactly the elements at which the names from the document element down are these, the same elements as the stream of subtrees for that pattern; //n yields each element named n once, and count(//n) their number.", "quantifier": "every document, every expression, every path of names", "why_tests_cant": "all documents and expressions", "anchors": ["pylib/uxml/uxpath/__init__.py:qquery", "pylib/uxml/uxpath/xast.py:step.compute", "pylib/uxml/uxpath/xast.py:absolute_path.compute", "pylib/uxml/treeiter.py:sender"]}
{"id": "C107", "title": "microx with several sources prints the first document again (finding)", "statement": "Without --partition, microx with one source prints what its command prints for the document. With several sources, all read by one tree builder, it prints the results for the first document once per source, stopping at the first exception; the results for the other documents are never printed.", "quantifier": "every command line with one readable command, every list of documents", "why_tests_cant": "all lists of documents", "anchors": ["exec/microx:run", "exec/microx:main", "pylib/uxml/xml.py:treebuilder"]}
{"id": "C108", "title": "microx --partition", "statement": "With --partition=n (n not empty, * or **), the command is done on every element named n that is not inside another element named n, in document order, source after source, stopping at the first exception, and its results are printed in that order. With --partition=* the command is done on every source as a whole; with --partition=** the program ends with a TypeError at the first source and prints nothing.", "quantifier": "every command line with one readable command and --partition, every list of documents", "why_tests_cant": "all lists of documents", "anchors": ["exec/microx:run", "pylib/uxml/xmliter.py:sender", "pylib/uxml/treeiter.py:sender"]}
{"id": "C109", "title": "The command line of microx, end to end", "statement": "microx ends with ValueError before anything is printed unless exactly one of --expr, --match and --find-text is given and not empty; with RuntimeError or TypeError if an expression cannot be read. On one document, --expr with a path of names prints the markup of the elements at that path in document order; --expr=//n that of each element named n once; --match=n that of the children named n of every element in document order, so never the document element; --find-text the path of every element with that text, once per text child.", "quantifier": "every document, name, path of names and text", "why_tests_cant": "all documents", "anchors": ["exec/microx:run", "exec/microx:main", "exec/microx:xpath_to"]}
{"id": "C110", "title": "Paths with conditions as sets of nodes", "statement": "A path of steps along self, child, descendant, parent, ancestor, sibling and attribute axes, with conditions (paths, or values, where numbers are positions) at any place, absolute or not, and a union of such paths to elements, ends normally and selects exactly the items that the composition of the steps leads to and that satisfy the conditions. A value built from strings, whole numbers, comparisons, and/or, true, false, not, boolean, count, name, string, string-length, concat, contains, starts-with, substring, substring-before, substring-after and last, over such paths, is exactly the one that these functions make of what the paths select, the first item or all of them. Paths of child, self and attribute steps, possibly with a last descendant step, select in document order (a step to ancestors or preceding siblings from the end), and positions count in this order; these and paths of child steps below // select each item once. So qquery with //n[@k=...] over a document yields each such element once. Finding: in general an item is selected once per way to it, and not in document order.", "quantifier": "every document, every expression of this form, every context item", "why_tests_cant": "all documents, expressions and context items", "anchors": ["pylib/uxml/uxpath/xast.py:binary_expression.compute", "pylib/uxml/uxpath/xast.py:step.compute", "pylib/uxml/uxpath/xast.py:absolute_path.compute", "pylib/uxml/uxpath/xast.py:predicated_expression.compute", "pylib/uxml/uxpath/xast.py:abbreviated_step.compute", "pylib/uxml/uxpath/__init__.py:qquery"]}
{"id": "C111", "title": "Document order numbers of unions, through queries and edits", "statement": "In every history of evaluated unions (also at text nodes without parent), removals of elements, insertions of text, new documents, and insertions of elements into documents whose nodes have no numbers yet, a union at any context of a document puts the selected elements of that document into document order, also if its operands evaluate unions. At the root node the root node comes out too, before all but the document element. At a context that has no number this holds whatever was edited before. Text nodes in a document and attributes cannot be selected (AttributeError); a text node without parent can be, at itself. Findings: at a numbered context, an element made after the numbering is AttributeError; a moved element is sorted at its old place; whether the root node can be selected from an element depends on earlier queries; the root node may come after the document element.", "quantifier": "every heap, every history, every context, every selection", "why_tests_cant": "all histories of queries and edits", "anchors": ["pylib/uxml/uxpath/xast.py:index_docorder", "pylib/uxml/uxpath/xast.py:binary_expression.compute"]}
{"id": "C112", "title": "Streaming to sinks that edit", "statement": "Whatever a sink does with the heap when it is sent an element (edit it, make or change other trees, let go of anything), if the element has no parent afterwards, then over any number of documents exactly the elements matched by the pattern are sent, in document order, each complete at that moment. With sinks that edit nothing the runs are those of C39, for any patterns. Finding: if the sink appends each element to some other element with xml_append, that element ends up with the first match once and every later match twice, because the sender takes the new parent for the place where the next subtree goes.", "quantifier": "every sink, every pattern without **, every document, every heap and every collection of garbage", "why_tests_cant": "all sinks, documents and executions", "anchors": ["pylib/uxml/treeiter.py:sender._handler"]}
{"id": "C113", "title": "Streaming from XML 1.0", "statement": "A sender of xmliter.py fed with an XML document in any number of calls of parse sends exactly the elements whose path of local names matches the pattern (with ** before the last stage: the outermost ones), in document order, with attributes and content without namespaces. Where the source is divided, and where expat divides text, makes no difference except to where the text sent is divided. If the source stops early there is no error, and what was sent is the beginning of what the whole gives.", "quantifier": "every document, every division of it, every pattern without ** or with ** only before its last stage, every heap and every collection of garbage", "why_tests_cant": "all documents and divisions", "anchors": ["pylib/uxml/xmliter.py:sender", "pylib/uxml/xml.py:expat_callbacks"]}
{"id": "C114", "title": "A subtree is sent with its end tag", "statement": "The element a sender sends is sent when its handler gets the end event of that element: at every moment before that exactly the earlier elements of the listing have been sent, and at that moment this one as well, wherever the document goes on.", "quantifier": "every document, every pattern without ** or with ** only before its last stage, every element sent, every sender with any history of complete documents", "why_tests_cant": "every moment of unbounded documents", "anchors": ["pylib/uxml/treeiter.py:sender._handler"]}
{"id": "C115", "title": "Trees through everything html5lib does", "statement": "After any sequence of the calls html5lib makes on the nodes of html5.py (new nodes, cloneNode, attributes, appendChild, insertBefore, insertText, removeChild, reparentChildren, and parse_lax_xml afterwards), where inserted elements are in no list of children and do not contain their new parent, every child knows the element whose list it is in, is in no other list and not twice, and does not contain it; every node is the root of a finite tree, a node without parent of exactly one document. parse_lax_xml returns a document: the first subtree of the body, unchanged. Nodes that are in no list may still refer to an old parent.", "quantifier": "every sequence of calls of any length, every argument, every collection of garbage", "why_tests_cant": "all histories of calls", "anchors": ["pylib/uxml/html5.py:node", "pylib/uxml/html5.py:element", "pylib/uxml/html5.py:parse_lax_xml"]}
{"id": "C116", "title": "microx with --html and --lax", "statement": "With --html (whatever --lax says) microx does its command on the document element of each source in turn; with --lax on the first node of the body of each, where --expr fails with AssertionError if that is a text. Findings: with --lax a source with an empty body ends the program with IndexError after the output for the sources before it; with --partition the flags have no effect.", "quantifier": "every command line, every list of sources and every history of calls html5lib makes", "why_tests_cant": "all sources and command lines", "anchors": ["exec/microx:run", "exec/microx:main", "pylib/uxml/html5.py:parse", "pylib/uxml/html5.py:parse_lax_xml"]}
{"id": "C117", "title": "Functions given to a query replace the built-in ones (finding)", "statement": "A query with an empty mapping of functions uses the built-in ones. With a non-empty mapping a call of a name that is not in it fails with RuntimeError, built-in or not; a function in it decides the result of its calls. The result of a query only depends on what the names it calls mean: queries without calls are not affected, and with a mapping that has the built-in functions as well queries that call only those are not.", "quantifier": "every document, expression, context item and mapping of functions", "why_tests_cant": "all mappings and expressions", "anchors": ["pylib/uxml/uxpath/xast.py:function_call.compute", "pylib/uxml/uxpath/__init__.py:context"]}
{"id": "C118", "title": "Elements of one tree do not share attributes; those of two patterns do (finding)", "statement": "Whatever is parsed, and however attributes of elements are changed meanwhile (between events, in a sink, between documents), changing the attributes of an element changes that element, and no other if a treebuilder or a sender with one pattern made the elements, and no other of the same tree with several patterns. Elements made for two patterns are either independent or share their attributes for ever; the latter happens (finding): what the sink of the first pattern does to the attributes, the sink of the second receives.", "quantifier": "every sequence of events and documents, patterns, and changes of attributes at any time", "why_tests_cant": "all interleavings of parsing and editing, including collection", "anchors": ["pylib/uxml/treeiter.py:sender._handler", "pylib/uxml/tree.py:element.__init__", "pylib/uxml/tree.py:treebuilder._handler"]}
{"id": "C119", "title": "Write handlers (finding)", "statement": "Whatever class of write handler a writer is given, writing a tree calls its write method with exactly the pieces of markup of the tree, one after the other with their contexts, until the first exception; for any calls and any indentation what the handler is given does not depend on the handler, and without handler these pieces are written. A handler that writes only text produces the string value; raw as handler changes nothing. Findings: namespacer as handler fails with AttributeError at the first start tag that has attributes or is not empty, having written \"<\" and the name; a namespacer with a handler writes neither declarations nor prefixes; a namespacer cannot write an empty element (TypeError).", "quantifier": "every handler, with state, output and exceptions of its own, every tree and every sequence of calls", "why_tests_cant": "handlers are arbitrary code", "anchors": ["pylib/uxml/writer.py:raw", "pylib/uxml/writer.py:namespacer"]}
{"id": "C120", "title": "Entry points that always fail (finding)", "statement": "expat_callbacks is made by exactly the calls that give a handler and at most prime_handler besides; ns_expat_callbacks cannot be made, whatever its arguments (TypeError), also not by xmliter.sender; html5iter.sender.parse is an AttributeError for every document; html5.markup_fragment is an AttributeError whatever the text is parsed to; coax.run is a NameError for every text with an allowed character other than \"&\" and \"<\", and silently does nothing for a text that has only other characters, none of which begins a name or is a carriage return; the tags of coax cannot be made (NameError, TypeError for arguments that do not fit) unless the caller has put g_ancestor_stack into the module. A tag made that way cannot be unparsed, whatever unparse_attrmap the caller adds: always a TypeError (bytes added to a string), or UnicodeEncodeError for a name with a surrogate.", "quantifier": "every argument list, every document and text", "why_tests_cant": "all arguments", "anchors": ["pylib/uxml/xml.py:ns_expat_callbacks", "pylib/uxml/html5iter.py:sender.parse", "pylib/uxml/html5.py:markup_fragment", "pylib/uxml/coax.py:run", "pylib/uxml/coax.py:start_tag.__init__", "pylib/uxml/coax.py:end_tag.__init__", "pylib/uxml/coax.py:start_tag.unparse"]}
{"id": "C121", "title": "Functions in the pattern of a sender", "statement": "A component of a pattern may be a tuple of names and functions; a function is called with the start event of an element. A sender with such a pattern and functions that raise no exceptions sends, for every document, copies of exactly the elements whose start events from the root down match the pattern, in document order, each complete; with \"**\" before the last component, those that are not below another match. An exception in the test of the document element ends the parse before anything is sent. Without functions the sender is the one without functions. Each component of a pattern is read as its text says (\"*\", \"**\", a name, a tuple of alternatives). Finding: a pattern that starts with a tuple is taken for a list of patterns (the characters of a string being components) and rejected if it has a function.", "quantifier": "every pattern, every function of events, every document, sender with any history and any collection", "why_tests_cant": "functions are arbitrary code; all documents, histories and collections", "anchors": ["pylib/uxml/treeiter.py:sender._any", "pylib/uxml/treeiter.py:sender._prep_patterns", "pylib/uxml/treeiter.py:sender._handler", "pylib/uxml/treeiter.py:sender.__init__"]}
{"id": "C122", "title": "What senders with several patterns send (finding)", "statement": "The state machine of a pattern continues into those of the patterns before it, and the patterns share one stack of events. Sink number ix out of k gets, for every document, exactly the outermost elements at which the sequence \"every event above k times, the event of the element ix+1 times\" begins with something that the concatenation of pattern ix and those before it, last one first, matches. So with two patterns the first sink receives elements that its pattern does not match, and the second needs both.", "quantifier": "every list of patterns without \"**\" whose functions raise no exceptions, every document, history and collection; with \"**\" and exceptions, everything that is sent", "why_tests_cant": "all lists of patterns, documents and histories", "anchors": ["pylib/uxml/treeiter.py:sender.__init__", "pylib/uxml/treeiter.py:sender._prep_patterns", "pylib/uxml/treeiter.py:sender._match_state", "pylib/uxml/treeiter.py:sender._handler"]}
{"id": "C123", "title": "Functions in the pattern of select_pattern", "statement": "A component of a pattern may be a tuple of functions; a function is called with a node, element or text. select_pattern yields exactly the nodes whose line of ancestors below the start matches the pattern, in document order, including texts that a function accepts; with \"**\" before the last component, exactly the elements among them that are not below another one. With any pattern, and functions that may raise exceptions, everything yielded matches and is in document order. Without tuples it is the selection without functions. A sender whose pattern has the document element in front and functions that agree with those of the selection sends copies of exactly what is selected. Finding: a name in a tuple is a TypeError.", "quantifier": "every tree, pattern and function of nodes", "why_tests_cant": "functions are arbitrary code; all trees and patterns", "anchors": ["pylib/uxml/treeutil.py:select_pattern", "pylib/uxml/treeutil.py:_prep_pattern", "pylib/uxml/treeutil.py:any_", "pylib/uxml/treeutil.py:any_until"]}
{"id": "C124", "title": "Steps from values, attributes, text nodes and the root (finding)", "statement": "A string, number or boolean passes the test \"*\", a string also node() and text(), nothing else passes; on self:: the result is the item if it passes, on the -or-self axes an AttributeError follows, attribute:: is empty, every other axis and \"..\" is an AttributeError, an absolute path an AssertionError. An attribute passes \"*\" and node() but not its own name; parent:: and \"..\" give its element, ancestor:: gives the elements from there up that pass and then an AssertionError, child:: and descendant:: are AttributeErrors, the sibling axes, following:: and preceding:: ValueErrors, and ancestor-or-self:: does not end. ancestor:: from a text node gives the ancestors that pass and then an AssertionError, as an absolute path does. The root is its own parent and ancestor, whatever the test.", "quantifier": "every value, attribute, text node, axis, node test and document", "why_tests_cant": "contexts that are not elements come up in predicates and after function calls; all of them, for all axes", "anchors": ["pylib/uxml/uxpath/xast.py:step.compute", "pylib/uxml/uxpath/xast.py:node_type_test.compute", "pylib/uxml/uxpath/xast.py:name_test.compute", "pylib/uxml/uxpath/xast.py:abbreviated_step.compute", "pylib/uxml/uxpath/xast.py:absolute_path.compute", "pylib/uxml/uxpath/xast.py:root_node.get", "pylib/uxml/uxpath/xast.py:attribute_node"]}
{"id": "C125", "title": "Sinks that raise or end (finding)", "statement": "A sink may raise an exception, or return, when it is sent an element. Until then, over any number of documents, it is sent exactly the elements whose path matches the pattern, complete and in document order; the exception leaves sender.parse, and the elements sent from that document are a prefix of the matching ones, the last of them the one at which the sink raised. Finding: afterwards the sender is of no use. However many documents follow, and whatever the sink does then, from each document at most one object is sent, and it is sent if and only if the name of the root element is accepted by the last component of the pattern; so with a pattern of several components matching elements are not sent, and elements that do not match may be. With several patterns the sink raises at an end tag, the patterns after its own do not see that event, and the shared event stack is popped only for those up to it.", "quantifier": "every sink, every pattern without **, every history of documents and every collection of garbage", "why_tests_cant": "sinks are arbitrary code; all sinks, histories and executions", "anchors": ["pylib/uxml/treeiter.py:sender._handler", "pylib/uxml/treeiter.py:sender.parse"]}
{"id": "C126", "title": "treeutil, MicroXPath and streaming select the same", "statement": "From an element of a document, the path * gives the same children in the same order as select_elements, name the same as select_name, *[@k] and *[@k=\"x\"] the same as select_attribute, node()[.=\"x\"] the same as select_value, descendant::name the same as select_name over descendants, and a path of names and * (grouped in any way) the same as select_pattern with these components. For a document given as a text, the subtrees sent by a sender for a pattern of names and * are, in the same order, those at the nodes the pattern written as an absolute path (/a/*/b) selects, whatever the sender was used for before; and they are what select_pattern finds from the document element with the rest of the pattern, if the first component is * or the name of the document element.", "quantifier": "every document, every element of it, every name, attribute and value, every pattern of names and *, every history of the sender", "why_tests_cant": "three implementations of selection, compared on all documents and requests at once", "anchors": ["pylib/uxml/treeutil.py:select_pattern", "pylib/uxml/treeutil.py:select_attribute", "pylib/uxml/treeiter.py:sender", "pylib/uxml/uxpath/xast.py:step.compute", "pylib/uxml/uxpath/xast.py:binary_expression.compute"]}
{"id": "C127", "title": "Event handlers that raise or end", "statement": "A handler of the incremental parser may raise an exception, or end, at any event. Until then it is sent exactly the events the parser finds. The exception leaves the call of send in which the parser finds that event, and the handler has been sent precisely the events up to it: for a document, in whatever pieces it comes (none cut inside an attribute value), the beginning of the events of the document. If the handler ended (StopIteration) or raised GeneratorExit, what leaves send is StopIteration. Afterwards nothing is ever sent to the handler and every further call of send raises StopIteration, whatever the client sends. A handler that raises when it is started is noticed when the parser is made.", "quantifier": "every handler, every sequence of pieces with any final flags, every moment", "why_tests_cant": "handlers are arbitrary code; all handlers, texts, cuts and continuations", "anchors": ["pylib/uxml/parser.py:parser"]}
{"id": "C128", "title": "Namespace bookkeeping of ns_expat_callbacks (finding)", "statement": "On expat's calls the class sends the same events as expat_callbacks, up to the first exception. After calls without one, prefixes maps every prefix to the namespace of its last declaration (when streaming: if that has not ended), prefixes_rev every namespace to the prefix last declared for it, ns_portfolio every local name of an element to the namespace of the first element with that name and the prefix declared last before it, and \"@\" with the local name of an attribute to those of the last such attribute, with the prefix \"\" if its namespace was not declared. There is an exception exactly if an element is in a namespace not declared before it and no element before it has its local name (so for every document whose element is in no namespace), or, when streaming, a declaration ends whose prefix was declared again inside its scope, or the calls are not balanced. This is for namespace names without blanks: an element or attribute in a namespace whose name is two words is a ValueError.", "quantifier": "every sequence of calls with names without white space, local names of elements without \"@\" in front (for the events: any calls), streaming or not", "why_tests_cant": "all documents, prefixes and nestings of scopes", "anchors": ["pylib/uxml/xml.py:ns_expat_callbacks.start_namespace", "pylib/uxml/xml.py:ns_expat_callbacks.end_namespace", "pylib/uxml/xml.py:ns_expat_callbacks.start_element"]}
{"id": "C129", "title": "Exactly what patterns with ** select", "statement": "A \"**\" in a pattern skips the elements down to the first one that the component after it accepts, and never more; two in a row are like one; every other component takes one element. With this reading, for every pattern that does not end in \"**\": treeiter.sender and xmliter.sender send exactly the elements whose path the pattern takes, each once, complete, at its end tag, in document order, also with sinks that edit what they get, up to the element at which a sink raises, and into a collecting element; with functions in the pattern and with several patterns likewise, each sink getting its outermost ones; treeutil.select_pattern yields exactly the nodes below the given one; streaming and selecting agree. What is selected matches the pattern and no selected element is inside another; not all outermost matches are selected (C40), except without \"**\" or with one before the last component.", "quantifier": "every pattern not ending in \"**\", document, sender state and sink as in C39, C112, C113, C121-C123, C125", "why_tests_cant": "all patterns with any number of \"**\", all trees", "anchors": ["pylib/uxml/treeiter.py:sender._any_until", "pylib/uxml/treeiter.py:sender._prep_patterns", "pylib/uxml/treeiter.py:sender._handler", "pylib/uxml/xmliter.py:sender", "pylib/uxml/treeutil.py:select_pattern", "pylib/uxml/treeutil.py:_prep_pattern", "pylib/uxml/treeutil.py:any_until"]}
{"id": "C130", "title": "A tree builder takes a document that breaks off for a shorter one", "statement": "treebuilder.parse raises no error for a document that breaks off, neither in tree.py (whose parser gets an empty last piece) nor in xml.py (which never tells expat that the source has ended): the result is None as long as no start tag is complete, and afterwards a beginning of the document's tree, that is the tree with all children after some point missing in the innermost open elements. For XML sources every such beginning is the result for some beginning of the calls that expat makes.", "quantifier": "every MicroXML document and every proper beginning of it; every sequence of expat calls for an XML document and every beginning of it; all states of the builder, all moments of garbage collection", "why_tests_cant": "all documents, nesting depths and places where they break off", "anchors": ["pylib/uxml/tree.py:treebuilder.parse", "pylib/uxml/xml.py:treebuilder.parse", "pylib/uxml/xml.py:expat_callbacks", "pylib/uxml/parser.py:parser"]}
{"id": "C131", "title": "Location paths follow the references of the node objects to the same nodes", "statement": "In every tree reachable by parsing and disciplined editing, each live node has exactly one position in exactly one tree, and evaluating a location path (all axes and tests, . and .., /, //, absolute paths, a number or a path as predicate) by following xml_children and the weak references xml_parent yields, in the same order and with the same exceptions, the objects at the positions that the properties C50-C68, C110 and C124 speak about; the loops of the axes end (except ancestor-or-self, which never does below the root); whichever root nodes are cached, absolute paths start at the topmost element. Finding: once the root of a parentless element has been asked for and the element is inserted elsewhere, absolute paths from it start at its old root.", "quantifier": "every heap of any number of documents after any disciplined edits, every node, path and history of the root cache", "why_tests_cant": "all object graphs, edit histories, paths and cache states", "anchors": ["pylib/uxml/uxpath/xast.py:step.compute", "pylib/uxml/uxpath/xast.py:abbreviated_step.compute", "pylib/uxml/uxpath/xast.py:absolute_path.compute", "pylib/uxml/uxpath/xast.py:predicated_expression.compute", "pylib/uxml/uxpath/xast.py:root_node.get", "pylib/uxml/tree.py:node.xml_parent"]}
{"id": "C132", "title": "make_pretty keeps the node objects and replaces only white space texts", "statement": "Called on an element of a consistent object graph, make_pretty returns, and the objects below the element then form the tree of C48. Every element and every text with more than white space is the same object as before, with the same name, attributes, string and parent, and in the same document order; every other node below the element is a new text node; only lists of children below the element change, no object outside. When the replaced texts are forgotten, children and parent links agree again, and at once if there was no white space text. Finding: a replaced text that the caller still holds goes on naming its old parent, which no longer lists it, so that its sibling axes raise ValueError.", "quantifier": "every heap reachable by parsing and disciplined editing, every element in it, depth and indent", "why_tests_cant": "all object graphs and sharing of references by the caller", "anchors": ["pylib/uxml/treeutil.py:make_pretty", "pylib/uxml/tree.py:text.__init__", "pylib/uxml/tree.py:node.__init__"]}
{"id": "C133", "title": "Expressions over node objects: the answers are those of the tree at hand", "statement": "An expression with any steps, operators, functions, predicates, variables and for-each, evaluated at a node of a consistent object graph with any number of documents, after any history of root lookups and union numberings, yields the nodes at the positions, and the values, that it yields for the tree of that document, in the same order and with the same end. So a document that was edited answers like a freshly parsed one with the same tree. This is for expressions that compare no two root nodes by != and have no root node in a union. Finding: there may be several root node objects for a document, so that at a child of the document element / != ../.. is true, and . | /a/.. at a root node raises AttributeError.", "quantifier": "every heap reachable by parsing and disciplined editing, every history of root lookups and unions, every such expression, node, variables and fuel", "why_tests_cant": "all object graphs, documents and histories of the cache and of the numbers", "anchors": ["pylib/uxml/uxpath/xast.py:binary_expression.compute", "pylib/uxml/uxpath/xast.py:step.compute", "pylib/uxml/uxpath/xast.py:absolute_path.compute", "pylib/uxml/uxpath/xast.py:predicated_expression.compute", "pylib/uxml/uxpath/xast.py:function_call.compute", "pylib/uxml/uxpath/xast.py:root_node.get", "pylib/uxml/uxpath/functions.py:foreach_"]}
{"id": "C134", "title": "Iterators of treeutil over a tree that is edited between two calls of next()", "statement": "What an iterator of treeutil (descendants, select_*, following_siblings, select_pattern, and filters over them) delivers next is determined by the tree as it is at that call and by the positions it has reached: the first of the nodes still to come, in document order. An insertion or removal ahead of a position is seen. Insertions and removals in elements other than r do not disturb an iteration over the children of r, and editing the text of each element as it is delivered does not disturb descendants. Findings: an insertion behind the position makes the last child come again, so that a loop over the children which inserts text before the current one never ends; a removal behind it makes the iterator pass over the next child, so that a loop which removes each child it is given leaves every second of adjacent ones (all are removed if no two selected children are adjacent, or if the loop is over a list made before); a loop over descendants that appends an element to each never ends.", "quantifier": "every consistent object graph, every iterator state, test and pattern, every insertion and removal, loops of any length", "why_tests_cant": "the interleavings of iteration and edits, and loops that never end", "anchors": ["pylib/uxml/treeutil.py:descendants", "pylib/uxml/treeutil.py:select_elements", "pylib/uxml/treeutil.py:select_pattern", "pylib/uxml/treeutil.py:following_siblings", "pylib/uxml/tree.py:element.xml_insert", "pylib/uxml/tree.py:element.xml_remove"]}
{"id": "C135", "title": "Location paths over a tree that is edited between two results", "statement": "xml_xpath returns a generator. For location paths made of steps along self, child, descendant, descendant-or-self, following and the sibling axes, relative or after / or //, what it delivers next is determined by the tree as it is at that call and by what it has reached, and without edits the results are those of the path. A loop over descendant::t or following::t is not disturbed by insertions and removals in elements that do not come after the current result in document order; a loop over following-sibling::t or preceding-sibling::t is not disturbed by any. So a loop that takes every result of descendant::n out of its parent takes out all of them, and a loop that appends an element to every result of descendant::t ends with the nodes that were there at the start (unlike treeutil.descendants). A loop over child::n behaves as one over select_name in every respect. Findings: removing the results of n or //n in a loop over them passes over the neighbour of each, and a loop over //* that appends an element to every result never ends.", "quantifier": "every consistent object graph, every such path and every suspended state, edits of any number between any two results", "why_tests_cant": "the interleavings of evaluation and edits", "anchors": ["pylib/uxml/uxpath/xast.py:step.compute", "pylib/uxml/uxpath/xast.py:binary_expression.compute", "pylib/uxml/uxpath/xast.py:absolute_path.compute", "pylib/uxml/tree.py:node.xml_xpath", "pylib/uxml/tree.py:element.xml_insert", "pylib/uxml/tree.py:element.xml_remove"]}
{"id": "C136", "title": "Queries on node objects, from text to objects", "statement": "x.xml_xpath(s) and qquery(x, s) on a node object x, after any history of parsing, editing and earlier queries, give the objects at exactly the positions that the query over the tree gives, in the same order and with the same end. For the paths with conditions of C110: every object at a position that the path selects is among the results, every result is one, and for paths that select each node once no object comes twice. In particular parse(text).xml_xpath(s), for every document text and every expression text, selects the objects of the new tree that the relational meaning of the path says, and an object at a position holds the subtree there. A query at each result of a query is the query for the two paths joined by a slash, if the results have parents. Finding: not so at the document element, where xml_xpath starts at the root node: [y.xml_xpath(\"b\") for y in x.xml_xpath(\"a\")] finds nothing where x.xml_xpath(\"a/b\") does.", "quantifier": "every document, expression text and node; every history of the object graph, the cache of root nodes and the document order numbers", "why_tests_cant": "all documents, expressions and histories together", "anchors": ["pylib/uxml/tree.py:node.xml_xpath", "pylib/uxml/uxpath/__init__.py:qquery", "pylib/uxml/uxpath/__init__.py:context.__init__", "pylib/uxml/uxpath/__init__.py:parse", "pylib/uxml/tree.py:treebuilder.parse", "pylib/uxml/uxpath/xast.py:root_node.get"]}
{"id": "C137", "title": "Queries with any expressions over a tree that is edited between two results", "statement": "The generator that xml_xpath returns, for every expression: without edits it delivers, one by one, what the evaluation gives (C133, C136). Unions, comparisons, arithmetic and all functions but for-each have all their results before they deliver the first, so that nothing that happens later changes the rest; in particular a loop that takes every result of a union out of its parent takes out all of them (unlike a loop over a child path, C135). An expression with a number as its first predicate delivers at most one result, whatever is edited. A loop over ancestor::t visits the elements above and then a root node, whatever else is edited, as long as they keep their names and parents; the parent of a result is looked up when the next is asked for, so that after a result has been taken out of its parent a root node comes next, and then nothing. A loop over @t visits the attributes in order, with the values they have at that time, if only values are set. Finding: after the element has got another number of attributes next() raises RuntimeError, even after the last one; so a loop over @* that deletes each attribute stops at the second.", "quantifier": "every expression, node, variables, state of the trees, of the root cache and of the numbers; any edits between any two results", "why_tests_cant": "the interleavings of evaluation and edits, for all expressions", "anchors": ["pylib/uxml/uxpath/xast.py:step.compute", "pylib/uxml/uxpath/xast.py:binary_expression.compute", "pylib/uxml/uxpath/xast.py:absolute_path.compute", "pylib/uxml/uxpath/xast.py:predicated_expression.compute", "pylib/uxml/uxpath/xast.py:Sequence.compute", "pylib/uxml/uxpath/functions.py:foreach_", "pylib/uxml/tree.py:node.xml_xpath"]}
{"id": "C138", "title": "Loops over location paths and predicates while the tree is edited", "statement": "A loop over what xml_xpath returns for steps with slashes in between (child, descendant, self, following, sibling and descendant-or-self axes), also with / or // in front, delivers the same items after the same edits as the loop over the location path in C135, and what is to come is the same at every moment; so all that holds there holds for xml_xpath. xml_xpath of a node with a parent computes the expression at that node, of a node without one at its root node. A loop over an expression with predicates is the loop over the expression without them in which the body is run for the kept items only: each predicate is computed when its item comes, a number is compared with the position among all items that came, other values count by their truth, and predicates after a false one are not computed. The loop that takes every result of descendant::n[predicates] out of its parent ends, has taken out, in document order, exactly the descendants that had the name and met the predicates at the start, and left all other nodes where they were, if the predicates look at names, attributes and texts only; [@k] is such a predicate.", "quantifier": "every tree, node, path, predicates, variables, state of the root cache; any edits by the body (for the removal: xml_parent.xml_remove)", "why_tests_cant": "the interleavings of evaluation and edits, for all trees and expressions", "anchors": ["pylib/uxml/uxpath/xast.py:step.compute", "pylib/uxml/uxpath/xast.py:binary_expression.compute", "pylib/uxml/uxpath/xast.py:absolute_path.compute", "pylib/uxml/uxpath/xast.py:predicated_expression.compute", "pylib/uxml/tree.py:node.xml_xpath", "pylib/uxml/tree.py:element.xml_remove"]}
{"id": "C139", "title": "microx with sources that are not well-formed (finding)", "statement": "Where expat complains about no source, the program is that of C107-C109. Without --partition a source that expat rejects ends the program: what comes before it is printed, then follows ExpatError; nothing of it and nothing after it is printed. Finding: expat is not told that the text has ended, so a source that breaks off is taken without complaint for the document that begins like it and ends there, and a second source is put into it below the innermost element that is open, and the whole queried again. With --partition a source that breaks off or is rejected gives exactly those elements of the name, not inside another one, whose end tag has been read, after those of the sources before it, and then ExpatError. With --partition * that is the document if it has been read to its end, else nothing; with --partition ** the program ends with TypeError at the first start tag.", "quantifier": "every list of sources, every place where a source breaks off or is rejected, all commands", "why_tests_cant": "all documents and all places to break off", "anchors": ["exec/microx:run", "pylib/uxml/xml.py:treebuilder.parse", "pylib/uxml/xmliter.py:sender.parse_file"]}
{"id": "C140", "title": "microx with sources that have no element (finding)", "statement": "Without --partition, if the first source has an element the program is that of C139. Finding: a first source without any element (an empty one, or one with only comments) is not reported: with --find-text, and with --expr or --match and a path whose first step needs the neighbours of a node (child, parent, descendant, ...), the program prints nothing and ends with AttributeError; with an absolute path it ends with AssertionError. With --expr and a path that begins with an attribute step, or with self and a test other than *, such sources print nothing and the documents after them are treated as in C107; if there are none the program ends normally; with --match it ends with AttributeError. --expr . prints the line None for such a source. In general a location path does at None what it does at a number or a truth value, and the lines printed are the word None as often as that has results, with --foreach as for the path continued.", "quantifier": "every list of sources that begins with ones that have no element, every location path", "why_tests_cant": "all paths and all lists of sources", "anchors": ["exec/microx:run", "pylib/uxml/xml.py:treebuilder.parse", "pylib/uxml/uxpath/xast.py:step.compute", "pylib/uxml/uxpath/xast.py:root_node.get"]}
{"id": "C141", "title": "What repr shows of nodes and expressions", "statement": "repr of a parsed expression is {class text}, where text is read as the same expression, also for a - b and for a step after a lone \"/\", where str is not (C104); so different expressions without string literals look different. Findings: of a negation the text is read as a double negation, because the operator is written twice; of literals there are no braces, and a string looks like a number. repr of an element tells exactly its identity, its name and the number of its children; repr of a text tells exactly its first ten characters; repr of an attribute tells its name and value; nodes of different kinds look different.", "quantifier": "every expression that the parser gives, every node", "why_tests_cant": "all expressions, all names and texts", "anchors": ["pylib/uxml/uxpath/xast.py:binary_expression.__repr__", "pylib/uxml/uxpath/xast.py:unary_expression.__repr__", "pylib/uxml/uxpath/xast.py:absolute_path.__repr__", "pylib/uxml/uxpath/xast.py:attribute_node.__repr__", "pylib/uxml/tree.py:element.__repr__", "pylib/uxml/tree.py:text.__repr__"]}
{"id": "C142", "title": "Absolute expressions do not depend on the element that is asked", "statement": "An expression in which everything that depends on the context begins at the root, in a variable or in a literal (count(//a[b]/..), /a/b or $x; after a slash, in a predicate and in the text of for-each there may be anything) has the same results in the same order, or the same exception, at every element of a document; without unions at the root node too, so xml_xpath gives the same whichever element of the document it is called on. The results of paths, unions and filters at a node are nodes. Findings: a path after an item that counts as false (0/.) depends on the element; \"/ | /\" works at the root node and not at an element.", "quantifier": "every closed expression, every document, every two elements", "why_tests_cant": "all expressions, documents and pairs of elements", "anchors": ["pylib/uxml/uxpath/xast.py:absolute_path.compute", "pylib/uxml/uxpath/xast.py:predicated_expression.compute", "pylib/uxml/uxpath/xast.py:binary_expression.compute", "pylib/uxml/uxpath/__init__.py:context.copy", "pylib/uxml/tree.py:node.xml_xpath"]}
{"id": "C143", "title": "Laws of expressions", "statement": "Expressions give the same results, in the same order and with the same exception: (a/b)/r and a/(b/r), (a/b)//r and a/(b//r), a/. and ./a and a, at nodes, where a and b are paths, filters or unions; (a, b)/r and (a/r, b/r), nested and flat sequences, not(not(a)) and boolean(a), not(boolean(a) or boolean(b)) and not(a) and not(b), its dual, e[boolean(a)][boolean(b)] and e[boolean(a) and boolean(b)], everywhere; a | b and b | a, (a | b) | c and a | (b | c), if no operand raises. Findings: a/0/. is not a/(0/.); (a//b)//c is not a//(b//c); not(a or b) is not not(a) and not(b), because or fails at an operand without results; e[1][2] is not e[1 and 2]; a | a is not a.", "quantifier": "all expressions, contexts and documents", "why_tests_cant": "all expressions, contexts and documents, including raising ones", "anchors": ["pylib/uxml/uxpath/xast.py:binary_expression.compute", "pylib/uxml/uxpath/xast.py:Sequence.compute", "pylib/uxml/uxpath/xast.py:predicated_expression.compute", "pylib/uxml/uxpath/functions.py:_not", "pylib/uxml/uxpath/functions.py:boolean"]}
{"id": "C144", "title": "The lines of microx --find-text can be asked for", "statement": "The line printed for an element other than the document element, given to xml_xpath at the document element, is an expression whose results are, in document order and once each, the elements at the depth of its parent whose ancestors and self have the names and the shown attributes of those of the parent; the parent is among them, and the only one if no other element has such a path. So every line of find-text that is not empty leads to the parent of an element with the text, and there is such a line for every such element but the document element. This needs names that the lexer knows, values without double quotes and no empty text nodes. Findings: with a double quote in a shown value, with a letter from U+00C0 to U+00D6 in a name, and for the document element, the line raises when it is asked; without attributes one line stands for many elements.", "quantifier": "all documents, elements, lists of shown attributes", "why_tests_cant": "all documents and addresses; the tests run no find-text", "anchors": ["exec/microx:xpath_to", "exec/microx:run", "pylib/uxml/uxpath/xast.py:predicated_expression.compute", "pylib/uxml/tree.py:node.xml_xpath"]}
{"id": "C145", "title": "How the string functions go together", "statement": "If contains(x, y) is true then concat(substring-before(x, y), string(y), substring-after(x, y)) is the string of x, for y with a result that is not the empty string; if it is false, substring-before gives the string of x and substring-after the empty one. starts-with(x, y) implies contains(x, y), and is the same as contains(x, y) with nothing before. concat may be grouped in any way; concat(x, y) starts with x, contains y, and string-length adds up, for operands with one result. concat(substring(x, 1, k), substring(x, k+1, m)) is the string of x if k + m is at least its length. string(string(x)) is string(x). Findings: an operand without results is \"False\" for contains but empty for string, so that the first law fails; concat takes all results of an operand, the others the first.", "quantifier": "all expressions, contexts and documents", "why_tests_cant": "all expressions and strings", "anchors": ["pylib/uxml/uxpath/functions.py:concat", "pylib/uxml/uxpath/functions.py:contains", "pylib/uxml/uxpath/functions.py:starts_with", "pylib/uxml/uxpath/functions.py:substring_before", "pylib/uxml/uxpath/functions.py:substring_after", "pylib/uxml/uxpath/functions.py:substring", "pylib/uxml/uxpath/functions.py:string_", "pylib/uxml/uxpath/functions.py:string_length", "pylib/uxml/uxpath/functions.py:string_arg"]}
{"id": "C146", "title": "Comparisons turned round and negated", "statement": "For operands with results, l < r gives what r > l gives and l <= r what r >= l gives, exceptions included. For strings and text nodes, and for numbers other than NaN, < is the negation of >= and > that of <=; on strings < is transitive, and <= and >= both hold exactly for equal strings. For two single values that are no nodes, = and != do not depend on the order of the operands and are negations of each other. Findings: with a node on one side, or several items, = depends on the order of the operands; NaN is neither less than a number nor greater or equal.", "quantifier": "all expressions, contexts and documents", "why_tests_cant": "all expressions and values", "anchors": ["pylib/uxml/uxpath/xast.py:binary_expression.compute"]}
