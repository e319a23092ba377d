PA='pylib/uxml/parser.py'; TR='pylib/uxml/tree.py'; TI='pylib/uxml/treeiter.py'; TU='pylib/uxml/treeutil.py'
WR='pylib/uxml/writer.py'; XM='pylib/uxml/xml.py'; XI='pylib/uxml/xmliter.py'; H5='pylib/uxml/html5.py'
XA='pylib/uxml/uxpath/xast.py'; XF='pylib/uxml/uxpath/functions.py'; UX='pylib/uxml/uxpath/__init__.py'
LX='pylib/uxml/lex.py'; XL='pylib/uxml/uxpath/lexrules.py'; XP='pylib/uxml/uxpath/parserules.py'; CX='clib/xmlstring.c'; MX='exec/microx'
# ---------------------------------------------------------------- parser
p('C01','Chunking does not change the parse (outside quoted attribute values)',
 'Feeding a document to the incremental parser in pieces gives exactly the same events, the same error (if any) and the same final state as feeding it in one piece, provided no piece boundary falls inside a quoted attribute value.',
 'every text (well formed or not) and every way of cutting it into any number of pieces none of whose boundaries lies between the opening and the closing quote of an attribute value',
 'the number of cuts is exponential in the length of the text and every parser state must resume correctly; the existing "character by character" tests actually feed the whole document (they iterate over a 1-tuple)',
 [PA+':parser',PA+':parsefrags',PA+':handle_cdata'])
p('C02','A chunk boundary inside a quoted attribute value is not safe (finding)',
 'The unrestricted claim "any chunking gives the same result" is violated: when a piece ends inside a quoted attribute value the parser resumes at the opening quote as if it started an attribute name; the result is an error, or silently different attributes.',
 'all plain attribute values cut at any point inside the quotes (always an error); some documents (silently different events)',
 'needs the resume point of a coroutine after an arbitrary cut',
 [PA+':parser'])
p('C03','Empty pieces are ignored',
 'Inserting empty strings anywhere in the sequence of pieces fed to the parser changes neither the events nor the final state.',
 'every piece list, every placement of empty pieces','unbounded number of placements',
 [PA+':parser'])
p('C04','Events are always well nested and carry the right ancestors',
 'At every moment the events delivered so far are a prefix of a well nested sequence: every end event closes the most recently opened, still open element and bears its name, the ancestor list in each start/end event is the list of currently open element names outermost first, and character events only occur inside an open element. When the document is complete exactly one element has been opened and closed at the top level.',
 'every text, well formed or not, every chunking, every moment','quantifies over all malformed inputs and all intermediate moments',
 [PA+':parser',PA+':event'])
p('C05','Delivered events are never retracted or reordered',
 'The events delivered after feeding some pieces are a prefix of the events delivered after feeding further pieces.',
 'every list of pieces and every continuation','histories of unbounded length',
 [PA+':parser',PA+':parsefrags'])
p('C06','Every well-formed document of the supported MicroXML subset is parsed to exactly its content',
 'For every document text made of one element with start/end tags, attributes in either quote style, optional white space where the grammar allows it, literal characters, the five named references and hexadecimal references, the parser reaches the completed state and delivers exactly the start, character and end events of that document, with references decoded.',
 'every concrete syntax tree (any depth, width, white space, quoting, mix of references)','infinite language',
 [PA+':parser',PA+':handle_cdata'])
p('C07','Completed parses come from documents of the (lenient) grammar',
 'If a text parses to completion then it is a rendering of some element tree in the lenient grammar the parser implements and the delivered events are exactly the events of that tree: nothing is invented.',
 'every text','quantifies over all strings',
 [PA+':parser',PA+':handle_cdata'])
p('C08','Character references decode to the referenced character or are rejected',
 'In text and in attribute values of either quote style, &lt; &gt; &amp; &quot; &apos; decode to the corresponding character and &#xH..; decodes to code point H when this is a permitted MicroXML character, and raises an error otherwise; unknown alphanumeric names raise an error.',
 'every reference, every digit string, every surrounding text','unbounded digit strings and contexts',
 [PA+':handle_cdata',PA+':CHARNAMES',PA+':CHARACTER'])
p('C09','Feeding non-final input terminates, except on junk before the document element (finding)',
 'Feeding a piece with more to come always returns or raises, unless the first non-blank character of the document is not "<", in which case the call never returns.',
 'every text and chunking','non-termination cannot be observed by a test',
 [PA+':parser'])
p('C10','One-shot parse agrees with incremental parse on complete documents',
 'If feeding a text and then closing reaches the completed state, then feeding the same text flagged as final returns normally with the same events.',
 'every text','all strings',
 [PA+':parser',PA+':parse'])
p('C11','Truncated documents (finding): silently accepted when closed separately, endless loop when flagged final',
 'For a truncated document, closing with an empty final piece returns normally without error; flagging the truncated text itself as final never returns when it stops inside a tag or inside character data.',
 'every document truncated inside a tag name, attribute or text','non-termination; all truncation points',
 [PA+':parser',PA+':parse',TR+':treebuilder.parse'])
p('C12','Mismatched or surplus end tags are always rejected',
 'A completed parse never closes an element with a different name: an end tag whose name differs from the innermost open element raises an error as soon as it is complete, and an end tag with nothing open raises an error.',
 'every prefix of a document and every end tag','all documents',
 [PA+':parser'])
p('C13','Nothing but white space may follow the document element',
 'After the document element has been closed, further white space is accepted and any other character raises an error, whatever the chunking.',
 'every complete document and every continuation','all continuations',
 [PA+':parser'])
p('C14','Only legal characters are ever delivered',
 'Every character in every character event and in every attribute value delivered by the parser is a permitted MicroXML character, and element names are empty or match the name pattern.',
 'every input text','all strings',
 [PA+':handle_cdata',PA+':CHARACTER',PA+':DATACHAR',PA+':NAMESTARTCHAR',PA+':NAMECHAR'])
p('C15','Characters not allowed in content are silently dropped (finding)',
 'Raw characters that the content pattern does not allow (">" , carriage return, control characters; also "<", tab and newline inside attribute values) are not reported: they are removed from the delivered value, all other characters being kept in order.',
 'every run of raw characters without "<" and "&"','all strings',
 [PA+':handle_cdata'])
p('C16','Decimal and malformed references stall the parser instead of failing (finding)',
 'A "&" followed by something that is neither a hexadecimal reference nor an alphanumeric name makes the parser wait for input for ever: no later event is delivered whatever follows, and no error is raised when the document is closed.',
 'every such reference and every continuation of the document','no finite test shows that no continuation recovers',
 [PA+':handle_cdata'])
p('C17','Attribute maps have unique keys and repeated attributes are last-wins (finding)',
 'The attribute map of every start event has no repeated key; if a start tag repeats an attribute the value of the last one is delivered, at the position of the first, and no error is raised.',
 'every input text; every attribute list','all attribute lists',
 [PA+':parser'])
p('C18','Character data is delivered whole',
 'No character event is empty and no two character events are adjacent, whatever the chunking.',
 'every input and chunking','all inputs and cuts',
 [PA+':parser'])
p('C19','The module level parse functions deliver a spurious first item (finding)',
 'parser.parse and parsefrags yield one None before the events, because their accumulator coroutine is primed twice.',
 'every text','stated for all texts',
 [PA+':parse',PA+':parsefrags',PA+':handler'])
p('C76','The character classes are those of MicroXML, except for names (finding)',
 'Text, attribute and name-start character classes are exactly those of the MicroXML specification, white space, quotes, hexadecimal digits and letters and digits of references the expected ASCII characters; the name class is not: the full stop and U+00C1-U+00D5 are missing and U+00B8-U+00BF are wrongly included.',
 'every code point','more than a million code points, and a range typo inside a character class is invisible to sample documents',
 [PA+':CHARACTER',PA+':DATACHAR',PA+':NAMESTARTCHAR',PA+':NAMECHAR'])
p('C77','Markup other than start and end tags is rejected (finding)',
 'Empty element tags, comments, processing instructions, declarations and CDATA sections, and names with a full stop, raise an error as soon as the offending character is seen, wherever in the document they occur.',
 'every beginning of a document and every offending character','all documents',
 [PA+':parser'])
p('C78','White space after the equals sign of an attribute is rejected (finding)',
 'Although white space before "=" is accepted, white space between "=" and the opening quote raises an error, for every attribute of every document.',
 'every beginning of a document, every attribute','all documents',
 [PA+':parser'])
# ---------------------------------------------------------------- tree
p('C20','The tree is exactly the parsed document',
 'The tree built from the events of a document has the same elements, attributes, text and order as the document; each child has its containing element as parent and the root has none.',
 'every document tree','all trees',
 [TR+':treebuilder'])
p('C21','A tree builder can be reused',
 'tree.treebuilder.parse returns a result that depends only on its argument, not on what the builder parsed before (including truncated documents).',
 'every history of previous parses and every document','histories of any length',
 [TR+':treebuilder.parse'])
p('C22','The XML tree builder cannot be reused (finding)',
 'After one complete document, every further call of parse on the same xml.treebuilder returns the root of the first document, whose tree is unchanged; after a truncated first document the second document becomes a child of the innermost unclosed element of the first.',
 'every pair of documents','all pairs of documents, all states in between',
 [XM+':treebuilder.parse',TR+':treebuilder._handler'])
p('C23','Tree building is safe against garbage collection',
 'Whenever and whatever the garbage collector reclaims among unreachable objects during building, the builder delivers the same tree: the weak parent references it follows are never dead while needed.',
 'every document and every garbage collection schedule','schedules cannot be enumerated by tests',
 [TR+':treebuilder',TR+':node.xml_parent'])
p('C24','Serialising then parsing restores the tree',
 'For every tree whose names are valid and whose attribute values contain no tab, newline or carriage return, parsing the serialisation gives back the tree, with adjacent text merged, empty text removed and characters that are not MicroXML characters removed (so exactly the same tree when there are none).',
 'every tree','all trees, all strings',
 [TR+':element.xml_encode',TR+':parse'])
p('C25','Attribute values with tab, newline or carriage return do not survive a round trip (finding)',
 'If any attribute value in the tree contains a tab, newline or carriage return, parsing the serialisation returns no complete tree.',
 'every tree with such an attribute value','all trees',
 [TR+':element.xml_encode',PA+':handle_cdata'])
p('C26','Serialisation is injective on normalised trees',
 'Two normalised trees in the round-trip domain with the same serialisation are equal.',
 'every pair of trees','all pairs',
 [TR+':element.xml_encode'])
p('C27','The string value of a node is the concatenation of its text in document order',
 'xml_value and strval agree on every node and equal the concatenation, in document order, of all text contained in it.',
 'every tree','all trees',
 [TR+':element.xml_value',TR+':strval'])
p('C79','Indented serialisation keeps the content',
 'Serialising with a white space indent and parsing back gives a tree with the same markup and the same non-white-space characters, in the same order, as without indentation.',
 'every writable tree and every white space indent','all trees, all indents',
 [TR+':element.xml_encode'])
p('C28','Inserting puts the child at the requested position',
 'xml_append adds at the end; xml_insert with index i places the child at the position Python list insertion defines (clamped) and index -1 means the end; the other children keep their relative order, and an inserted element has the receiver as parent.',
 'every heap, element, child and integer index','all indexes, all trees',
 [TR+':element.xml_insert',TR+':element.xml_append'])
p('C29','Removing detaches exactly the given element',
 'xml_remove of an element child removes that occurrence only, keeps the other children in order and clears its parent; if it is not a child an error is raised and nothing changes.',
 'every heap, element and child','all trees',
 [TR+':element.xml_remove'])
p('C30','Removing a text node may remove another one (finding)',
 'Because text nodes compare by value, removing a text node removes the first child text with the same characters.',
 'all children lists with an earlier equal text','needs the general list semantics',
 [TR+':element.xml_remove',TR+':text'])
p('C31','Appending an existing text node attaches a copy (finding)',
 'Inserting a text node stores a new text node: the given object keeps its parent unchanged.',
 'every heap, element and text node','all states',
 [TR+':element.xml_insert'])
p('C32','Parent and child links stay consistent under disciplined editing',
 'Starting from a parsed tree and applying any sequence of inserting detached or new nodes and removing element children, every child of an element has that element as parent, no element occurs twice as a child, and an element that is nobody\'s child and has been removed has no parent.',
 'every sequence of such operations','histories of any length',
 [TR+':element.xml_insert',TR+':element.xml_remove'])
p('C33','Undisciplined insertion breaks the tree (finding)',
 'Inserting an element that already has a parent leaves it in both child lists.',
 'some histories','-',
 [TR+':element.xml_insert'])
p('C34','Markup in data cannot escape',
 'The serialisation of text contains no "<" and no ">" and every "&" in it starts one of the references the parser decodes; the serialisation of an attribute value contains its quote only at both ends.',
 'every string','all strings',
 [TR+':element.xml_encode',WR+':raw.write'])
# ---------------------------------------------------------------- writer
p('C35','The raw writer and xml_encode agree',
 'Writing any element through the raw writer without indentation outputs exactly what xml_encode returns.',
 'every tree','all trees',
 [WR+':write',WR+':raw',TR+':element.xml_encode'])
p('C36','Balanced writer calls produce a document that parses back to the same events',
 'For any properly nested sequence of start_element/text/end_element calls with valid names and attributes, the text written parses to the corresponding events.',
 'every balanced call sequence','all sequences',
 [WR+':raw'])
p('C37','The namespacing writer declares the prefixes exactly once, on the first element',
 'The output of the namespacing writer is the output of the raw writer with the prefix declarations inserted right after the name of the first element, and with mapped names prefixed; with no prefixes and no mapping the outputs are identical.',
 'every call sequence, every prefix table and mapping','all histories',
 [WR+':namespacer'])
p('C38','Writer indentation only adds white space',
 'With white space indentation the output differs from the unindented output only by added white space outside tags, and depth bookkeeping returns to its start value after balanced calls. Exactly these line breaks are added: before a start tag if only text was written since the start tag of its parent, and after every end tag and every empty element tag; each is followed by the indentation of the nesting level reached there (so children after the first, and end tags after children, stand one level deeper than the first child).',
 'every call sequence and indent','all histories',
 [WR+':raw'])
# ---------------------------------------------------------------- treeiter
p('C39','Streaming delivers exactly the outermost matching subtrees',
 'A sender with one pattern sends its sink, in document order, exactly the subtrees rooted at the elements whose path from the document element matches the pattern and that have no matching ancestor, each equal to the corresponding subtree of the whole document tree.',
 'every document tree and every pattern of names, "*" and alternatives','all trees and patterns',
 [TI+':sender'])
p('C40','Streaming with "**"',
 'With a "**" stage the sender uses the earliest position at which the following stage matches, and never reconsiders: for "**" directly before the last stage this is exact (all outermost elements matching the last stage below the prefix), otherwise some matching subtrees are missed (finding).',
 'every tree; some trees for the finding','all trees',
 [TI+':sender._any_until'])
p('C41','Several patterns in one sender interfere (finding)',
 'With two or more patterns the stack of open elements is shared and each pattern is chained to the earlier ones: a sink never gets anything, whatever the document, if the chain for its pattern starts with two different names; so two patterns that each deliver alone can deliver nothing together.',
 'every list of two or more patterns, every sequence of events','-',
 [TI+':sender.__init__',TI+':sender._prep_patterns'])
p('C42','A sender only holds the current subtree',
 'While streaming, the tree nodes referenced by a sender are exactly those of the subtree currently being built (or the last one sent); everything else of the document is never materialised.',
 'every document, pattern and moment','every moment of unbounded documents',
 [TI+':sender'])
p('C43','Streaming a document agrees with building the tree and selecting',
 'For every document, the subtrees sent for a pattern r/p are the results of select_pattern with p on the fully built tree if the document element satisfies the stage r, and none otherwise; for a pattern starting with "**" they are the results of select_pattern with the same pattern, provided the document element itself does not satisfy the next stage (otherwise they differ). Patterns without alternatives, not ending in "**".',
 'every document and pattern','all',
 [TI+':sender',TU+':select_pattern'])
# ---------------------------------------------------------------- treeutil
p('C44','descendants enumerates every descendant element once, in document order',
 'descendants yields each element strictly below the start exactly once, in document order, and nothing else.',
 'every tree','all trees',[TU+':descendants'])
p('C45','The select functions are exact order-preserving filters',
 'select_elements, select_name, select_value and select_attribute yield exactly the source items that satisfy the stated condition, in order.',
 'every source sequence and argument','all sequences',[TU+':select_elements',TU+':select_name',TU+':select_value',TU+':select_attribute'])
p('C46','following_siblings yields what follows the element',
 'For an element that is a child of its parent, following_siblings yields exactly the siblings after it, in order; for a text node that repeats an earlier text it also yields itself and what lies between (finding).',
 'every children list','all lists',[TU+':following_siblings'])
p('C47','select_pattern selects by path',
 'Without "**" select_pattern yields, in document order, exactly the elements whose path below the start matches the pattern; with "**" before the last stage it yields exactly the outermost matching elements (finding: documented as any descendant); in general it yields only matching elements, but may miss some (finding); alternatives raise an error and a trailing "**" never yields anything (findings).',
 'every tree and pattern','all trees and patterns',[TU+':select_pattern',TU+':_prep_pattern',TU+':any_until'])
p('C48','make_pretty only touches white space',
 'make_pretty keeps all elements, attributes and their order, and all text that is not entirely white space, at the same place relative to the elements; every text it adds or changes is white space.',
 'every tree, depth and white space indent','all trees',[TU+':make_pretty'])
p('C49','make_pretty is not idempotent and ignores the indent below the first level (finding)',
 'Applying make_pretty again to an element that had only elements in it changes the indentation of its end tag, the third application changes nothing more; a custom indent is used for the top level only.',
 'every element for the indent claim; some for idempotence','all trees',[TU+':make_pretty'])
# ---------------------------------------------------------------- xpath
p('C50','child axis',
 'child::name yields exactly the child elements with that name in document order, child::* all child elements, child::text() all text children and child::node() all children (name tests always; the others in documents without empty text nodes, as parsed documents are).',
 'every document and context node','all trees',[XA+':step.compute',XA+':name_test',XA+':node_type_test'])
p('C51','descendant axis',
 'descendant::name yields exactly the descendant elements of that name, each once, in document order; descendant-or-self adds the context node first. Finding: descendant::* also yields text nodes, unlike child::*.',
 'every document and context node','all trees',[XA+':step.compute'])
p('C52','sibling axes',
 'following-sibling and preceding-sibling yield exactly the siblings after (in document order) and before (in reverse document order) a context element, filtered by the node test. Finding: a context text node is looked up by equality, so with an equal earlier text sibling the wrong siblings are selected.',
 'every document and context element','all trees',[XA+':step.compute'])
p('C53','parent and ancestor axes',
 'ancestor::name yields the ancestors with that name, nearest first, followed by the root node; parent of an element is its containing element if it passes the test, and the root node for the document element.',
 'every document and context element','all trees',[XA+':step.compute',XA+':abbreviated_step'])
p('C54','Broken axes (finding)',
 'preceding never yields anything; following misses what follows ancestors; ancestor-or-self never completes normally: it loops for ever below the document element and fails at the document element.',
 'every document and context node','non-termination; all trees',[XA+':step.compute'])
p('C55','A leading // reaches every element exactly once',
 '//name yields exactly the elements of the document with that name, each once, grouped by parent in document order of the parents (finding: not in document order), whatever element of the document is the context; //E is E evaluated at the root and at every node in document order.',
 'every document and context node','all trees',[XA+':absolute_path.compute'])
p('C56','Inner // includes the starting node (finding)',
 'a//b is evaluated as descendant-or-self::b from each a: it yields every b below each a, and in addition a itself when the test accepts it; an attribute step after // loses its axis, and anything but a single step after an inner // is evaluated without any descent.',
 'every document','all trees',[XA+':binary_expression.compute'])
p('C57','Predicates filter by position and truth',
 'E[p1]..[pn] yields, in order, exactly the items of E at which every predicate holds, a numeric predicate value meaning equality with the 1-based position in E (not renumbered between predicates) and any other value its truth value. A value that is not a number (nan) is a ValueError, an infinite one an OverflowError.',
 'every sequence, every predicate list','all sequences',[XA+':predicated_expression.compute'])
p('C58','Union is in document order but not a set (finding)',
 'A union of element sequences is the sorted merge of both operands in document order, keeping duplicates; unions involving text or attributes fail.',
 'every document and operands','all trees',[XA+':binary_expression.compute',XA+':index_docorder'])
p('C59','Equality comparison',
 'When the left operand is a single item and no right item is a node, E1 = E2 is true exactly when some right item equals the string value (or value) of the left item; with several left items only the first is compared, and a node on the right makes the comparison fail (finding).',
 'every operand sequences','all sequences',[XA+':binary_expression.compute'])
p('C60','Boolean casts and connectives',
 'boolean() is false exactly for the empty sequence, false, zero and the empty string as first item; not() is its negation on non-empty sequences; and/or return one of their operands\' first items with the corresponding truth value.',
 'every sequence','all sequences',[XA+':to_boolean',XF+':boolean',XF+':_not'])
p('C61','count counts, sequences concatenate, for-each maps',
 'count(E) is the number of items of E; (E1, ..., En) is the concatenation of the operands; for-each(E, s) is the concatenation of s evaluated at each item of E.',
 'every expression list','all expressions',[XF+':count',XA+':Sequence',XF+':foreach_'])
p('C62','String functions',
 'concat joins the string values of all items of its arguments; contains and starts-with decide the substring and prefix relations; substring-before/after split at the first occurrence, and when there is none substring-before returns the whole string (finding); the substring function with start below 1 slices from the end (finding); with any literals for start and length substring is the slice [start-1:start-1+length] of the string; for a start that is not a literal it raises (finding).',
 'every strings','all strings',[XF+':concat',XF+':contains',XF+':starts_with',XF+':substring_before',XF+':substring_after',XF+':substring'])
p('C63','The root node is a function of the tree, for every query history',
 'As long as trees are not edited, asking for the root of any node yields a root whose only child is the document element of that node, whatever roots were asked for before, for any number of documents. A root node object made for an element is found for it ever after, and a root node is its own root. Findings: different elements of one document get different root node objects, and the object found for an element can change because another element was asked for.',
 'every history of root lookups over every forest','cache histories of any length',[XA+':root_node.get'])
p('C64','The root cache is stale after editing (finding)',
 'After an element is moved under another element, the root found for it is still the old one.',
 'some histories','-',[XA+':root_node.get'])
p('C65','Queries return nodes of the document and do not change it',
 'Every node yielded by evaluating an expression belongs to the queried document (or is its root node or one of its attributes), and evaluation is repeatable: the second evaluation of the same parsed expression on the same tree gives the same result.',
 'every expression, document and context','all expressions',[XA+':binary_expression.compute',UX+':context'])
p('C66','Falsy items keep the outer context (finding)',
 'Stepping to an item that is 0, false or an empty string leaves the context item unchanged.',
 'every context and falsy item','all contexts',[UX+':context.copy'])
p('C67','Unary minus never works (finding)',
 'Evaluating a negated expression always raises.',
 'every expression','all expressions',[XA+':unary_expression.compute'])
p('C68','Serialised expressions do not determine the expression (finding)',
 'Two different expressions (a string literal and a step) serialise to the same text, so serialising cannot be inverted.',
 'some expressions','-',[XA+':serialize',XA+':literal_wrapper._serialize'])
# ---------------------------------------------------------------- xml / expat
p('C70','Namespaces are stripped consistently',
 'For every expanded name whose namespace has no white space, the start and end events carry the same local name, ancestor lists are the open local names, and events are well nested whenever the underlying parser\'s callbacks are.',
 'every callback sequence','all sequences',[XM+':expat_callbacks'])
p('C71','Namespace names with white space break end events; same-named attributes collide (finding)',
 'With white space in the namespace name the end event has a different name than the start event; attributes of different namespaces with one local name collapse to the last one.',
 'all such names','all strings',[XM+':expat_callbacks'])
# ---------------------------------------------------------------- html5
p('C72','The HTML adapter edits children as html5lib requires',
 'insertBefore puts the node immediately before the reference node, appendChild at the end, childNodes assignment keeps order, cloneNode copies name and attributes only, and a comment becomes an empty text node.',
 'every heap and arguments','all heaps',[H5+':node',H5+':element',H5+':comment'])
# ---------------------------------------------------------------- isxml, lex, microx
p('C73','isxml recognises exactly byte strings whose first non-blank character is "<"',
 'For UTF-8 text without byte order mark that does not start with a NUL or one of the declared signatures, isxml is true exactly when the first character other than white space is "<".',
 'every byte string','all byte strings',[CX+':string_isxml'])
p('C74','Line endings are normalised before tokenising',
 'The scanner sees no carriage return; CRLF and lone CR each become one newline, other characters are unchanged, and normalising twice is the same as once.',
 'every text','all strings',[LX+':run'])
p('C75','The command line match and find-text commands visit every element',
 'match evaluates its expression once at the root element and every descendant element in document order; the limit option has no effect (finding); find-text prints one line per matching text node, the path of names of the proper ancestors of its parent element (finding: the parent itself is missing).',
 'every document','all documents',[MX+':run',MX+':xpath_to'])
p('C93','How the command line tool prints items',
 'A node is printed as its markup. Findings: a text node is printed without escaping; an attribute is printed as its value between {=" and "} without its name; the root node cannot be printed, so the expression "/" ends with NotImplementedError.',
 'every document and item','all documents',[MX+':run'])
p('C94','isxml honours byte order marks',
 'UTF-8, UTF-16 and UTF-32 text after its byte order mark, in either byte order, is recognised exactly when its first non-blank character is "<" (for UTF-16: unless it starts with NUL), and every signature is accepted whatever follows. Findings: UTF-16 big endian without mark is rejected unless it begins "<?", and text with NUL characters can be accepted without beginning with "<".',
 'every text, both byte orders','all strings',[CX+':string_isxml'])
p('C95','The scanner yields exactly the tokens of the text, losing nothing',
 'The items yielded by a run are exactly those of the declarative reading of the rules: at each position the unique lexeme of the current state, otherwise one illegal character; the pieces concatenate to the normalised text and each token carries the offset of its piece.',
 'every text and initial lexer state','all strings',[LX+':run',LX+':rules'])
p('C96','Documents can be read off their tokens',
 'For every MicroXML document (strict grammar) the token sequence denotes exactly its tree, unambiguously; the only illegal characters reported are white space in tags, and the lexer is left in its initial state.',
 'every document','all documents',[LX+':run'])
p('C97','What the scanner cannot recognise (finding)',
 'An empty element tag is scanned as a start tag; a comment containing "<" or "&" is scanned as text and markup; a byte order mark becomes text; tabs, line ends and decimal references in attribute values are illegal; the letters U+00C1-U+00D5 end a name; a tag name can come out empty.',
 'every name, comment, text','all strings',[LX+':run'])
p('C98','Runs of the scanner share one lexer (finding)',
 'A run depends on previous runs only through the state they left, which changes the reading of the next text if the previous one ended inside a tag; after a second run has begun, everything either generator yields comes in turn from the second text.',
 'every text, schedule and lexer','all histories',[LX+':run',LX+':lexer'])
p('C80','What the writers can write but the parser of the library rejects',
 'Finding: wherever a document is in progress, an empty element tag written with empty=True, and an element name with a mapped prefix, are rejected by the parser with an error after the events of what precedes; a declaration of a named prefix written by the namespacing writer is rejected on the first element.',
 'every call sequence, every prefix table and mapping','all histories',[WR+':raw.start_element',WR+':namespacer.write',PA+':parser'])
p('C81','make_pretty lays out data documents',
 'For every tree in which each element has only elements in it or a single text that is not white space, make_pretty with the default indent puts every child element on its own line, indented two spaces per level, and the end tag of every element without text on its own line at the level of the element (also for empty elements); single texts stay as they are.',
 'every such tree and depth','all trees',[TU+':make_pretty'])
p('C82','How a sender reads its patterns argument',
 'A tuple starting with a string is one pattern and a list is a list of patterns. Finding: a tuple whose first component is itself a tuple of alternatives is taken for a list of patterns, so with one sink a longer pattern is rejected and a single group of alternatives is read as a path with those names as successive levels.',
 'every pattern argument','all pattern shapes',[TI+':sender.__init__'])
p('C83','A sender cannot be reused after an incomplete document',
 'Finding: the open elements of a document that ended early stay on the stack of the sender, so a complete document parsed next with the same sender does not deliver the matches a new sender delivers.',
 'exists a pattern and two documents','histories of several documents',[TI+':sender.__init__',TI+':sender._handler'])
p('C84','Evaluation ends',
 'The evaluation of every expression that uses neither ancestor-or-self nor for-each ends, on every document, with a sequence of items or an exception; the number of rounds allowed to the model does not influence results, and what has been yielded when rounds run out is a prefix of what is yielded with more.',
 'every expression, document and context','all expressions',[XA+':binary_expression.compute',XA+':step.compute'])
p('C85','attribute axis',
 'attribute::name yields the attribute of that name of an element if it has one and nothing otherwise, attribute::* all in order, and on anything but an element nothing; string() of an attribute is its value. Findings: node() and text() after @ are taken as attribute names, and name() of an attribute is empty.',
 'every document and context','all documents',[XA+':step.compute',XF+':name',XF+':string_'])
p('C86','Order comparisons and !=',
 'Comparing first items, <, >, <= and >= order strings and text nodes by code points and numbers and booleans by value. Findings: anything else, such as an element or a string and a number, is a TypeError; != between values is the negation of equality but is always true for an element and a value, so E = s and E != s can both hold; attribute nodes are made anew by every attribute step and compared by identity, so that != with attribute steps is always true, @a != @a included, while . != . is false.',
 'every operands','all operands',[XA+':binary_expression.compute'])
p('C87','Absolute paths do not depend on the context',
 'From the root or any element of the document, /E and //E give the same result, /E being E at the root; from text nodes, attributes and values they fail (finding).',
 'every expression, document and context','all contexts',[XA+':absolute_path.compute',XA+':root_node.get'])
p('C88','name, string, number, string-length and constants',
 'name() is the element name, #text for text and empty otherwise; string(E) is the string value of the first item or empty; number(E) converts the string value of a node or string and leaves numbers and booleans as they are (finding: booleans are not converted, and an empty sequence is a ValueError); string-length(E) is the length of a string and a TypeError for elements, and without argument an AttributeError (findings); last() is always -1, number() always 0 (findings); an unknown function is a RuntimeError, a wrong number of arguments a TypeError; seven functions (normalize-space, translate, same-lang, sum, floor, ceiling, round) are not implemented (finding). The string value of an integer is its decimal notation.',
 'every document, context and argument','all arguments',[XF+':name',XF+':string_',XF+':number',XF+':string_length',XF+':last',XA+':function_call.compute'])
p('C89','removeChild of the HTML adapter',
 'removeChild removes exactly the first child equal to its argument (elements by identity, text by value), changes nothing else, and raises ValueError without any change if there is none. Finding: the removed element keeps the old parent as its parent, so parent and child links disagree; they agree again once the element is inserted elsewhere, which keeps the whole tree consistent.',
 'every consistent tree, every child and destination','all trees and moves',[H5+':node'])
p('C90','Attribute assignment of the HTML adapter',
 'Assigning attributes sets, for every key of html5lib, the attribute of that name (the local name for namespaced keys), the last assignment winning, ignores names that start with xmlns, and keeps all other attributes: nothing is ever removed.',
 'every attribute dictionary and element','all dictionaries',[H5+':element'])
p('C91','Names and namespaces that html5lib reads back',
 'The name of an element made for html5lib is what follows the last colon of the requested name, or a fixed name if none was requested. html5lib reads back the name and namespace it requested exactly if the name has no colon and the namespace is none or, unless use_xhtml_ns, XHTML. Findings: otherwise (SVG, MathML, names with colons) it reads back something else, and a clone loses its namespace.',
 'every name and namespace','all names',[H5+':treebuilder',H5+':element'])
p('C92','Results of html5.parse and parse_lax_xml',
 'parse returns the first html5 element among the root nodes, skipping doctypes and comments, or None. parse_lax_xml returns the first element of the body detached, leaving the other nodes as they were and the tree consistent. Finding: for an empty body it raises IndexError; its ValueError is unreachable.',
 'every list of root nodes, every tree','all trees',[H5+':parse',H5+':parse_lax_xml'])
p('C99','The MicroXPath parser accepts exactly the grammar, unambiguously',
 'A sequence of tokens is parsed to an expression exactly if the expression is its reading in a small grammar that makes precedence and grouping explicit; every sequence has at most one reading; every other sequence is a RuntimeError, and one that ends in something that is no token is a RuntimeError or a TypeError.',
 'every sequence of tokens of any length','infinite language; the grammar of parserules.py is ambiguous and its conflicts are resolved by table construction',[XP+':precedence',XP+':p_expr_boolean',XP+':p_error',UX+':parse'])
p('C100','How MicroXPath expressions are put together',
 'A predicate in brackets applies to the whole expression before it; a step continues the path at the end of the expression, or applies to the whole expression if it does not end in a path; of two operators the one that binds tighter is applied first, of two that bind equally tight the left one ("or" and "and" bind equally); a unary minus binds tighter than all but the union.',
 'every expressions, steps and operators','all nestings',[XP+':precedence',XP+':p_expr_predicates',XP+':p_path_expr_binary'])
p('C101','The MicroXPath lexer takes the longest token',
 'The lexer yields the tokens obtained by repeatedly skipping blanks and taking the longest beginning of the rest that is a token; there is always exactly one such sequence; no text is two different tokens; tokens written with blanks between them are read back, and blanks before a token do not matter.',
 'every text','all texts',[XL+':t_NAME',XL+':NAME_REGEX',XL+':t_error'])
p('C102','Texts to expressions',
 'parse returns an expression exactly if the text consists of tokens whose reading is that expression. It always ends; otherwise it raises RuntimeError or TypeError: RuntimeError if the tokens have no reading, TypeError if the text does not begin with a token.',
 'every text','all texts',[UX+':parse',XL+':t_NAME',XP+':p_error'])
p('C103','Surprises of the MicroXPath syntax (findings)',
 'No expression is ever a multiplication: * is always a node test. A name cannot begin with a letter from U+00C0 to U+00D6 (TypeError). "/" followed by two words such as "or a" is an error. An unknown axis is an error wherever it occurs. text() and node() alone are tests of the context node, not steps to the children, whatever stands between the parentheses. A predicate after the last operand of an operator applies to the result of the operator.',
 'every text, every letter of the range, every argument list','all texts',[XL+':NameStartChar',XP+':p_axis_specifier_full',XA+':node_type_test'])
p('C104','Serialised expressions are read back',
 'str of an expression that came from the parser, if it has no string literals, no floats whose text is not a decimal fraction, and no "-" right after a name or step right after a lone "/", parses to the same expression. Findings: strings are written without quotes and read as names, a - b is written as something that does not parse, and "/ / a" is written as //a.',
 'every expression','all expressions',[XA+':binary_expression._serialize',UX+':parse'])
p('C105','Queries by text from a node',
 'xml_xpath with a text evaluates the expression read from it at the node, or at the root if the node is the document element (where a name therefore selects the document element itself); with a parsed expression it evaluates that; a text that is no expression is a RuntimeError or TypeError, anything else is a ValueError, and a text node that is in no element has nothing to start from and raises AssertionError. for-each reads its second argument in the same way. qquery does the same for texts. Findings: qquery with anything but a text, a parsed expression included, raises UnboundLocalError (AssertionError from a text node that is in no element), and from an empty text node yields nothing whatever the expression.',
 'every document, node, text and expression','all documents and expressions',[TR+':node',UX+':qquery',XF+':foreach_'])
p('C106','Queries over document texts, end to end',
 'qquery with the text of a document of the grammar and the text of an expression evaluates the expression at the root of the tree of the document. A path of names yields, in document order and each once, exactly the elements at which the names from the document element down are these, the same elements as the stream of subtrees for that pattern; //n yields each element named n once, and count(//n) their number.',
 'every document, every expression, every path of names','all documents and expressions',[UX+':qquery',XA+':step.compute',XA+':absolute_path.compute',TI+':sender'])
p('C107','microx with several sources prints the first document again (finding)',
 'Without --partition, microx with one source prints what its command prints for the document. With several sources, all read by one tree builder, it prints the results for the first document once per source, stopping at the first exception; the results for the other documents are never printed.',
 'every command line with one readable command, every list of documents','all lists of documents',[MX+':run',MX+':main',XM+':treebuilder'])
p('C108','microx --partition',
 'With --partition=n (n not empty, * or **), the command is done on every element named n that is not inside another element named n, in document order, source after source, stopping at the first exception, and its results are printed in that order. With --partition=* the command is done on every source as a whole; with --partition=** the program ends with a TypeError at the first source and prints nothing.',
 'every command line with one readable command and --partition, every list of documents','all lists of documents',[MX+':run',XI+':sender',TI+':sender'])
p('C109','The command line of microx, end to end',
 'microx ends with ValueError before anything is printed unless exactly one of --expr, --match and --find-text is given and not empty; with RuntimeError or TypeError if an expression cannot be read. On one document, --expr with a path of names prints the markup of the elements at that path in document order; --expr=//n that of each element named n once; --match=n that of the children named n of every element in document order, so never the document element; --find-text the path of every element with that text, once per text child.',
 'every document, name, path of names and text','all documents',[MX+':run',MX+':main',MX+':xpath_to'])
p('C110','Paths with conditions as sets of nodes',
 'A path of steps along self, child, descendant, parent, ancestor, sibling and attribute axes, with conditions (paths, or values, where numbers are positions) at any place, absolute or not, and a union of such paths to elements, ends normally and selects exactly the items that the composition of the steps leads to and that satisfy the conditions. A value built from strings, whole numbers, comparisons, and/or, true, false, not, boolean, count, name, string, string-length, concat, contains, starts-with, substring, substring-before, substring-after and last, over such paths, is exactly the one that these functions make of what the paths select, the first item or all of them. Paths of child, self and attribute steps, possibly with a last descendant step, select in document order (a step to ancestors or preceding siblings from the end), and positions count in this order; these and paths of child steps below // select each item once. So qquery with //n[@k=...] over a document yields each such element once. Finding: in general an item is selected once per way to it, and not in document order.',
 'every document, every expression of this form, every context item','all documents, expressions and context items',[XA+':binary_expression.compute',XA+':step.compute',XA+':absolute_path.compute',XA+':predicated_expression.compute',XA+':abbreviated_step.compute',UX+':qquery'])
p('C111','Document order numbers of unions, through queries and edits',
 'In every history of evaluated unions (also at text nodes without parent), removals of elements, insertions of text, new documents, and insertions of elements into documents whose nodes have no numbers yet, a union at any context of a document puts the selected elements of that document into document order, also if its operands evaluate unions. At the root node the root node comes out too, before all but the document element. At a context that has no number this holds whatever was edited before. Text nodes in a document and attributes cannot be selected (AttributeError); a text node without parent can be, at itself. Findings: at a numbered context, an element made after the numbering is AttributeError; a moved element is sorted at its old place; whether the root node can be selected from an element depends on earlier queries; the root node may come after the document element.',
 'every heap, every history, every context, every selection','all histories of queries and edits',[XA+':index_docorder',XA+':binary_expression.compute'])
p('C112','Streaming to sinks that edit',
 'Whatever a sink does with the heap when it is sent an element (edit it, make or change other trees, let go of anything), if the element has no parent afterwards, then over any number of documents exactly the elements matched by the pattern are sent, in document order, each complete at that moment. With sinks that edit nothing the runs are those of C39, for any patterns. Finding: if the sink appends each element to some other element with xml_append, that element ends up with the first match once and every later match twice, because the sender takes the new parent for the place where the next subtree goes.',
 'every sink, every pattern without **, every document, every heap and every collection of garbage','all sinks, documents and executions',[TI+':sender._handler'])
p('C113','Streaming from XML 1.0',
 'A sender of xmliter.py fed with an XML document in any number of calls of parse sends exactly the elements whose path of local names matches the pattern (with ** before the last stage: the outermost ones), in document order, with attributes and content without namespaces. Where the source is divided, and where expat divides text, makes no difference except to where the text sent is divided. If the source stops early there is no error, and what was sent is the beginning of what the whole gives.',
 'every document, every division of it, every pattern without ** or with ** only before its last stage, every heap and every collection of garbage','all documents and divisions',['pylib/uxml/xmliter.py:sender','pylib/uxml/xml.py:expat_callbacks'])
p('C114','A subtree is sent with its end tag',
 'The element a sender sends is sent when its handler gets the end event of that element: at every moment before that exactly the earlier elements of the listing have been sent, and at that moment this one as well, wherever the document goes on.',
 'every document, every pattern without ** or with ** only before its last stage, every element sent, every sender with any history of complete documents','every moment of unbounded documents',[TI+':sender._handler'])
p('C115','Trees through everything html5lib does',
 'After any sequence of the calls html5lib makes on the nodes of html5.py (new nodes, cloneNode, attributes, appendChild, insertBefore, insertText, removeChild, reparentChildren, and parse_lax_xml afterwards), where inserted elements are in no list of children and do not contain their new parent, every child knows the element whose list it is in, is in no other list and not twice, and does not contain it; every node is the root of a finite tree, a node without parent of exactly one document. parse_lax_xml returns a document: the first subtree of the body, unchanged. Nodes that are in no list may still refer to an old parent.',
 'every sequence of calls of any length, every argument, every collection of garbage','all histories of calls',[H5+':node',H5+':element',H5+':parse_lax_xml'])
p('C116','microx with --html and --lax',
 'With --html (whatever --lax says) microx does its command on the document element of each source in turn; with --lax on the first node of the body of each, where --expr fails with AssertionError if that is a text. Findings: with --lax a source with an empty body ends the program with IndexError after the output for the sources before it; with --partition the flags have no effect.',
 'every command line, every list of sources and every history of calls html5lib makes','all sources and command lines',[MX+':run',MX+':main',H5+':parse',H5+':parse_lax_xml'])
p('C117','Functions given to a query replace the built-in ones (finding)',
 'A query with an empty mapping of functions uses the built-in ones. With a non-empty mapping a call of a name that is not in it fails with RuntimeError, built-in or not; a function in it decides the result of its calls. The result of a query only depends on what the names it calls mean: queries without calls are not affected, and with a mapping that has the built-in functions as well queries that call only those are not.',
 'every document, expression, context item and mapping of functions','all mappings and expressions',[XA+':function_call.compute',UX+':context'])
p('C118','Elements of one tree do not share attributes; those of two patterns do (finding)',
 'Whatever is parsed, and however attributes of elements are changed meanwhile (between events, in a sink, between documents), changing the attributes of an element changes that element, and no other if a treebuilder or a sender with one pattern made the elements, and no other of the same tree with several patterns. Elements made for two patterns are either independent or share their attributes for ever; the latter happens (finding): what the sink of the first pattern does to the attributes, the sink of the second receives.',
 'every sequence of events and documents, patterns, and changes of attributes at any time','all interleavings of parsing and editing, including collection',[TI+':sender._handler',TR+':element.__init__',TR+':treebuilder._handler'])
p('C119','Write handlers (finding)',
 'Whatever class of write handler a writer is given, writing a tree calls its write method with exactly the pieces of markup of the tree, one after the other with their contexts, until the first exception; for any calls and any indentation what the handler is given does not depend on the handler, and without handler these pieces are written. A handler that writes only text produces the string value; raw as handler changes nothing. Findings: namespacer as handler fails with AttributeError at the first start tag that has attributes or is not empty, having written "<" and the name; a namespacer with a handler writes neither declarations nor prefixes; a namespacer cannot write an empty element (TypeError).',
 'every handler, with state, output and exceptions of its own, every tree and every sequence of calls','handlers are arbitrary code',[WR+':raw',WR+':namespacer'])
p('C120','Entry points that always fail (finding)',
 'expat_callbacks is made by exactly the calls that give a handler and at most prime_handler besides; ns_expat_callbacks cannot be made, whatever its arguments (TypeError), also not by xmliter.sender; html5iter.sender.parse is an AttributeError for every document; html5.markup_fragment is an AttributeError whatever the text is parsed to; coax.run is a NameError for every text with an allowed character other than "&" and "<", and silently does nothing for a text that has only other characters, none of which begins a name or is a carriage return; the tags of coax cannot be made (NameError, TypeError for arguments that do not fit) unless the caller has put g_ancestor_stack into the module. A tag made that way cannot be unparsed, whatever unparse_attrmap the caller adds: always a TypeError (bytes added to a string), or UnicodeEncodeError for a name with a surrogate.',
 'every argument list, every document and text','all arguments',[XM+':ns_expat_callbacks','pylib/uxml/html5iter.py:sender.parse',H5+':markup_fragment','pylib/uxml/coax.py:run','pylib/uxml/coax.py:start_tag.__init__','pylib/uxml/coax.py:end_tag.__init__','pylib/uxml/coax.py:start_tag.unparse'])
p('C121','Functions in the pattern of a sender',
 'A component of a pattern may be a tuple of names and functions; a function is called with the start event of an element. A sender with such a pattern and functions that raise no exceptions sends, for every document, copies of exactly the elements whose start events from the root down match the pattern, in document order, each complete; with "**" before the last component, those that are not below another match. An exception in the test of the document element ends the parse before anything is sent. Without functions the sender is the one without functions. Each component of a pattern is read as its text says ("*", "**", a name, a tuple of alternatives). Finding: a pattern that starts with a tuple is taken for a list of patterns (the characters of a string being components) and rejected if it has a function.',
 'every pattern, every function of events, every document, sender with any history and any collection','functions are arbitrary code; all documents, histories and collections',[TI+':sender._any',TI+':sender._prep_patterns',TI+':sender._handler',TI+':sender.__init__'])
p('C122','What senders with several patterns send (finding)',
 'The state machine of a pattern continues into those of the patterns before it, and the patterns share one stack of events. Sink number ix out of k gets, for every document, exactly the outermost elements at which the sequence "every event above k times, the event of the element ix+1 times" begins with something that the concatenation of pattern ix and those before it, last one first, matches. So with two patterns the first sink receives elements that its pattern does not match, and the second needs both.',
 'every list of patterns without "**" whose functions raise no exceptions, every document, history and collection; with "**" and exceptions, everything that is sent','all lists of patterns, documents and histories',[TI+':sender.__init__',TI+':sender._prep_patterns',TI+':sender._match_state',TI+':sender._handler'])
p('C123','Functions in the pattern of select_pattern',
 'A component of a pattern may be a tuple of functions; a function is called with a node, element or text. select_pattern yields exactly the nodes whose line of ancestors below the start matches the pattern, in document order, including texts that a function accepts; with "**" before the last component, exactly the elements among them that are not below another one. With any pattern, and functions that may raise exceptions, everything yielded matches and is in document order. Without tuples it is the selection without functions. A sender whose pattern has the document element in front and functions that agree with those of the selection sends copies of exactly what is selected. Finding: a name in a tuple is a TypeError.',
 'every tree, pattern and function of nodes','functions are arbitrary code; all trees and patterns',[TU+':select_pattern',TU+':_prep_pattern',TU+':any_',TU+':any_until'])
p('C124','Steps from values, attributes, text nodes and the root (finding)',
 'A string, number or boolean passes the test "*", a string also node() and text(), nothing else passes; on self:: the result is the item if it passes, on the -or-self axes an AttributeError follows, attribute:: is empty, every other axis and ".." is an AttributeError, an absolute path an AssertionError. An attribute passes "*" and node() but not its own name; parent:: and ".." give its element, ancestor:: gives the elements from there up that pass and then an AssertionError, child:: and descendant:: are AttributeErrors, the sibling axes, following:: and preceding:: ValueErrors, and ancestor-or-self:: does not end. ancestor:: from a text node gives the ancestors that pass and then an AssertionError, as an absolute path does. The root is its own parent and ancestor, whatever the test.',
 'every value, attribute, text node, axis, node test and document','contexts that are not elements come up in predicates and after function calls; all of them, for all axes',[XA+':step.compute',XA+':node_type_test.compute',XA+':name_test.compute',XA+':abbreviated_step.compute',XA+':absolute_path.compute',XA+':root_node.get',XA+':attribute_node'])
p('C125','Sinks that raise or end (finding)',
 'A sink may raise an exception, or return, when it is sent an element. Until then, over any number of documents, it is sent exactly the elements whose path matches the pattern, complete and in document order; the exception leaves sender.parse, and the elements sent from that document are a prefix of the matching ones, the last of them the one at which the sink raised. Finding: afterwards the sender is of no use. However many documents follow, and whatever the sink does then, from each document at most one object is sent, and it is sent if and only if the name of the root element is accepted by the last component of the pattern; so with a pattern of several components matching elements are not sent, and elements that do not match may be. With several patterns the sink raises at an end tag, the patterns after its own do not see that event, and the shared event stack is popped only for those up to it.',
 'every sink, every pattern without **, every history of documents and every collection of garbage','sinks are arbitrary code; all sinks, histories and executions',[TI+':sender._handler',TI+':sender.parse'])
p('C126','treeutil, MicroXPath and streaming select the same',
 'From an element of a document, the path * gives the same children in the same order as select_elements, name the same as select_name, *[@k] and *[@k="x"] the same as select_attribute, node()[.="x"] the same as select_value, descendant::name the same as select_name over descendants, and a path of names and * (grouped in any way) the same as select_pattern with these components. For a document given as a text, the subtrees sent by a sender for a pattern of names and * are, in the same order, those at the nodes the pattern written as an absolute path (/a/*/b) selects, whatever the sender was used for before; and they are what select_pattern finds from the document element with the rest of the pattern, if the first component is * or the name of the document element.',
 'every document, every element of it, every name, attribute and value, every pattern of names and *, every history of the sender','three implementations of selection, compared on all documents and requests at once',[TU+':select_pattern',TU+':select_attribute',TI+':sender',XA+':step.compute',XA+':binary_expression.compute'])
p('C127','Event handlers that raise or end',
 'A handler of the incremental parser may raise an exception, or end, at any event. Until then it is sent exactly the events the parser finds. The exception leaves the call of send in which the parser finds that event, and the handler has been sent precisely the events up to it: for a document, in whatever pieces it comes (none cut inside an attribute value), the beginning of the events of the document. If the handler ended (StopIteration) or raised GeneratorExit, what leaves send is StopIteration. Afterwards nothing is ever sent to the handler and every further call of send raises StopIteration, whatever the client sends. A handler that raises when it is started is noticed when the parser is made.',
 'every handler, every sequence of pieces with any final flags, every moment','handlers are arbitrary code; all handlers, texts, cuts and continuations',[PA+':parser'])
p('C128','Namespace bookkeeping of ns_expat_callbacks (finding)',
 'On expat\'s calls the class sends the same events as expat_callbacks, up to the first exception. After calls without one, prefixes maps every prefix to the namespace of its last declaration (when streaming: if that has not ended), prefixes_rev every namespace to the prefix last declared for it, ns_portfolio every local name of an element to the namespace of the first element with that name and the prefix declared last before it, and "@" with the local name of an attribute to those of the last such attribute, with the prefix "" if its namespace was not declared. There is an exception exactly if an element is in a namespace not declared before it and no element before it has its local name (so for every document whose element is in no namespace), or, when streaming, a declaration ends whose prefix was declared again inside its scope, or the calls are not balanced. This is for namespace names without blanks: an element or attribute in a namespace whose name is two words is a ValueError.',
 'every sequence of calls with names without white space, local names of elements without "@" in front (for the events: any calls), streaming or not','all documents, prefixes and nestings of scopes',[XM+':ns_expat_callbacks.start_namespace',XM+':ns_expat_callbacks.end_namespace',XM+':ns_expat_callbacks.start_element'])
p('C129','Exactly what patterns with ** select',
 'A "**" in a pattern skips the elements down to the first one that the component after it accepts, and never more; two in a row are like one; every other component takes one element. With this reading, for every pattern that does not end in "**": treeiter.sender and xmliter.sender send exactly the elements whose path the pattern takes, each once, complete, at its end tag, in document order, also with sinks that edit what they get, up to the element at which a sink raises, and into a collecting element; with functions in the pattern and with several patterns likewise, each sink getting its outermost ones; treeutil.select_pattern yields exactly the nodes below the given one; streaming and selecting agree. What is selected matches the pattern and no selected element is inside another; not all outermost matches are selected (C40), except without "**" or with one before the last component.',
 'every pattern not ending in "**", document, sender state and sink as in C39, C112, C113, C121-C123, C125','all patterns with any number of "**", all trees',[TI+':sender._any_until',TI+':sender._prep_patterns',TI+':sender._handler',XI+':sender',TU+':select_pattern',TU+':_prep_pattern',TU+':any_until'])
p('C130','A tree builder takes a document that breaks off for a shorter one',
 'treebuilder.parse raises no error for a document that breaks off, neither in tree.py (whose parser gets an empty last piece) nor in xml.py (which never tells expat that the source has ended): the result is None as long as no start tag is complete, and afterwards a beginning of the document\'s tree, that is the tree with all children after some point missing in the innermost open elements. For XML sources every such beginning is the result for some beginning of the calls that expat makes.',
 'every MicroXML document and every proper beginning of it; every sequence of expat calls for an XML document and every beginning of it; all states of the builder, all moments of garbage collection','all documents, nesting depths and places where they break off',[TR+':treebuilder.parse',XM+':treebuilder.parse',XM+':expat_callbacks',PA+':parser'])
p('C131','Location paths follow the references of the node objects to the same nodes',
 'In every tree reachable by parsing and disciplined editing, each live node has exactly one position in exactly one tree, and evaluating a location path (all axes and tests, . and .., /, //, absolute paths, a number or a path as predicate) by following xml_children and the weak references xml_parent yields, in the same order and with the same exceptions, the objects at the positions that the properties C50-C68, C110 and C124 speak about; the loops of the axes end (except ancestor-or-self, which never does below the root); whichever root nodes are cached, absolute paths start at the topmost element. Finding: once the root of a parentless element has been asked for and the element is inserted elsewhere, absolute paths from it start at its old root.',
 'every heap of any number of documents after any disciplined edits, every node, path and history of the root cache','all object graphs, edit histories, paths and cache states',[XA+':step.compute',XA+':abbreviated_step.compute',XA+':absolute_path.compute',XA+':predicated_expression.compute',XA+':root_node.get',TR+':node.xml_parent'])
p('C132','make_pretty keeps the node objects and replaces only white space texts',
 'Called on an element of a consistent object graph, make_pretty returns, and the objects below the element then form the tree of C48. Every element and every text with more than white space is the same object as before, with the same name, attributes, string and parent, and in the same document order; every other node below the element is a new text node; only lists of children below the element change, no object outside. When the replaced texts are forgotten, children and parent links agree again, and at once if there was no white space text. Finding: a replaced text that the caller still holds goes on naming its old parent, which no longer lists it, so that its sibling axes raise ValueError.',
 'every heap reachable by parsing and disciplined editing, every element in it, depth and indent','all object graphs and sharing of references by the caller',[TU+':make_pretty',TR+':text.__init__',TR+':node.__init__'])
p('C133','Expressions over node objects: the answers are those of the tree at hand',
 'An expression with any steps, operators, functions, predicates, variables and for-each, evaluated at a node of a consistent object graph with any number of documents, after any history of root lookups and union numberings, yields the nodes at the positions, and the values, that it yields for the tree of that document, in the same order and with the same end. So a document that was edited answers like a freshly parsed one with the same tree. This is for expressions that compare no two root nodes by != and have no root node in a union. Finding: there may be several root node objects for a document, so that at a child of the document element / != ../.. is true, and . | /a/.. at a root node raises AttributeError.',
 'every heap reachable by parsing and disciplined editing, every history of root lookups and unions, every such expression, node, variables and fuel','all object graphs, documents and histories of the cache and of the numbers',[XA+':binary_expression.compute',XA+':step.compute',XA+':absolute_path.compute',XA+':predicated_expression.compute',XA+':function_call.compute',XA+':root_node.get',XF+':foreach_'])
p('C134','Iterators of treeutil over a tree that is edited between two calls of next()',
 'What an iterator of treeutil (descendants, select_*, following_siblings, select_pattern, and filters over them) delivers next is determined by the tree as it is at that call and by the positions it has reached: the first of the nodes still to come, in document order. An insertion or removal ahead of a position is seen. Insertions and removals in elements other than r do not disturb an iteration over the children of r, and editing the text of each element as it is delivered does not disturb descendants. Findings: an insertion behind the position makes the last child come again, so that a loop over the children which inserts text before the current one never ends; a removal behind it makes the iterator pass over the next child, so that a loop which removes each child it is given leaves every second of adjacent ones (all are removed if no two selected children are adjacent, or if the loop is over a list made before); a loop over descendants that appends an element to each never ends.',
 'every consistent object graph, every iterator state, test and pattern, every insertion and removal, loops of any length','the interleavings of iteration and edits, and loops that never end',[TU+':descendants',TU+':select_elements',TU+':select_pattern',TU+':following_siblings',TR+':element.xml_insert',TR+':element.xml_remove'])
p('C135','Location paths over a tree that is edited between two results',
 'xml_xpath returns a generator. For location paths made of steps along self, child, descendant, descendant-or-self, following and the sibling axes, relative or after / or //, what it delivers next is determined by the tree as it is at that call and by what it has reached, and without edits the results are those of the path. A loop over descendant::t or following::t is not disturbed by insertions and removals in elements that do not come after the current result in document order; a loop over following-sibling::t or preceding-sibling::t is not disturbed by any. So a loop that takes every result of descendant::n out of its parent takes out all of them, and a loop that appends an element to every result of descendant::t ends with the nodes that were there at the start (unlike treeutil.descendants). A loop over child::n behaves as one over select_name in every respect. Findings: removing the results of n or //n in a loop over them passes over the neighbour of each, and a loop over //* that appends an element to every result never ends.',
 'every consistent object graph, every such path and every suspended state, edits of any number between any two results','the interleavings of evaluation and edits',[XA+':step.compute',XA+':binary_expression.compute',XA+':absolute_path.compute',TR+':node.xml_xpath',TR+':element.xml_insert',TR+':element.xml_remove'])
p('C136','Queries on node objects, from text to objects',
 'x.xml_xpath(s) and qquery(x, s) on a node object x, after any history of parsing, editing and earlier queries, give the objects at exactly the positions that the query over the tree gives, in the same order and with the same end. For the paths with conditions of C110: every object at a position that the path selects is among the results, every result is one, and for paths that select each node once no object comes twice. In particular parse(text).xml_xpath(s), for every document text and every expression text, selects the objects of the new tree that the relational meaning of the path says, and an object at a position holds the subtree there. A query at each result of a query is the query for the two paths joined by a slash, if the results have parents. Finding: not so at the document element, where xml_xpath starts at the root node: [y.xml_xpath("b") for y in x.xml_xpath("a")] finds nothing where x.xml_xpath("a/b") does.',
 'every document, expression text and node; every history of the object graph, the cache of root nodes and the document order numbers','all documents, expressions and histories together',[TR+':node.xml_xpath',UX+':qquery',UX+':context.__init__',UX+':parse',TR+':treebuilder.parse',XA+':root_node.get'])
p('C137','Queries with any expressions over a tree that is edited between two results',
 'The generator that xml_xpath returns, for every expression: without edits it delivers, one by one, what the evaluation gives (C133, C136). Unions, comparisons, arithmetic and all functions but for-each have all their results before they deliver the first, so that nothing that happens later changes the rest; in particular a loop that takes every result of a union out of its parent takes out all of them (unlike a loop over a child path, C135). An expression with a number as its first predicate delivers at most one result, whatever is edited. A loop over ancestor::t visits the elements above and then a root node, whatever else is edited, as long as they keep their names and parents; the parent of a result is looked up when the next is asked for, so that after a result has been taken out of its parent a root node comes next, and then nothing. A loop over @t visits the attributes in order, with the values they have at that time, if only values are set. Finding: after the element has got another number of attributes next() raises RuntimeError, even after the last one; so a loop over @* that deletes each attribute stops at the second.',
 'every expression, node, variables, state of the trees, of the root cache and of the numbers; any edits between any two results','the interleavings of evaluation and edits, for all expressions',[XA+':step.compute',XA+':binary_expression.compute',XA+':absolute_path.compute',XA+':predicated_expression.compute',XA+':Sequence.compute',XF+':foreach_',TR+':node.xml_xpath'])
p('C138','Loops over location paths and predicates while the tree is edited',
 'A loop over what xml_xpath returns for steps with slashes in between (child, descendant, self, following, sibling and descendant-or-self axes), also with / or // in front, delivers the same items after the same edits as the loop over the location path in C135, and what is to come is the same at every moment; so all that holds there holds for xml_xpath. xml_xpath of a node with a parent computes the expression at that node, of a node without one at its root node. A loop over an expression with predicates is the loop over the expression without them in which the body is run for the kept items only: each predicate is computed when its item comes, a number is compared with the position among all items that came, other values count by their truth, and predicates after a false one are not computed. The loop that takes every result of descendant::n[predicates] out of its parent ends, has taken out, in document order, exactly the descendants that had the name and met the predicates at the start, and left all other nodes where they were, if the predicates look at names, attributes and texts only; [@k] is such a predicate.',
 'every tree, node, path, predicates, variables, state of the root cache; any edits by the body (for the removal: xml_parent.xml_remove)','the interleavings of evaluation and edits, for all trees and expressions',[XA+':step.compute',XA+':binary_expression.compute',XA+':absolute_path.compute',XA+':predicated_expression.compute',TR+':node.xml_xpath',TR+':element.xml_remove'])
p('C139','microx with sources that are not well-formed (finding)',
 'Where expat complains about no source, the program is that of C107-C109. Without --partition a source that expat rejects ends the program: what comes before it is printed, then follows ExpatError; nothing of it and nothing after it is printed. Finding: expat is not told that the text has ended, so a source that breaks off is taken without complaint for the document that begins like it and ends there, and a second source is put into it below the innermost element that is open, and the whole queried again. With --partition a source that breaks off or is rejected gives exactly those elements of the name, not inside another one, whose end tag has been read, after those of the sources before it, and then ExpatError. With --partition * that is the document if it has been read to its end, else nothing; with --partition ** the program ends with TypeError at the first start tag.',
 'every list of sources, every place where a source breaks off or is rejected, all commands','all documents and all places to break off',[MX+':run',XM+':treebuilder.parse',XI+':sender.parse_file'])
p('C140','microx with sources that have no element (finding)',
 'Without --partition, if the first source has an element the program is that of C139. Finding: a first source without any element (an empty one, or one with only comments) is not reported: with --find-text, and with --expr or --match and a path whose first step needs the neighbours of a node (child, parent, descendant, ...), the program prints nothing and ends with AttributeError; with an absolute path it ends with AssertionError. With --expr and a path that begins with an attribute step, or with self and a test other than *, such sources print nothing and the documents after them are treated as in C107; if there are none the program ends normally; with --match it ends with AttributeError. --expr . prints the line None for such a source. In general a location path does at None what it does at a number or a truth value, and the lines printed are the word None as often as that has results, with --foreach as for the path continued.',
 'every list of sources that begins with ones that have no element, every location path','all paths and all lists of sources',[MX+':run',XM+':treebuilder.parse',XA+':step.compute',XA+':root_node.get'])
p('C141','What repr shows of nodes and expressions',
 'repr of a parsed expression is {class text}, where text is read as the same expression, also for a - b and for a step after a lone "/", where str is not (C104); so different expressions without string literals look different. Findings: of a negation the text is read as a double negation, because the operator is written twice; of literals there are no braces, and a string looks like a number. repr of an element tells exactly its identity, its name and the number of its children; repr of a text tells exactly its first ten characters; repr of an attribute tells its name and value; nodes of different kinds look different.',
 'every expression that the parser gives, every node','all expressions, all names and texts',[XA+':binary_expression.__repr__',XA+':unary_expression.__repr__',XA+':absolute_path.__repr__',XA+':attribute_node.__repr__',TR+':element.__repr__',TR+':text.__repr__'])
p('C142','Absolute expressions do not depend on the element that is asked',
 'An expression in which everything that depends on the context begins at the root, in a variable or in a literal (count(//a[b]/..), /a/b or $x; after a slash, in a predicate and in the text of for-each there may be anything) has the same results in the same order, or the same exception, at every element of a document; without unions at the root node too, so xml_xpath gives the same whichever element of the document it is called on. The results of paths, unions and filters at a node are nodes. Findings: a path after an item that counts as false (0/.) depends on the element; "/ | /" works at the root node and not at an element.',
 'every closed expression, every document, every two elements','all expressions, documents and pairs of elements',[XA+':absolute_path.compute',XA+':predicated_expression.compute',XA+':binary_expression.compute','pylib/uxml/uxpath/__init__.py:context.copy',TR+':node.xml_xpath'])
p('C143','Laws of expressions',
 'Expressions give the same results, in the same order and with the same exception: (a/b)/r and a/(b/r), (a/b)//r and a/(b//r), a/. and ./a and a, at nodes, where a and b are paths, filters or unions; (a, b)/r and (a/r, b/r), nested and flat sequences, not(not(a)) and boolean(a), not(boolean(a) or boolean(b)) and not(a) and not(b), its dual, e[boolean(a)][boolean(b)] and e[boolean(a) and boolean(b)], everywhere; a | b and b | a, (a | b) | c and a | (b | c), if no operand raises. Findings: a/0/. is not a/(0/.); (a//b)//c is not a//(b//c); not(a or b) is not not(a) and not(b), because or fails at an operand without results; e[1][2] is not e[1 and 2]; a | a is not a.',
 'all expressions, contexts and documents','all expressions, contexts and documents, including raising ones',[XA+':binary_expression.compute',XA+':Sequence.compute',XA+':predicated_expression.compute',XF+':_not',XF+':boolean'])
p('C144','The lines of microx --find-text can be asked for',
 'The line printed for an element other than the document element, given to xml_xpath at the document element, is an expression whose results are, in document order and once each, the elements at the depth of its parent whose ancestors and self have the names and the shown attributes of those of the parent; the parent is among them, and the only one if no other element has such a path. So every line of find-text that is not empty leads to the parent of an element with the text, and there is such a line for every such element but the document element. This needs names that the lexer knows, values without double quotes and no empty text nodes. Findings: with a double quote in a shown value, with a letter from U+00C0 to U+00D6 in a name, and for the document element, the line raises when it is asked; without attributes one line stands for many elements.',
 'all documents, elements, lists of shown attributes','all documents and addresses; the tests run no find-text',[MX+':xpath_to',MX+':run',XA+':predicated_expression.compute',TR+':node.xml_xpath'])
p('C145','How the string functions go together',
 'If contains(x, y) is true then concat(substring-before(x, y), string(y), substring-after(x, y)) is the string of x, for y with a result that is not the empty string; if it is false, substring-before gives the string of x and substring-after the empty one. starts-with(x, y) implies contains(x, y), and is the same as contains(x, y) with nothing before. concat may be grouped in any way; concat(x, y) starts with x, contains y, and string-length adds up, for operands with one result. concat(substring(x, 1, k), substring(x, k+1, m)) is the string of x if k + m is at least its length. string(string(x)) is string(x). Findings: an operand without results is "False" for contains but empty for string, so that the first law fails; concat takes all results of an operand, the others the first.',
 'all expressions, contexts and documents','all expressions and strings',[XF+':concat',XF+':contains',XF+':starts_with',XF+':substring_before',XF+':substring_after',XF+':substring',XF+':string_',XF+':string_length',XF+':string_arg'])
p('C146','Comparisons turned round and negated',
 'For operands with results, l < r gives what r > l gives and l <= r what r >= l gives, exceptions included. For strings and text nodes, and for numbers other than NaN, < is the negation of >= and > that of <=; on strings < is transitive, and <= and >= both hold exactly for equal strings. For two single values that are no nodes, = and != do not depend on the order of the operands and are negations of each other. Findings: with a node on one side, or several items, = depends on the order of the operands; NaN is neither less than a number nor greater or equal.',
 'all expressions, contexts and documents','all expressions and values',[XA+':binary_expression.compute'])
