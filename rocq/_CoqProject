-Q theories Verif
theories/PyStr.v
theories/CharClass.v
theories/Parser.v
theories/ParserS.v
theories/ParserM.v
theories/XTree.v
theories/Grammar.v
theories/ParserSpec.v
theories/ParserFrag.v
theories/ParserInv.v
theories/ParserGram.v
theories/ParserMore.v
theories/ParserVal.v
theories/ParserClass.v
theories/Prop_Parser.v
theories/Tree.v
theories/TreeSpec.v
theories/TreeFacts.v
theories/TreeMore.v
theories/Heap.v
theories/Builder.v
theories/HeapSpec.v
theories/BuilderFacts.v
theories/HeapFacts.v
theories/BuilderMore.v
theories/Prop_Tree.v
theories/Writer.v
theories/WriterSpec.v
theories/WriterFacts.v
theories/Prop_Writer.v
theories/WriterHandler.v
theories/WriterHandlerSpec.v
theories/WriterHandlerFacts.v
theories/Prop_WriterHandler.v
theories/Path.v
theories/Nodes.v
theories/Pattern.v
theories/PatternSpec.v
theories/PatternFacts.v
theories/TreeUtil.v
theories/TreeUtilSpec.v
theories/TreeUtilFacts.v
theories/Prop_TreeUtil.v
theories/TreeIter.v
theories/TreeIterSpec.v
theories/TreeIterFacts.v
theories/TreeIterMore.v
theories/Prop_TreeIter.v
theories/XPath.v
theories/XPathSpec.v
theories/XPathFacts.v
theories/XPathFuel.v
theories/XDecimal.v
theories/XPathMore.v
theories/XPathHere.v
theories/XPathExpr.v
theories/XPathFun.v
theories/XItemSpec.v
theories/XItemFacts.v
theories/Prop_XItem.v
theories/XPathLast.v
theories/RootCache.v
theories/RootSpec.v
theories/RootFacts.v
theories/Prop_XPath.v
theories/Expat.v
theories/ExpatSpec.v
theories/ExpatFacts.v
theories/Prop_Expat.v
theories/Html5.v
theories/Html5Spec.v
theories/Html5Facts.v
theories/Prop_Html5.v
theories/IsXml.v
theories/IsXmlSpec.v
theories/IsXmlFacts.v
theories/Prop_IsXml.v
theories/Microx.v
theories/MicroxSpec.v
theories/MicroxFacts.v
theories/MicroxMain.v
theories/MicroxMainSpec.v
theories/MicroxMainFacts.v
theories/MicroxUse.v
theories/MicroxPart.v
theories/Prop_MicroxMain.v
theories/MicroxBad.v
theories/MicroxBadSpec.v
theories/MicroxBadFacts.v
theories/Prop_MicroxBad.v
theories/MicroxNone.v
theories/MicroxNoneSpec.v
theories/MicroxNoneFacts.v
theories/Prop_MicroxNone.v
theories/Prop_Microx.v
theories/Lex.v
theories/LexSpec.v
theories/LexFacts.v
theories/LexScan.v
theories/LexRun.v
theories/Prop_Lex.v
theories/Lalr.v
theories/XGram.v
theories/XGramSpec.v
theories/XTok.v
theories/XParse.v
theories/XSim.v
theories/XParseFacts.v
theories/XReads.v
theories/XCompose.v
theories/XLex.v
theories/XLexSpec.v
theories/XLexFacts.v
theories/XText.v
theories/XSerial.v
theories/XFind.v
theories/XQuery.v
theories/XQueryFacts.v
theories/XPaths.v
theories/XNavSpec.v
theories/XNav.v
theories/XNavOrder.v
theories/XNavMain.v
theories/XNavUse.v
theories/Prop_XNav.v
theories/Prop_XSyntax.v
theories/XRepr.v
theories/XReprSpec.v
theories/XReprFacts.v
theories/Prop_XRepr.v
theories/XClosedSpec.v
theories/XClosedFacts.v
theories/Prop_XClosed.v
theories/XLawsSpec.v
theories/XLawsFacts.v
theories/Prop_XLaws.v
theories/MicroxLineSpec.v
theories/MicroxLineFacts.v
theories/Prop_MicroxLine.v
theories/XStringsSpec.v
theories/XStringsFacts.v
theories/Prop_XStrings.v
theories/XOrderSpec.v
theories/XOrderFacts.v
theories/Prop_XOrder.v
theories/DocOrder.v
theories/DocOrderSpec.v
theories/DocOrderFacts.v
theories/DocOrderInv.v
theories/DocOrderUse.v
theories/DocOrderCase.v
theories/Prop_DocOrder.v
theories/TreeSink.v
theories/TreeSinkSpec.v
theories/TreeSinkFacts.v
theories/TreeSinkCollect.v
theories/Prop_TreeSink.v
theories/XmlIter.v
theories/XmlIterSpec.v
theories/XmlIterFacts.v
theories/Prop_XmlIter.v
theories/Html5Hist.v
theories/Html5HistSpec.v
theories/Html5HistFacts.v
theories/MicroxHtml.v
theories/MicroxHtmlSpec.v
theories/MicroxHtmlFacts.v
theories/Prop_Html5Hist.v
theories/XFuncs.v
theories/XFuncsSpec.v
theories/XFuncsFacts.v
theories/Prop_XFuncs.v
theories/AttrCells.v
theories/AttrCellsSpec.v
theories/AttrCellsFacts.v
theories/Prop_AttrCells.v
theories/Unusable.v
theories/UnusableFacts.v
theories/Prop_Unusable.v
theories/PatternFun.v
theories/PatternFunSpec.v
theories/PatternFunFacts.v
theories/PatternFunHeap.v
theories/PatternFunRun.v
theories/PatternFunStream.v
theories/PatternFunMore.v
theories/Prop_PatternFun.v
theories/SelectFun.v
theories/SelectFunSpec.v
theories/SelectFunFacts.v
theories/SelectFunStream.v
theories/Prop_SelectFun.v
theories/SinkStop.v
theories/SinkStopSpec.v
theories/SinkStopFacts.v
theories/SinkStopMany.v
theories/Prop_SinkStop.v
theories/AgreeSpec.v
theories/AgreeFacts.v
theories/Prop_Agree.v
theories/HandlerStop.v
theories/HandlerStopSpec.v
theories/HandlerStopFacts.v
theories/Prop_HandlerStop.v
theories/NsBook.v
theories/NsBookSpec.v
theories/NsBookFacts.v
theories/Prop_NsBook.v
theories/GreedySpec.v
theories/GreedyFacts.v
theories/GreedySelect.v
theories/GreedySink.v
theories/Prop_Greedy.v
theories/Cases.v
theories/CutSpec.v
theories/CutFacts.v
theories/Prop_Cut.v
theories/HeapNav.v
theories/HeapNavSpec.v
theories/HeapNavFacts.v
theories/Prop_HeapNav.v
theories/PrettyHeap.v
theories/PrettyHeapSpec.v
theories/PrettyHeapFacts.v
theories/Prop_PrettyHeap.v
theories/HeapEval.v
theories/HeapEvalSpec.v
theories/HeapEvalFacts.v
theories/HeapEvalMain.v
theories/Prop_HeapEval.v
theories/LiveIter.v
theories/LiveIterSpec.v
theories/LiveIterFacts.v
theories/LiveIterMore.v
theories/LiveIterTests.v
theories/LiveIterLoops.v
theories/LiveIterText.v
theories/Prop_LiveIter.v
theories/LivePath.v
theories/LivePathSpec.v
theories/LivePathFacts.v
theories/LivePathLoops.v
theories/LivePathEdits.v
theories/LivePathCut.v
theories/LivePathGrow.v
theories/Prop_LivePath.v
theories/HeapQuery.v
theories/HeapQuerySpec.v
theories/HeapQueryFacts.v
theories/Prop_HeapQuery.v
theories/HeapEvalFuel.v
theories/LiveEval.v
theories/LiveEvalSpec.v
theories/LiveEvalFacts.v
theories/LiveEvalStart.v
theories/LiveEvalLoops.v
theories/LiveEvalUp.v
theories/LiveEvalPath.v
theories/LiveEvalSift.v
theories/LiveEvalCut.v
theories/Prop_LiveEval.v
theories/Prop_LiveFilter.v
