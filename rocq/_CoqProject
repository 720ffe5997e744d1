-Q theories Verif
theories/Base.v
theories/Regex.v
theories/LexRules.v
theories/Lexer.v
theories/Grammar.v
theories/Antlr.v
theories/Ast.v
theories/Builder.v
theories/Parser.v
theories/Validation.v
theories/ModelTests.v
theories/RegexFacts.v
theories/LexSpec.v
theories/LexFacts.v
theories/LitSpec.v
theories/LexRuleFacts.v
theories/LexThms.v
theories/LexWs.v
theories/GramSpec.v
theories/GramFacts.v
theories/ValueSpec.v
theories/ValueFacts.v
theories/SpellSpec.v
theories/BuilderFacts.v
theories/BuilderRules.v
theories/ParseSpec.v
theories/ParseFacts.v
theories/LexSub.v
theories/EvFacts.v
theories/TreeSpec.v
theories/TreeFacts.v
theories/SitFacts.v
theories/TokenSpec.v
theories/TokenFacts.v
theories/SpellComplete.v
theories/SimFacts.v
theories/ConfigSpec.v
theories/ConfigFacts.v
theories/PropsLex.v
theories/PropsParse.v
theories/PropsConfig.v
theories/PropsTree.v
theories/CoverSpec.v
theories/PropsCover.v
theories/HeapFacts.v
theories/PropsHeap.v
theories/AccessSpec.v
theories/PropsAccess.v
theories/PropsVisit.v
theories/ValidSpec.v
theories/ValidFacts.v
theories/PropsValid.v
theories/MessageFacts.v
theories/PropsValidate.v
theories/PropsErrors.v
theories/StrFacts.v
theories/PropsStr.v
theories/LevelFacts.v
theories/SelFacts.v
theories/PrecFacts.v
theories/PrecConv.v
theories/LevelSpec.v
theories/LevelThm.v
theories/SubEv.v
theories/PropsPrec.v
theories/QuerySpec.v
theories/QueryThm.v
theories/PropsQuery.v
theories/GenParser.v
theories/AtnData.v
theories/Atn.v
theories/AtnFacts.v
theories/AtnNets.v
theories/GenNet.v
theories/GenFacts.v
theories/GenPredict.v
theories/PropsGen.v
theories/PropsAtn.v
theories/ReadSpec.v
theories/ReadFacts.v
theories/ReadQuery.v
theories/ReadParse.v
theories/ReadTop.v
theories/ReadStrat.v
theories/PropsRead.v
theories/WriteSpec.v
theories/WriteFacts.v
theories/WriteTree.v
theories/WriteBack.v
theories/PropsWrite.v
theories/LexJoin.v
theories/Local.v
theories/Outer.v
theories/ComposeSpec.v
theories/Compose.v
theories/ComposeWalk.v
theories/ComposeParse.v
theories/PropsCompose.v
theories/Threads.v
theories/PropsThreads.v
theories/ContextData.v
theories/Contexts.v
theories/PropsContexts.v
theories/AllStar.v
theories/AllStarFacts.v
theories/AllStarLoop.v
theories/AllStarNet.v
theories/AllStarRun.v
theories/PropsAllStar.v
theories/DepthSpec.v
theories/DepthFacts.v
theories/PropsDepth.v
theories/OrInAnd.v
theories/OrTree.v
theories/DepthAll.v
theories/PropsOr.v
theories/MeanSpec.v
theories/MeanFacts.v
theories/PropsMean.v
theories/Recover.v
theories/RecoverPred.v
theories/RecoverNeed.v
theories/RecoverTerm.v
theories/RecoverInv.v
theories/RecoverSim.v
theories/PropsRecover.v
theories/RecoverComp.v
theories/RecoverView.v
theories/RecoverFirst.v
theories/ErrorSpec.v
theories/PropsRecoverFirst.v
theories/ComplaintSpec.v
theories/Numerals.v
theories/ComplaintFacts.v
theories/ComplaintRules.v
theories/PropsComplaint.v
theories/HoleSpec.v
theories/HoleFacts.v
theories/PropsHole.v
theories/SizeSpec.v
theories/SizeFacts.v
theories/PropsSize.v
theories/Display.v
theories/DisplaySpec.v
theories/DisplayFacts.v
theories/PropsDisplay.v
theories/LayoutSpec.v
theories/LayoutFacts.v
theories/PropsLayout.v
theories/Cache.v
theories/CacheFacts.v
theories/Cached.v
theories/CachedFacts.v
theories/PropsCache.v
theories/VComposeSpec.v
theories/VComposeFacts.v
theories/PropsVCompose.v
theories/WorkSpec.v
theories/WorkNeed.v
theories/WorkCount.v
theories/WorkMain.v
theories/WorkParse.v
theories/WorkQuery.v
theories/PropsWork.v
theories/AsciiSpec.v
theories/AsciiFacts.v
theories/PropsAscii.v
theories/SynSpec.v
theories/SynFacts.v
theories/PropsSyn.v
theories/PropsStack.v
theories/PropsSynV.v
theories/PropsSynW.v
theories/PropsFresh.v
theories/PortSpec.v
theories/PropsPort.v
theories/PropsPortV.v
theories/ShapeSpec.v
theories/PropsShape.v
