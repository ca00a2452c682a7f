-Q theories Verif
theories/Base.v
theories/BaseProofs.v
theories/Queue.v
theories/QueueProofs.v
theories/QueueSpec.v
theories/Prop_Queue.v
theories/IntSet.v
theories/IntSetProofs.v
theories/IntSetSpec.v
theories/Prop_IntSet.v
theories/Utf8.v
theories/Source.v
theories/SourceSpec.v
theories/SourceProofs.v
theories/NlProofs.v
theories/Prop_Source.v
theories/SourceQueue.v
theories/SourceQueueSpec.v
theories/Prop_SourceQueue.v
theories/Lexer.v
theories/LexerSpec.v
theories/LexerProofs.v
theories/Prop_Lexer.v
theories/Tree.v
theories/TreeSpec.v
theories/TreeProofs.v
theories/TreeNav.v
theories/TreeNavSpec.v
theories/TreeNavProofs.v
theories/Prop_Tree.v
theories/Grammar.v
theories/Rules.v
theories/RulesSpec.v
theories/Prop_Rules.v
theories/Parser.v
theories/ParserSpec.v
theories/ParserProofs.v
theories/ParserInv.v
theories/ParserStream.v
theories/ParserLook.v
theories/ParserErr.v
theories/ParserMain.v
theories/ParserWorld.v
theories/ParserFlowSpec.v
theories/ParserEnd.v
theories/ParserDemo.v
theories/Prop_Parser.v
theories/TablesCheck.v
theories/Prop_ParserCases.v
theories/Prop_Hooks.v
theories/ParserSafeSpec.v
theories/ParserSafe.v
theories/SafeCheck.v
theories/Prop_ParserSafe.v
theories/ParserTermSpec.v
theories/ParserFuel.v
theories/ParserIdle.v
theories/ParserTermLook.v
theories/ParserTerm.v
theories/IdleCheck.v
theories/Prop_ParserTerm.v
theories/LangBuild.v
theories/LangSpec.v
theories/LangProofs.v
theories/LangFrame.v
theories/LangComplete.v
theories/LangSound.v
theories/LangTotal.v
theories/Prop_LangStates.v
theories/TablesSpec.v
theories/LangTables.v
theories/LangDrop.v
theories/LangShare.v
theories/LangFair.v
theories/LangRules.v
theories/Prop_LangTables.v
theories/LangTreeSpec.v
theories/Prop_LangGrammar.v
theories/LangNodes.v
theories/LangNodesSpec.v
theories/LangNodesProofs.v
theories/LangFirst.v
theories/LangHeads.v
theories/LangRecursion.v
theories/Prop_LangNodes.v
theories/PredictSpec.v
theories/Predict.v
theories/PredictSim.v
theories/PredictRun.v
theories/PredictTree.v
theories/Prop_Predict.v
theories/LangTypes.v
theories/LangTypesSpec.v
theories/LangTypesProofs.v
theories/LangCompile.v
theories/LangFuel.v
theories/Prop_LangCompile.v
theories/LangInv.v
theories/PredictCheck.v
theories/Prop_LangPredict.v
theories/LangString.v
theories/LangStringSpec.v
theories/Prop_LangString.v
theories/LangText.v
theories/LangTextSpec.v
theories/LangTextTotal.v
theories/LangTextFuel.v
theories/Prop_LangText.v
theories/LangDescSpec.v
theories/LangDescParse.v
theories/LangDescFacts.v
theories/LangDescHead.v
theories/LangDescNodes.v
theories/LangDescAll.v
theories/LangDescUnique.v
theories/LangDescWrong.v
theories/Prop_LangDesc.v
theories/DescTreeSpec.v
theories/DescTree.v
theories/DescTokens.v
theories/Prop_DescTree.v
theories/Regexp.v
theories/RegexpProofs.v
theories/DescLexer.v
theories/DescLexerSpec.v
theories/DescLexerProofs.v
theories/DescLexerRun.v
theories/Prop_DescLexer.v
theories/Layers.v
theories/LayersSpec.v
theories/LayersProofs.v
theories/Prop_Layers.v
theories/StdLayers.v
theories/StdLayersSpec.v
theories/Prop_StdLayers.v
theories/Indent.v
theories/IndentSpec.v
theories/IndentProofs.v
theories/IndentLayout.v
theories/Prop_Indent.v
theories/TreeHook.v
theories/TreeHookSpec.v
theories/TreeHookProofs.v
theories/Prop_TreeHook.v
theories/Gen.v
theories/GoSpec.v
theories/GenProofs.v
theories/GenRead.v
theories/Prop_Gen.v
theories/ParserNew.v
theories/ParserNewSpec.v
theories/ParserNewProofs.v
theories/ParserRegexp.v
theories/ParserRegexpProofs.v
theories/Prop_ParserNew.v
theories/TextParser.v
theories/TextParserSpec.v
theories/TextParserProofs.v
theories/Prop_TextParser.v
theories/ExpectSpec.v
theories/ExpectProofs.v
theories/ExpectCheck.v
theories/Prop_Expect.v
theories/DescExpectSpec.v
theories/Prop_TextExpect.v
theories/Errors.v
theories/ErrorsSpec.v
theories/ErrorsProofs.v
theories/Prop_Errors.v
theories/Prop_ErrorText.v
theories/LangIdleSpec.v
theories/LangIdle.v
theories/LangIdleTables.v
theories/Prop_LangIdle.v
theories/LangLLSpec.v
theories/LangLL.v
theories/LangLLBuild.v
theories/LangLLTables.v
theories/LangLLCheck.v
theories/Prop_LangLL.v
theories/LangFinish.v
theories/LangFinishTables.v
theories/Prop_LangFinish.v
theories/LangErrorLocal.v
theories/LangErrorSteps.v
theories/LangErrorViable.v
theories/LangErrorForward.v
theories/LangErrorTail.v
theories/LangErrorSpec.v
theories/Prop_LangError.v
theories/LangFaultSpec.v
theories/LangFaultRead.v
theories/LangFaultRun.v
theories/LangFaultFirst.v
theories/Prop_LangFault.v
theories/SourceRace.v
theories/SourceRaceSpec.v
theories/SourceRaceProofs.v
theories/Prop_SourceRace.v
theories/ParserReadsSpec.v
theories/ParserReads.v
theories/TextReadsSpec.v
theories/Prop_TextReads.v
theories/IndentMem.v
theories/IndentMemSpec.v
theories/IndentMemProofs.v
theories/Prop_IndentMem.v
theories/ParserEmitSpec.v
theories/ParserEmit.v
theories/Prop_Emit.v
theories/VariantSpec.v
theories/LookLongest.v
theories/Variant.v
theories/Prop_Variant.v
theories/Llxgen.v
theories/LlxgenSpec.v
theories/LlxgenProofs.v
theories/Prop_Llxgen.v
theories/StarSpec.v
theories/StarRun.v
theories/Star.v
theories/StarDemo.v
theories/Prop_Star.v
theories/ApartSpec.v
theories/Apart.v
theories/ApartCheck.v
theories/Prop_Apart.v
theories/Calc.v
theories/CalcSpec.v
theories/CalcProofs.v
theories/Prop_Calc.v
theories/Conf.v
theories/ConfSpec.v
theories/ConfProofs.v
theories/ConfInv.v
theories/ConfOps.v
theories/ConfEdits.v
theories/ConfAll.v
theories/Prop_Conf.v
theories/ConfText.v
theories/Prop_ConfText.v
theories/Style.v
theories/StyleSpec.v
theories/Prop_Style.v
theories/StyleNodes.v
theories/StyleNodesSpec.v
theories/Prop_StyleNodes.v
