-Q theories Verif

theories/Base.v
theories/SpanModel.v
theories/SpanSpec.v
theories/SpanProofs.v
theories/EarleyModel.v
theories/EarleySpec.v
theories/EarleyInv.v
theories/EarleyProofs.v
theories/EarleyOrder.v
theories/EarleyTerm.v
theories/TokenModel.v
theories/TreeModel.v
theories/ParserModel.v
theories/RelationModel.v
theories/TreeSpec.v
theories/TreeProofs.v
theories/RelationSpec.v
theories/RelationProofs.v
theories/ParserSpec.v
theories/FindallProofs.v
theories/ParserProofs.v
theories/MatchProofs.v
theories/BankProofs.v
theories/EarleyMore.v
theories/ResultProofs.v
theories/ParserTheorems.v
theories/AgreeProofs.v
theories/AgreementProofs.v
theories/RelationCases.v
theories/Cases.v
theories/Runaway.v
theories/ParserRefuted.v
theories/ReportProofs.v
theories/IndependenceProofs.v
theories/IndependenceCases.v
theories/PropParser.v
theories/TreeTheorems.v
theories/PropTree.v
theories/PropRelations.v
theories/TokenizerModel.v
theories/TaggerModel.v
theories/TokenizerSpec.v
theories/TokenizerProofs.v
theories/DefaultProofs.v
theories/TokenizerTheorems.v
theories/PropTokenizer.v
theories/PredicateModel.v
theories/PredicateSpec.v
theories/PredicateProofs.v
theories/PredicateCases.v
theories/PropPredicates.v
theories/PipelineModel.v
theories/PipelineSpec.v
theories/PipelineProofs.v
theories/IndexSim.v
theories/PipelineTheorems.v
theories/RuleCopySpec.v
theories/RuleRename.v
theories/GrammarRename.v
theories/RuleCopy.v
theories/RuleFrame.v
theories/RuleAgainSpec.v
theories/RuleAgain.v
theories/RuleAgainCases.v
theories/SetOrder.v
theories/IndexCases.v
theories/SetOrderTheorems.v
theories/PropPipelines.v
theories/InterpModel.v
theories/InterpSpec.v
theories/InterpProofs.v
theories/FactProofs.v
theories/FactTheorems.v
theories/ResultWf.v
theories/InterpTheorems.v
theories/InterpMatch.v
theories/InterpCases.v
theories/PropInterp.v
theories/RuleModel.v
theories/RuleSpec.v
theories/RuleWords.v
theories/RuleLike.v
theories/RulePass.v
theories/RuleMethods.v
theories/RuleExpand.v
theories/RuleNormal.v
theories/RuleNormalized.v
theories/RuleOrder.v
theories/RuleBfs.v
theories/RuleEnds.v
theories/RuleWalk.v
theories/RulePot.v
theories/RuleBNF.v
theories/RuleForward.v
theories/RuleNames.v
theories/RuleAsBnf.v
theories/RuleAccept.v
theories/RuleGrammar.v
theories/RuleTrace.v
theories/RuleActivate.v
theories/RuleTransfer.v
theories/RuleRoot.v
theories/RuleParser.v
theories/RuleStart.v
theories/WholeSpec.v
theories/RuleFresh.v
theories/WholeProofs.v
theories/MatchWhole.v
theories/WholeCases.v
theories/PropWhole.v
theories/RuleTidy.v
theories/RuleUsableSpec.v
theories/RuleQuiet.v
theories/RuleUsable.v
theories/RuleUsableBnf.v
theories/RuleTotal.v
theories/GrammarModel.v
theories/GrammarSpec.v
theories/GrammarProofs.v
theories/RuleBuild.v
theories/RuleBuilt.v
theories/RuleNestSpec.v
theories/RuleCount.v
theories/RuleOpen.v
theories/RuleSquash.v
theories/RuleMild.v
theories/RuleTheorems.v
theories/RuleCallSpec.v
theories/RuleCalls.v
theories/RuleCases.v
theories/PropRules.v
theories/RuleKeep.v
theories/TextModel.v
theories/TextSpec.v
theories/TextProofs.v
theories/TextTheorems.v
theories/TextOrder.v
theories/PropText.v
theories/PropAgain.v
theories/RuleLoopSpec.v
theories/RuleLoop.v
theories/LoopTheorems.v
theories/LoopCases.v
theories/PropLoop.v
theories/RuleAddr.v
theories/RuleSim.v
theories/RuleAddrProofs.v
theories/PropAddr.v
theories/DotModel.v
theories/DotProofs.v
theories/PropDot.v
theories/RecordModel.v
theories/RecordProofs.v
theories/PropRecord.v
theories/HashModel.v
theories/HashSpec.v
theories/HashProofs.v
theories/HashTheorems.v
theories/HashCases.v
theories/PropHash.v
theories/RaiseModel.v
theories/RaiseSpec.v
theories/RaiseProofs.v
theories/RaiseTheorems.v
theories/RaiseCases.v
theories/PropRaise.v
theories/DotTextModel.v
theories/DotTextSpec.v
theories/DotTextProofs.v
theories/PropDotText.v
theories/EqualSpec.v
theories/TextEqual.v
theories/PropEqual.v
theories/AbsentSpec.v
theories/EarleyRounds.v
theories/EarleyAbsent.v
theories/AbsentTheorems.v
theories/AbsentPrefer.v
theories/TextAbsent.v
theories/AbsentCases.v
theories/PropAbsent.v
theories/DispatchModel.v
theories/DispatchSpec.v
theories/DispatchProofs.v
theories/DispatchPasses.v
theories/DispatchBnf.v
theories/DispatchCases.v
theories/PropDispatch.v
theories/PieceSpec.v
theories/PieceTokens.v
theories/PieceProofs.v
theories/PieceTheorems.v
theories/PieceCases.v
theories/PropPieces.v
theories/LabelModel.v
theories/LabelSpec.v
theories/LabelProofs.v
theories/LabelTheorems.v
theories/LabelCases.v
theories/PropLabel.v
theories/AfterSpec.v
theories/AfterProofs.v
theories/AfterParser.v
theories/AfterTheorems.v
theories/AfterCases.v
theories/PropAfter.v
theories/ArgModel.v
theories/ArgSpec.v
theories/ArgProofs.v
theories/ArgCases.v
theories/PropArgs.v
theories/SizeSpec.v
theories/SizeProofs.v
theories/SizeUnique.v
theories/SizeRules.v
theories/SizeCases.v
theories/PropSize.v
theories/StackModel.v
theories/StackText.v
theories/StackSpec.v
theories/StackProofs.v
theories/StackTheorems.v
theories/StackCases.v
theories/PropStack.v
theories/TestsBase.v
theories/TestsRule.v
theories/TestsTokenizer.v
theories/TestsParser.v
theories/TestsInterp.v
theories/TestsDocs.v
theories/LaterModel.v
theories/LaterSpec.v
theories/LaterProofs.v
theories/LaterCases.v
theories/LaterTheorems.v
theories/PropLater.v
theories/PatternModel.v
theories/PatternSpec.v
theories/PatternProofs.v
theories/PatternTheorems.v
theories/PatternDefaults.v
theories/PatternCases.v
theories/PatternLazy.v
theories/PropPattern.v
theories/GivenModel.v
theories/GivenSpec.v
theories/GivenProofs.v
theories/GivenCases.v
theories/PropGiven.v
theories/ClassModel.v
theories/ClassSpec.v
theories/ClassProofs.v
theories/ClassCases.v
theories/PropClass.v
theories/ConcordSpec.v
theories/ConcordProofs.v
theories/PropConcord.v
theories/TreeLevels.v
theories/WideSpec.v
theories/WideProofs.v
theories/PropWide.v
theories/BuildStackModel.v
theories/BuildStackProofs.v
theories/BuildStackChain.v
theories/BuildStackCases.v
theories/PropBuildStack.v
theories/StepsSpec.v
theories/StepsProofs.v
theories/PropSteps.v
theories/EmailSpec.v
theories/EmailProofs.v
theories/EmailCases.v
theories/PropEmail.v
theories/WrittenSpec.v
theories/WrittenProofs.v
theories/PropWritten.v
theories/ReprModel.v
theories/ReprSpec.v
theories/ReprProofs.v
theories/ReprCases.v
theories/PropRepr.v
theories/EntrySpec.v
theories/EntryProofs.v
theories/ChartTextModel.v
theories/ChartTextSpec.v
theories/ChartTextProofs.v
theories/ChartTextCases.v
theories/PropEntry.v
theories/FactWordSpec.v
theories/FactWordProofs.v
theories/FactWordCases.v
theories/PropFactWord.v
