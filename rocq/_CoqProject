-Q theories Verif

theories/Base.v
theories/StringToken.v
theories/StringTokenSpec.v
theories/StringTokenProofs.v
theories/Utf.v
theories/UtfSpec.v
theories/UtfProofs.v
theories/StateMachine.v
theories/Serialise.v
theories/SerialiseProofs.v
theories/P_Classes.v
theories/P_Utf.v
theories/P_Serialise.v
theories/Slice.v
theories/SliceSpec.v
theories/SliceProofs.v
theories/P_Slice.v
theories/Lookup.v
theories/TableSpec.v
theories/LookupProofs.v
theories/LookupSpec.v
theories/LookupThms.v
theories/LookupTile.v
theories/LookupCheck.v
theories/P_Lookup.v
theories/Minimise.v
theories/TableSim.v
theories/MinimiseProofs.v
theories/P_Minimise.v
theories/RegexSpec.v
theories/Tree.v
theories/TreeSpec.v
theories/Glushkov.v
theories/TreeProofs.v
theories/Partition.v
theories/Generator.v
theories/PartitionProofs.v
theories/GenMap.v
theories/GenDfa.v
theories/GenBuild.v
theories/DfaSpec.v
theories/GenWalk.v
theories/GenRules.v
theories/GenTable.v
theories/GenLookup.v
theories/ReToken.v
theories/Parser.v
theories/Grammar.v
theories/ParserTree.v
theories/ParserProofs.v
theories/ParserSound.v
theories/TreeWords.v
theories/ParserLoop.v
theories/ParserRule.v
theories/GramUnique.v
theories/Build.v
theories/ParserKeys.v
theories/RuleSpec.v
theories/RuleWords.v
theories/BuildSpec.v
theories/BolWords.v
theories/BuildTree.v
theories/BuildState.v
theories/BuildFuel.v
theories/BuildMachine.v
theories/BuildThms.v
theories/ParserErrs.v
theories/BuildLookup.v
theories/BuildErrs.v
theories/BuildCheck.v
theories/P_Build.v
theories/PosAuto.v
theories/P_Regex.v
theories/UnicodeData.v
theories/FoldData.v
theories/ReTokeniser.v
theories/Rules.v
theories/ReTokeniserProofs.v
theories/ReTokeniserNext.v
theories/TokeniseSpec.v
theories/TokeniseProofs.v
theories/TokeniseGram.v
theories/StripProofs.v
theories/TokenRun.v
theories/PruneProofs.v
theories/PruneLang.v
theories/SplitProofs.v
theories/TokeniseAll.v
theories/RulesSpec.v
theories/RulesInv.v
theories/RulesContent.v
theories/RulesFeat.v
theories/RulesBuild.v
theories/ReverseProofs.v
theories/MacroProofs.v
theories/RulesCheck.v
theories/RulesPush.v
theories/RulesTop.v
theories/RulesNeed.v
theories/BuildFlags.v
theories/P_Rules.v
theories/LookupDet.v
theories/Iterator.v
theories/IterProofs.v
theories/P_Iterator.v
theories/CharMachine.v
theories/CharProofs.v
theories/BuildClean.v
theories/CharMinProofs.v
theories/P_CharMachine.v
theories/StreamIter.v
theories/StreamSpec.v
theories/StreamProofs.v
theories/P_Stream.v
theories/SourceSpec.v
theories/SourceSets.v
theories/SourceEsc.v
theories/SourceClass.v
theories/SourceClass2.v
theories/SourceLead.v
theories/SourceRep.v
theories/SourceLex.v
theories/SourceAll.v
theories/SourceLiteral.v
theories/SourceLexer.v
theories/SourceTop.v
theories/P_Source.v
theories/GenPrune.v
theories/ParserNl.v
theories/EolFix.v
theories/EolWords.v
theories/EolTable.v
theories/EolSpec.v
theories/EolBuild.v
theories/EolCheck.v
theories/EolLookup.v
theories/P_Eol.v
theories/EolPrune.v
theories/EolExact.v
theories/EolWalk.v
theories/EolLexSpec.v
theories/EolLex.v
theories/P_EolLex.v
theories/GenCpp.v
theories/GenCppSpec.v
theories/GenCppProofs.v
theories/FlagsSpec.v
theories/FlagsProofs.v
theories/FlagsBuild.v
theories/GenBuilt.v
theories/GenMade.v
theories/GenNames.v
theories/P_Flags.v
theories/P_GenCpp.v
theories/GenCut.v
theories/LazySpec.v
theories/LazyLookup.v
theories/P_Lazy.v
theories/LoopSpec.v
theories/LoopTree.v
theories/LoopParse.v
theories/LoopRule.v
theories/GenOrder.v
theories/GenLoop.v
theories/LoopBuild.v
theories/StopSpec.v
theories/LoopWords.v
theories/LoopLookup.v
theories/P_Stop.v
theories/Debug.v
theories/DebugSpec.v
theories/DebugText.v
theories/DebugClass.v
theories/DebugLines.v
theories/DumpSpec.v
theories/DebugInj.v
theories/DebugBuilt.v
theories/DebugRead.v
theories/DebugShow.v
theories/P_Debug.v
theories/IterEq.v
theories/P_IterEq.v
theories/Dot.v
theories/DotSpec.v
theories/DotLines.v
theories/DotThms.v
theories/DotBuilt.v
theories/P_Dot.v
theories/MarkSpec.v
theories/MarkWords.v
theories/MarkTree.v
theories/MarkParse.v
theories/MarkRule.v
theories/GenHard.v
theories/KeptSpec.v
theories/HardLookup.v
theories/P_Hard.v
theories/SourceStates.v
theories/StatesTop.v
theories/P_States.v
theories/CommentSpec.v
theories/CommentLex.v
theories/CommentTop.v
theories/P_Comment.v
theories/TokenList.v
theories/Routes.v
theories/P_Routes.v
theories/LineSpec.v
theories/LineTop.v
theories/P_Line.v
theories/MemoryFile.v
theories/MemorySpec.v
theories/MemoryProofs.v
theories/P_Memory.v
theories/SliceAll.v
theories/CharMinLost.v
theories/StateTokens.v
theories/StateRoutes.v
theories/P_StateRoutes.v
theories/LineRoutes.v
theories/AnyIter.v
theories/AnyIterProofs.v
theories/UtfLex.v
theories/UtfTexts.v
theories/P_UtfLex.v
theories/StreamLex.v
theories/StreamLexProofs.v
theories/StreamTexts.v
theories/P_StreamLex.v
theories/BuildTexts.v
theories/P_BuildTexts.v
theories/SaveBuilt.v
theories/SaveTexts.v
theories/P_SaveBuilt.v
theories/UtfMove.v
theories/P_UtfMove.v
theories/P_Findings.v
theories/SaveLines.v
theories/P_SaveLines.v
theories/SaveComments.v
theories/P_SaveComments.v
theories/StreamComments.v
theories/P_StreamComments.v
theories/StreamLines.v
theories/P_StreamLines.v
theories/SaveDollar.v
theories/P_SaveDollar.v
theories/BuildComments.v
theories/P_BuildComments.v
theories/Reset.v
theories/P_Reset.v
