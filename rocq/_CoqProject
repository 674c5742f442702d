-Q theories Verif
theories/F64.v
theories/Syntax.v
theories/Factorial.v
theories/Builtins.v
theories/Context.v
theories/Element.v
theories/Parser.v
theories/Xprs.v
theories/ParserFacts.v
theories/SpecChars.v
theories/CharFacts.v
theories/SpecParse.v
theories/ParserInv.v
theories/SpecTree.v
theories/TreeFacts.v
theories/SpecRewrite.v
theories/SimplifyFacts.v
theories/SpecApi.v
theories/ParserResults.v
theories/BindFacts.v
theories/TestWorld.v
theories/PropertiesParse.v
theories/PropertiesEval.v
theories/PropertiesBind.v
theories/PropertiesSimplify.v
theories/FloatFacts.v
theories/PropertiesNumeric.v
theories/Order.v
theories/PropertiesEq.v
theories/SpecTokens.v
theories/SpecGrammar.v
theories/TokenFacts.v
theories/TokenParser.v
theories/TokenSim.v
theories/TokenMono.v
theories/GrammarFacts.v
theories/GrammarEquiv.v
theories/JuxtaFacts.v
theories/LexFacts.v
theories/LexExec.v
theories/PropertiesGrammar.v
theories/SpecNames.v
theories/PropertiesNames.v
theories/SpecNumber.v
theories/NumberFacts.v
theories/ConstantFacts.v
theories/PropertiesNumber.v
theories/SpecRegular.v
theories/RegularFacts.v
theories/OptFacts.v
theories/FlatFacts.v
theories/PropertiesOptimise.v
theories/Display.v
theories/DisplayFacts.v
theories/SpecDisplay.v
theories/PropertiesDisplay.v
theories/PropertiesErrors.v
theories/Conformance.v
theories/SpecScan.v
theories/ScanFacts.v
theories/ScanPrefix.v
theories/PropertiesScan.v
theories/PropertiesArith.v
theories/Macro.v
theories/PropertiesMacro.v
theories/PropertiesNormal.v
theories/SpecUtf8.v
theories/PropertiesUtf8.v
theories/PropertiesDefault.v
theories/SubstFacts.v
theories/SpecSubst.v
theories/PropertiesSubst.v
theories/PropertiesSize.v
theories/SpecInteger.v
theories/PropertiesInteger.v
theories/Cost.v
theories/PropertiesCost.v
theories/Repl.v
theories/SpecRepl.v
theories/ReplFacts.v
theories/PropertiesRepl.v
theories/PropertiesMessages.v
theories/ContextEq.v
theories/SpecContext.v
theories/PropertiesContext.v
theories/SpecError.v
theories/PropertiesError.v
theories/DocExamples.v
theories/SpecMonotone.v
theories/MonotoneFacts.v
theories/PropertiesMonotone.v
theories/PropertiesOrder.v
theories/SpecSpecial.v
theories/SpecialFacts.v
theories/PropertiesSpecial.v
theories/SpecLaws.v
theories/LawsFacts.v
theories/PropertiesLaws.v
theories/SpecIdentities.v
theories/IdentityFacts.v
theories/PropertiesIdentities.v
theories/ErrorOrd.v
theories/SpecOrder.v
theories/PropertiesSorting.v
theories/DebugText.v
theories/SpecDebug.v
theories/DebugFacts.v
theories/PropertiesDebug.v
theories/Stateful.v
theories/SpecStateful.v
theories/StatefulFacts.v
theories/StatefulParse.v
theories/PropertiesStateful.v
theories/Depth.v
theories/DepthFacts.v
theories/PropertiesDepth.v
theories/HashFeed.v
theories/PropertiesHash.v
theories/Threads.v
theories/ThreadsFacts.v
theories/PropertiesThreads.v
theories/SpecScale.v
theories/PropertiesScale.v
theories/Transcript.v
theories/SpecTranscript.v
theories/TranscriptFacts.v
theories/PropertiesTranscript.v
theories/SpecParity.v
theories/PropertiesParity.v
theories/SpecAdvice.v
theories/AdviceFacts.v
theories/Diagnostic.v
theories/PropertiesAdvice.v
theories/SpecSimplifier.v
theories/SimplifierFacts.v
theories/SpecBuild.v
theories/BuildFacts.v
theories/PropertiesBuild.v
theories/PrefixFacts.v
theories/PropertiesPrefix.v
theories/SpecBrackets.v
theories/PropertiesBrackets.v
theories/SpecPortable.v
theories/PortableFacts.v
theories/PropertiesPortable.v
theories/SpecToolchain.v
theories/PropertiesToolchain.v
theories/SpecJoin.v
theories/PropertiesJoin.v
theories/SpecIsolate.v
theories/PropertiesIsolate.v
theories/DepthPrint.v
theories/PropertiesDepthPrint.v
theories/SpecLiteral.v
theories/DebugErrors.v
theories/LiteralFacts.v
theories/DebugLiteralFacts.v
theories/PropertiesUnwrap.v
theories/SpecElementOrder.v
theories/PropertiesElementOrder.v
theories/PropertiesMessageText.v
theories/TwoRunsFacts.v
theories/PropertiesFrame.v
theories/SpecAgain.v
theories/PropertiesAgain.v
theories/SpecSpelling.v
theories/PropertiesSpelling.v
theories/PropertiesTryFrom.v
theories/DebugContext.v
theories/SpecDump.v
theories/PropertiesDump.v
theories/SpecDumpText.v
theories/PropertiesDumpText.v
theories/SpecCancel.v
theories/PropertiesCancel.v
theories/SpecGrouping.v
theories/GroupingFacts.v
theories/PropertiesGrouping.v
theories/SpecInline.v
theories/PropertiesInline.v
theories/SpecPolynomial.v
theories/PropertiesPolynomial.v
theories/PropertiesModular.v
theories/SpecKeys.v
theories/PropertiesKeys.v
theories/Features.v
theories/SpecFeatures.v
theories/PropertiesFeatures.v
theories/SpecExact.v
theories/PropertiesExact.v
theories/ReplIo.v
theories/SpecReplIo.v
theories/PropertiesReplIo.v
theories/SpecBounds.v
theories/PropertiesBounds.v
theories/PropertiesClamp.v
theories/PropertiesArguments.v
theories/SpecTight.v
theories/PropertiesTight.v
