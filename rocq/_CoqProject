-Q theories Verif
theories/Base.v
theories/Style.v
theories/Fmt.v
theories/SpecStd.v
theories/StdCompat.v
theories/SString.v
theories/Plain.v
theories/Ansi.v
theories/Html.v
theories/Io.v
theories/Format.v
theories/Nom.v
theories/Parse.v
theories/Codegen.v
theories/StdVal.v
theories/SpecPad.v
theories/Macros.v
theories/SpecCall.v
theories/SpecText.v
theories/TextFacts.v
theories/StyleFacts.v
theories/PropsStyle.v
theories/SpecTerminal.v
theories/AnsiFacts.v
theories/SpecSink.v
theories/SinkFacts.v
theories/SpecSgr.v
theories/RetryFacts.v
theories/HtmlRetryFacts.v
theories/SpecHtml.v
theories/HtmlFacts.v
theories/StringFacts.v
theories/FormatFacts.v
theories/PropsAnsi.v
theories/PropsHtml.v
theories/PropsString.v
theories/SpecUtf8.v
theories/Utf8Facts.v
theories/PropsFormat.v
theories/StdFacts.v
theories/PropsStd.v
theories/SpecGrammar.v
theories/ParseFacts.v
theories/SpecFacts.v
theories/GrammarFacts.v
theories/SpecMeaning.v
theories/CodegenFacts.v
theories/MacroFacts.v
theories/AttrFacts.v
theories/PropsParse.v
theories/ToString.v
theories/PropsMacro.v
theories/PropsCall.v
theories/SpecIo.v
theories/IoFacts.v
theories/PropsIo.v
theories/PropsRetry.v
theories/PropsEndToEnd.v
theories/PropsPad.v
theories/SpecBrowser.v
theories/PropsMore.v
theories/PropsConfig.v
theories/Tests.v
theories/StdIo.v
theories/Lib.v
theories/SpecSession.v
theories/PropsSession.v
theories/PropsBuffers.v
theories/PropsNested.v
theories/PropsRecover.v
theories/Quote.v
theories/SpecHygiene.v
theories/PropsHygiene.v
theories/SpecAmbient.v
theories/PropsAmbient.v
theories/PropsHtmlSession.v
theories/SpecDropIn.v
theories/DropInFacts.v
theories/PropsDropIn.v
theories/PropsStored.v
theories/SpecTruncated.v
theories/PropsTruncated.v
theories/Diagnose.v
theories/SpecDiagnose.v
theories/FillFacts.v
theories/PropsDiagnose.v
theories/SpecLines.v
theories/PropsLines.v
theories/Effects.v
theories/SpecEffects.v
theories/PropsEffects.v
theories/Builders.v
theories/SpecBuilders.v
theories/PropsBuilders.v
theories/SpecOwnDebug.v
theories/PropsOwnDebug.v
theories/TestsBuilders.v
theories/Shared.v
theories/SpecShared.v
theories/PropsShared.v
theories/Docs.v
theories/SpecDocs.v
theories/PropsDocs.v
theories/Located.v
theories/LocatedFacts.v
theories/SpecLocated.v
theories/PropsLocated.v
theories/SpecResume.v
theories/PropsResume.v
theories/SpecAnyTerm.v
theories/AnyTermFacts.v
theories/ResumeFacts.v
theories/PropsAnyTerm.v
theories/SpecCut.v
theories/PropsCut.v
theories/Buffered.v
theories/SpecBuffered.v
theories/BufferedFacts.v
theories/PropsBuffered.v
theories/Endless.v
theories/SpecEndless.v
theories/EndlessFacts.v
theories/PropsEndless.v
theories/PropsJoin.v
theories/Exprs.v
theories/SpecExprs.v
theories/ExprFacts.v
theories/PropsExprs.v
theories/Features.v
theories/SpecFeatures.v
theories/FeatureFacts.v
theories/FeatureTable.v
theories/PropsFeatures.v
theories/Threads.v
theories/SpecThreads.v
theories/PropsThreads.v
theories/SpecTokens.v
theories/PropsInject.v
theories/SpecCalls.v
theories/PropsCalls.v
theories/Clones.v
theories/SpecClones.v
theories/PropsClones.v
theories/PropsSearch.v
theories/Overrides.v
theories/SpecOverrides.v
theories/PropsOverrides.v
theories/SpecTurns.v
theories/PropsTurns.v
