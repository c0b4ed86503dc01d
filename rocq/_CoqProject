-Q theories Verif
theories/Base.v
theories/Unicode.v
theories/Tokens.v
theories/Lexer.v
theories/BaseFacts.v
theories/PureLexer.v
theories/LexerEquiv.v
theories/LexerEquiv2.v
theories/LexerEquiv3.v
theories/LexerEquiv4.v
theories/Grammar.v
theories/Stable.v
theories/Trivia.v
theories/SpecText.v
theories/Comments.v
theories/Fallback.v
theories/PlainLexer.v
theories/SpecTree.v
theories/Spans.v
theories/Balance.v
theories/Shift.v
theories/Local.v
theories/Compose.v
theories/LexProofs.v
theories/PropLex.v
theories/EscapeErrors.v
theories/Escaper.v
theories/LitValue.v
theories/SpecLit.v
theories/SpecEscape.v
theories/SpecShow.v
theories/SpecGrammar.v
theories/SpecPlaces.v
theories/SpecReference.v
theories/LitNew.v
theories/SpecLex.v
theories/EscaperFacts.v
theories/LitValueFacts.v
theories/EscapeReports.v
theories/EscapeClaims.v
theories/LexCooked.v
theories/Utf8.v
theories/LitNewFacts.v
theories/NumFacts.v
theories/NumGrammar.v
theories/ShowProofs.v
theories/LitProofs.v
theories/QuotedGrammar.v
theories/LexemeProofs.v
theories/Places.v
theories/ReferenceProofs.v
theories/PropGrammar.v
theories/PropPlaces.v
theories/GroupProofs.v
theories/PropGroup.v
theories/SpecSpacing.v
theories/SpacingProofs.v
theories/PropSpacing.v
theories/SpecSource.v
theories/SourceProofs.v
theories/PropSource.v
theories/SpecAppend.v
theories/SpecFinal.v
theories/AppendProofs.v
theories/PropAppend.v
theories/PropEscape.v
theories/PropLit.v
theories/SpecPrint.v
theories/Roundtrip.v
theories/SpecOrder.v
theories/PrintProofs.v
theories/PropRound.v
theories/SpecSize.v
theories/SizeProofs.v
theories/PropSize.v
theories/PlainProofs.v
theories/PlainClaims.v
theories/PropPlain.v
theories/RcHeap.v
theories/SpecStreams.v
theories/RcFacts.v
theories/RcDrop.v
theories/RcSim.v
theories/RcProofs.v
theories/RcLazy.v
theories/SpecLazy.v
theories/LazyProofs.v
theories/PropStreams.v
theories/PropLazy.v
theories/SpecCopy.v
theories/CopyProofs.v
theories/PropCopy.v
theories/SourceMap.v
theories/SpecMap.v
theories/MapFacts.v
theories/MapProofs.v
theories/MapClaims.v
theories/PropMap.v
theories/MapRelease.v
theories/FullProofs.v
theories/PropFull.v
theories/Wrapper.v
theories/SpecWrapper.v
theories/WrapperProofs.v
theories/WrapperClaims.v
theories/ToyCompiler.v
theories/PropWrapper.v
theories/SpecDirect.v
theories/DirectProofs.v
theories/PropDirect.v
theories/Unwrapped.v
theories/SpecUnwrapped.v
theories/UnwrappedProofs.v
theories/PropUnwrapped.v
theories/Detection.v
theories/SpecDetect.v
theories/DetectProofs.v
theories/PropDetect.v
theories/Unwind.v
theories/SpecUnwind.v
theories/UnwindProofs.v
theories/PropUnwind.v
theories/Hooks.v
theories/SpecHooks.v
theories/HooksProofs.v
theories/PropHooks.v
theories/Debug.v
theories/SpecDebug.v
theories/DebugProofs.v
theories/DebugLossless.v
theories/Messages.v
theories/RepoTests.v
theories/PropDebug.v
theories/BuildWorld.v
theories/SpecBuild.v
theories/Build.v
theories/BuildProofs.v
theories/BuildClaims.v
theories/BuildRuns.v
theories/BuildPairs.v
theories/PropBuild.v
theories/WrapperSpans.v
theories/SpecSpans.v
theories/SpansProofs.v
theories/PropSpans.v
theories/AutoTraits.v
theories/SpecTraits.v
theories/TraitsProofs.v
theories/PropTraits.v
theories/WrapperPartial.v
theories/SpecCaught.v
theories/CaughtProofs.v
theories/PropCaught.v
theories/Timed.v
theories/TimedErase.v
theories/TimedBounds.v
theories/TimedStrings.v
theories/TimedNumbers.v
theories/TimedLeaf.v
theories/TimedLinear.v
theories/TimedLower.v
theories/PropTimed.v
theories/MapTimed.v
theories/SpecMapTimed.v
theories/MapTimedProofs.v
theories/PropMapTimed.v
theories/Overflow.v
theories/SpecOverflow.v
theories/OverflowProofs.v
theories/PropOverflow.v
theories/Writing.v
theories/SpecWriting.v
theories/WritingProofs.v
theories/PropWriting.v
theories/FinalProofs.v
theories/ForeignProofs.v
theories/PropFinal.v
theories/CheckedLexer.v
theories/CheckedProofs.v
theories/PropChecked.v
theories/MapCaught.v
theories/SpecStale.v
theories/StaleProofs.v
theories/PropStale.v
theories/SpecEnding.v
theories/EndingLexer.v
theories/EndingProofs.v
theories/PropEnding.v
theories/SpecMessages.v
theories/MessagesProofs.v
theories/PropMessages.v
theories/SpecTables.v
theories/TablesProofs.v
theories/PropTables.v
theories/ViableProofs.v
theories/PropViable.v
theories/SpecGraft.v
theories/GraftProofs.v
theories/PropGraft.v
theories/SpecRename.v
theories/RenameProofs.v
theories/PropRename.v
theories/SpecSubst.v
theories/SubstProofs.v
theories/PropSubst.v
theories/StdFacts.v
theories/FloatLit.v
theories/SpecFloats.v
theories/FloatProofs.v
theories/PropFloats.v
theories/WrapIter.v
theories/SpecIter.v
theories/IterProofs.v
theories/PropIter.v
