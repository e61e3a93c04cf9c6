-Q theories Verif
theories/Base.v
theories/Sequence.v
theories/Control.v
theories/Signature.v
theories/Printer.v
theories/Reports.v
theories/Expectation.v
theories/Builder.v
theories/World.v
theories/Lib.v
theories/SeqInv.v
theories/BuildSpec.v
theories/BuilderLemmas.v
theories/WorldSpec.v
theories/CallSpec.v
theories/StepCases.v
theories/MatchLemmas.v
theories/WorldInv.v
theories/ObjInv.v
theories/CallProofs.v
theories/BuildProofs.v
theories/Scenario.v
theories/CountProofs.v
theories/PropTimes.v
theories/PropCounts.v
theories/PropBuild.v
theories/SigSpec.v
theories/SigProofs.v
theories/PropSig.v
theories/SelectSpec.v
theories/SelectProofs.v
theories/PropSelect.v
theories/IsolateProofs.v
theories/OutcomeProofs.v
theories/PropCalls.v
theories/PlayProofs.v
theories/MoveProofs.v
theories/History.v
theories/SeqSpec.v
theories/SeqEnd.v
theories/ScopeProofs.v
theories/PropUnchanged.v
theories/PropSeq.v
theories/PropScope.v
theories/FrameSpec.v
theories/FrameProofs.v
theories/PropFrames.v
theories/Conc.v
theories/ConcSpec.v
theories/ConcProofs.v
theories/PropConc.v
theories/ConcOrder.v
theories/PropConcOrder.v
theories/Reentrant.v
theories/ReentrantSpec.v
theories/ReentrantProofs.v
theories/PropReentrant.v
theories/TextSpec.v
theories/TextProofs.v
theories/PropText.v
theories/Reporter.v
theories/PropReporter.v
theories/Matcher.v
theories/Strings.v
theories/MatchSpec.v
theories/MatchProofs.v
theories/FormatSpec.v
theories/FormatProofs.v
theories/PropMatcher.v
theories/Watcher.v
theories/WatchSpec.v
theories/WatchProofs.v
theories/WatchSteps.v
theories/PropWatcher.v
theories/Actions.v
theories/ActionSpec.v
theories/ActionProofs.v
theories/PropActions.v
theories/Macro.v
theories/MacroSpec.v
theories/MacroLemmas.v
theories/MacroProofs.v
theories/MacroLists.v
theories/MacroPublic.v
theories/PropMacro.v
theories/Race.v
theories/RaceSpec.v
theories/RaceProofs.v
theories/RaceFree.v
theories/LockProofs.v
theories/PropRace.v
theories/Dispatch.v
theories/DispatchSpec.v
theories/DispatchProofs.v
theories/PropDispatch.v
theories/Overload.v
theories/OverloadSpec.v
theories/OverloadProofs.v
theories/PropOverload.v
theories/UnitSpec.v
theories/UnitProofs.v
theories/PropUnits.v
theories/Adapter.v
theories/PropAdapter.v
theories/TestSpec.v
theories/TestProofs.v
theories/ProgramProofs.v
theories/PropTests.v
theories/Equality.v
theories/PropEquality.v
theories/PropPrimitives.v
theories/Watched.v
theories/PropWatched.v
theories/PropOwned.v
theories/Reference.v
theories/RefProofs.v
theories/PropReference.v
theories/Stateful.v
theories/StatefulProofs.v
theories/PropStateful.v
theories/Custom.v
theories/CustomProofs.v
theories/PropCustom.v
theories/Recorder.v
theories/RecorderProofs.v
theories/PropRecorder.v
theories/PropTags.v
theories/Folding.v
theories/PropFolding.v
theories/Builders.v
theories/StoredProofs.v
theories/PropStored.v
theories/Failing.v
theories/FailProofs.v
theories/PropFailing.v
theories/Printing.v
theories/PropPrinting.v
theories/Handle.v
theories/PropHandle.v
theories/Objects.v
theories/ObjectSpec.v
theories/ObjectProofs.v
theories/PropObjects.v
theories/LineSpec.v
theories/PropLines.v
theories/TestsOfRepo.v
theories/ExamplesOfRepo.v
theories/Specialise.v
theories/PropSpecialise.v
theories/Operands.v
theories/PropOperands.v
theories/Conjoin.v
theories/PropConjoin.v
theories/Foreign.v
theories/PropForeign.v
theories/FailingBuilders.v
theories/FailBuildProofs.v
theories/PropFailingBuilders.v
theories/PropWatchedFailing.v
theories/Visits.v
theories/PropVisits.v
theories/Lifetime.v
theories/LifetimeSpec.v
theories/LifetimeProofs.v
theories/LifetimeOrder.v
theories/PropLifetime.v
theories/Colls.v
theories/CollsSpec.v
theories/CollsProofs.v
theories/CollsOrder.v
theories/PropColls.v
theories/Guarded.v
theories/GuardedSpec.v
theories/GuardedProofs.v
theories/PropGuarded.v
theories/ScheduleSpec.v
theories/ScheduleProofs.v
theories/ScheduleAfter.v
theories/FootSpec.v
theories/FootProofs.v
theories/PropFoot.v
theories/ScheduleRaces.v
theories/PropSchedule.v
theories/UnitTests.v
