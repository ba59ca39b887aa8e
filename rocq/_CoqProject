-Q theories Verif
theories/Base.v
theories/Graph.v
theories/TimeModel.v
theories/AbsTime.v
theories/Cond.v
theories/TimeArgs.v
theories/Run.v
theories/GSC.v
theories/CondSet.v
theories/Sched.v
theories/Tests.v
theories/BaseFacts.v
theories/SpecGraph.v
theories/TopoProofs.v
theories/PropertiesGraph.v
theories/SpecTime.v
theories/TimeProofs.v
theories/SpecCond.v
theories/CondProofs.v
theories/PropertiesTime.v
theories/SpecRun.v
theories/RunProofs.v
theories/RunHist.v
theories/RunFacts.v
theories/RunProps.v
theories/YieldFacts.v
theories/PureFacts.v
theories/StopFacts.v
theories/RunExamples.v
theories/PropertiesRun.v
theories/CondFacts.v
theories/DefaultFacts.v
theories/PropertiesCond.v
theories/GraphFacts.v
theories/PropertiesUtil.v
theories/SpecGSC.v
theories/HeapFacts.v
theories/GSCFacts.v
theories/GSCModify.v
theories/GSCProps.v
theories/GSCThms.v
theories/PropertiesGSC.v
theories/SpecSched.v
theories/CondSetFacts.v
theories/ResumeFrame.v
theories/SchedFacts.v
theories/SchedThms.v
theories/TermConds.v
theories/SpecTerm.v
theories/TermFacts.v
theories/PropertiesSched.v
theories/SpecIds.v
theories/RunIds.v
theories/RunCrash.v
theories/IdFacts.v
theories/PropertiesIds.v
theories/SpecDefault.v
theories/DefaultRun.v
theories/PropertiesDefault.v
theories/SpecOrder.v
theories/OrderFacts.v
theories/OrderRun.v
theories/OrderSched.v
theories/PropertiesOrder.v
theories/SpecAbs.v
theories/AbsFacts.v
theories/AbsRun.v
theories/AbsExamples.v
theories/PropertiesAbs.v
theories/Alias.v
theories/SpecAlias.v
theories/SpecStrings.v
theories/StringFacts.v
theories/AliasFacts.v
theories/Prune.v
theories/SpecPrune.v
theories/PruneFacts.v
theories/Cache.v
theories/SpecCache.v
theories/CacheFacts.v
theories/PropertiesMisc.v
theories/SpecChange.v
theories/RunChange.v
theories/ChangeFacts.v
theories/PropertiesChange.v
theories/EdgeFacts.v
theories/PropertiesEdges.v
theories/FinishFacts.v
theories/PropertiesFinish.v
theories/SpecRate.v
theories/RateFacts.v
theories/PropertiesRate.v
theories/SpecPass.v
theories/SpecTurn.v
theories/PassFacts.v
theories/PropertiesPass.v
theories/OpArgs.v
theories/SpecOpArgs.v
theories/OpArgsFacts.v
theories/PropertiesArgs.v
theories/Thresh.v
theories/SpecThresh.v
theories/ThreshFacts.v
theories/PropertiesThresh.v
theories/SpecSafe.v
theories/SafeFacts.v
theories/PropertiesSafe.v
theories/SpecLive.v
theories/LiveFacts.v
theories/PropertiesLive.v
theories/TurnFacts.v
theories/PropertiesTurn.v
theories/SpecDue.v
theories/DueFacts.v
theories/PropertiesDue.v
theories/SpecSession.v
theories/SessionFacts.v
theories/PropertiesSession.v
theories/SpecTimed.v
theories/TimedFacts.v
theories/PropertiesTimed.v
theories/SpecTimeArgs.v
theories/TimeArgsFacts.v
theories/PropertiesTimeArgs.v
theories/SpecAcyclic.v
theories/AcyclicFacts.v
theories/PrunedFacts.v
theories/PropertiesAcyclic.v
theories/QueueFacts.v
theories/PropertiesQueue.v
theories/Kwargs.v
theories/SpecKwargs.v
theories/KwargsFacts.v
theories/PropertiesKwargs.v
theories/SpecChain.v
theories/ChainFacts.v
theories/PropertiesChain.v
theories/Logs.v
theories/SpecLogs.v
theories/PropertiesLogs.v
theories/SpecAbsMode.v
theories/AbsMode.v
theories/PropertiesAbsMode.v
theories/SpecCustom.v
theories/CustomFacts.v
theories/PropertiesCustom.v
theories/SpecEnd.v
theories/EndFacts.v
theories/PropertiesEnd.v
theories/SpecTamper.v
theories/TamperFacts.v
theories/PropertiesTamper.v
theories/SpecRegistered.v
theories/AgreeFacts.v
theories/RegisteredFacts.v
theories/PropertiesRegistered.v
theories/SpecPart.v
theories/PartFacts.v
theories/PropertiesPart.v
theories/SpecAgain.v
theories/AgainFacts.v
theories/PropertiesAgain.v
theories/SpecHalt.v
theories/HaltFacts.v
theories/PropertiesHalt.v
theories/SpecRename.v
theories/RenameGraph.v
theories/RenameEval.v
theories/RenameRun.v
theories/RenameSched.v
theories/PropertiesRename.v
theories/SpecCalls.v
theories/CallsFacts.v
theories/CallsRun.v
theories/CallsThms.v
theories/CallsEnds.v
theories/PropertiesCalls.v
theories/SpecReconnect.v
theories/ReconnectFacts.v
theories/PropertiesReconnect.v
theories/Warn.v
theories/SpecWarn.v
theories/WarnFacts.v
theories/PropertiesWarn.v
theories/SpecRaise.v
theories/RaiseFacts.v
theories/PropertiesRaise.v
theories/SpecLedger.v
theories/LedgerFacts.v
theories/PropertiesLedger.v
theories/SpecForward.v
theories/ForwardFacts.v
theories/PropertiesForward.v
theories/Copying.v
theories/SpecCopy.v
theories/CopyFacts.v
theories/PropertiesCopy.v
theories/SpecLasting.v
theories/LastingFacts.v
theories/PropertiesLasting.v
theories/SpecLimit.v
theories/LimitFacts.v
theories/PropertiesLimit.v
