-Q theories Verif
theories/Base.v
theories/Triple.v
theories/Sep.v
theories/SepHangs.v
theories/SlistModel.v
theories/SlistSpec.v
theories/SlistLogic.v
theories/SlistOps.v
theories/ForwardSpec.v
theories/ForwardProofs.v
theories/ForwardSplice.v
theories/ForwardHistory.v
theories/ForwardLost.v
theories/ForwardRuns.v
theories/PropsForward.v
theories/ForwardExamples.v
theories/History.v
theories/HistoryLogic.v
theories/HistoryV.v
theories/HistoryVLogic.v
theories/BackwardSpec.v
theories/BackwardProofs.v
theories/BackwardHistory.v
theories/BackwardRuns.v
theories/PropsBackward.v
theories/BackwardExamples.v
theories/LazySpec.v
theories/LazyProofs.v
theories/LazyHistory.v
theories/LazyRuns.v
theories/PropsLazy.v
theories/LazyExamples.v
theories/RbModel.v
theories/RbSpec.v
theories/RbPure.v
theories/RbLogic.v
theories/RbOps.v
theories/RbFind.v
theories/RbDel.v
theories/RbIter.v
theories/MapSpec.v
theories/RbMap.v
theories/MapStep.v
theories/MapHistory.v
theories/MapRuns.v
theories/MappedRuns.v
theories/PropsMap.v
theories/PropsMapped.v
theories/MultiSpec.v
theories/MultiHistory.v
theories/MultiRuns.v
theories/PropsMulti.v
theories/RbRefModel.v
theories/RbRef.v
theories/AliasRuns.v
theories/PropsAlias.v
theories/AliasMapRuns.v
theories/PropsAliasMap.v
theories/MultiExamples.v
theories/MapExamples.v
theories/BlockModel.v
theories/VecModel.v
theories/FixedModel.v
theories/BlockLogic.v
theories/VecSpec.v
theories/VecProofs.v
theories/VecHistory.v
theories/VecRuns.v
theories/PropsVec.v
theories/VecExamples.v
theories/HistoryX.v
theories/HistoryXLogic.v
theories/FixedSpec.v
theories/FixedProofs.v
theories/FixedHistory.v
theories/FixedRuns.v
theories/PropsFixed.v
theories/FixedExamples.v
theories/DlistModel.v
theories/DlistSpec.v
theories/DlistLogic.v
theories/DlistProofs.v
theories/DlistProofs2.v
theories/DlistProofs3.v
theories/DlistSplice.v
theories/DlistHistory.v
theories/DlistAlias.v
theories/DlistLost.v
theories/DlistRuns.v
theories/PropsDlist.v
theories/DlistExamples.v
theories/VmapModel.v
theories/VmapSpec.v
theories/VmapProofs.v
theories/VmapRuns.v
theories/PropsVmap.v
theories/VmapExamples.v
theories/SvmModel.v
theories/SvmSpec.v
theories/SvmPure.v
theories/SvmProofs.v
theories/SvmProofs2.v
theories/SvmHistory.v
theories/SvmRuns.v
theories/PropsSvm.v
theories/SvmExamples.v
theories/State.v
theories/BitModel.v
theories/BitSpec.v
theories/BitPure.v
theories/BitProofs.v
theories/BitProofs2.v
theories/BitProofs3.v
theories/BitHistory.v
theories/BitRuns.v
theories/PropsBit.v
theories/BitExamples.v
theories/AlgModel.v
theories/AlgSpec.v
theories/AlgProofs.v
theories/AlgProofs2.v
theories/AlgProofs3.v
theories/AlgRuns.v
theories/PropsAlg.v
theories/AlgExamples.v
theories/PairModel.v
theories/PairRuns.v
theories/PropsPair.v
theories/PairExamples.v
theories/TraitModel.v
theories/TraitSpec.v
theories/TraitRuns.v
theories/PropsTrait.v
theories/TraitExamples.v
theories/Threads.v
theories/ThreadLogic.v
theories/Reify.v
theories/Clients.v
theories/ClientsLogic.v
theories/ThreadSpec.v
theories/ThreadSl.v
theories/ThreadDl.v
theories/ThreadSv.v
theories/ThreadMap.v
theories/ThreadVec.v
theories/ThreadRuns.v
theories/PropsThread.v
theories/ThreadExamples.v
theories/LayoutModel.v
theories/LayoutRuns.v
theories/PropsLayout.v
theories/LayoutExamples.v
theories/Fault.v
theories/FaultSpec.v
theories/FaultLogic.v
theories/FaultThrow.v
theories/FaultSl.v
theories/FaultDl.v
theories/FaultMap.v
theories/FaultVec.v
theories/FaultCtor.v
theories/FaultCopy.v
theories/FaultSvm.v
theories/FaultBl.v
theories/FaultLq.v
theories/FaultCtor2.v
theories/FaultRuns.v
theories/PropsFault.v
theories/FaultExamples.v
theories/Cost.v
theories/CostSpec.v
theories/CostLogic.v
theories/CostNet.v
theories/CostProofs.v
theories/CostWalk.v
theories/CostRuns.v
theories/PropsCost.v
theories/CostExamples.v
theories/CallsModel.v
theories/CallsSpec.v
theories/CallsProofs.v
theories/CallsProofs2.v
theories/CallsProofs3.v
theories/CallsRuns.v
theories/PropsCalls.v
theories/CallsExamples.v
theories/ThrowModel.v
theories/ThrowProofs.v
theories/ThrowSpec.v
theories/ThrowSame.v
theories/ThrowVec.v
theories/ThrowFixed.v
theories/ThrowRuns.v
theories/PropsThrow.v
theories/ThrowLqModel.v
theories/ThrowLqRuns.v
theories/PropsThrowLq.v
theories/ThrowExamples.v
theories/AlgPredModel.v
theories/AlgPredSpec.v
theories/AlgPredRuns.v
theories/PropsAlgPred.v
theories/AlgPredExamples.v
theories/PredModel.v
theories/PredSpec.v
theories/PredRuns.v
theories/PropsPred.v
theories/PredExamples.v
theories/CmpModel.v
theories/CmpSpec.v
theories/CmpSim.v
theories/CmpDel.v
theories/CmpRuns.v
theories/PropsCmp.v
theories/CmpExamples.v
theories/CatchSpec.v
theories/CatchSim.v
theories/CmpVecModel.v
theories/CmpVecSpec.v
theories/CmpVecSim.v
theories/CmpVecRuns.v
theories/PropsCmpVec.v
theories/CmpVecExamples.v
theories/CmpMapSpec.v
theories/CmpMapRuns.v
theories/PropsCmpMap.v
theories/CmpMapExamples.v
