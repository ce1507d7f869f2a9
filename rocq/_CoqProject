-Q theories Verif
theories/Base.v
theories/Fraction.v
theories/FractionProofs.v
theories/FractionProps.v
theories/Commons.v
theories/CommonsProofs.v
theories/CommonsProps.v
theories/Graph.v
theories/KPeriodic.v
theories/ScheduleSpec.v
theories/ScheduleCore.v
theories/KPeriodicSpec.v
theories/KPeriodicProofs.v
theories/KPeriodicChannel.v
theories/KPeriodicSelfloop.v
theories/KPeriodicGraph.v
theories/EventGraph.v
theories/EventGraphSpec.v
theories/EventGraphProofs.v
theories/KPeriodicEnd.v
theories/KPeriodicMixed.v
theories/KPeriodicProps.v
theories/KIter.v
theories/KIterProofs.v
theories/KIterLoop.v
theories/KIterOpt.v
theories/KIterFinal.v
theories/KIterProps.v
theories/KIterSpec.v
theories/RepVec.v
theories/RepVecSpec.v
theories/RepVecProofs.v
theories/RepVecFinal.v
theories/RepVecProps.v
theories/Builder.v
theories/BuilderSpec.v
theories/BuilderProofs.v
theories/BuilderIds.v
theories/BuilderPhases.v
theories/BuilderFinal.v
theories/BuilderProps.v
theories/Scc.v
theories/SccSpec.v
theories/SccProofs.v
theories/SccProps.v
theories/GroupList.v
theories/GroupListSpec.v
theories/GroupListProofs.v
theories/GroupListProps.v
theories/Storage.v
theories/StorageSpec.v
theories/StorageProofs.v
theories/StorageSets.v
theories/Dse.v
theories/DseSpec.v
theories/DseProofs.v
theories/ChannelSpec.v
theories/ChannelProofs.v
theories/StorageProps.v
theories/ChannelProps.v
theories/DseGraphProofs.v
theories/DseProps.v
theories/Noc.v
theories/NocSpec.v
theories/NocProofs.v
theories/NocRoutes.v
theories/NocProps.v
theories/Sim.v
theories/SimSpec.v
theories/SimProofs.v
theories/SimTime.v
theories/SimAsap.v
theories/SimRecur.v
theories/SimPeriod.v
theories/SimOptimal.v
theories/SimFinal.v
theories/SimTerm.v
theories/SimProps.v
theories/Normal.v
theories/NormalSpec.v
theories/NormalProofs.v
theories/NormalDone.v
theories/NormalFinal.v
theories/NormalProps.v
theories/SimScc.v
theories/SimSccSpec.v
theories/SimSccSub.v
theories/SimSccCompose.v
theories/SimSccParts.v
theories/SimSccBusy.v
theories/SimSccIdle.v
theories/SimSccFinal.v
theories/SimSccEnds.v
theories/SimSccProps.v
theories/Howard.v
theories/HowardProofs.v
theories/HowardTotal.v
theories/HowardFinal.v
theories/HowardKIter.v
theories/HowardProps.v
theories/SPeriodic.v
theories/SPeriodicSpec.v
theories/SPeriodicProofs.v
theories/SPeriodicEnd.v
theories/SPeriodicProps.v
theories/Periodic.v
theories/PeriodicSpec.v
theories/PeriodicProofs.v
theories/PeriodicProps.v
theories/Merge.v
theories/MergeSeq.v
theories/MergeCore.v
theories/MergeProofs.v
theories/MergeTotal.v
theories/MergeSpec.v
theories/MergeEnd.v
theories/MergeBack.v
theories/MergeProps.v
theories/Sdf3.v
theories/Sdf3Spec.v
theories/Sdf3Text.v
theories/Sdf3Core.v
theories/Sdf3Proofs.v
theories/Sdf3Final.v
theories/Sdf3Reader.v
theories/Sdf3Props.v
theories/Degroote.v
theories/DegrooteSpec.v
theories/DegrooteProofs.v
theories/DegrooteFinal.v
theories/DegrooteProps.v
theories/Sizing.v
theories/SizingSpec.v
theories/SizingCore.v
theories/SizingLp.v
theories/SizingFeasible.v
theories/SizingProofs.v
theories/SizingFinal.v
theories/SizingEnd.v
theories/SizingOffsets.v
theories/SizingProps.v
theories/FreqDse.v
theories/FreqDseSpec.v
theories/FreqDseProofs.v
theories/FreqDseEnd.v
theories/FreqDseProps.v
theories/SymbExec.v
theories/SymbExecSpec.v
theories/SymbExecProofs.v
theories/SymbExecEnd.v
theories/SymbExecTrace.v
theories/SymbExecFiring.v
theories/SymbExecFinal.v
theories/SymbExecContent.v
theories/SymbExecProps.v
theories/LiveProofs.v
theories/LiveProps.v
theories/RandomGen.v
theories/RandomGenSpec.v
theories/RandomGenProofs.v
theories/RandomGenMarking.v
theories/RandomGenLoop.v
theories/RandomGenProps.v
theories/Backpressure.v
theories/BackpressureSpec.v
theories/BackpressureProofs.v
theories/BackpressureProps.v
theories/Cycles.v
theories/CyclesSpec.v
theories/CyclesProofs.v
theories/CyclesLoop.v
theories/CyclesProps.v
theories/MonoOpt.v
theories/MonoOptSpec.v
theories/MonoOptProofs.v
theories/MonoOptSearch.v
theories/MonoOptMain.v
theories/MonoOptBounded.v
theories/MonoOptTotal.v
theories/MonoOptProps.v
theories/StorDep.v
theories/StorDepSpec.v
theories/StorDepScc.v
theories/StorDepCycle.v
theories/StorDepDead.v
theories/StorDepProps.v
theories/StorDepPair.v
theories/StorDepTrace.v
theories/StorDepPeriod.v
theories/StorDepEnds.v
theories/DseExecSpec.v
theories/DseExecProofs.v
theories/DseExecProps.v
theories/RoomEnough.v
theories/DseEndsProofs.v
theories/DseEndsProps.v
theories/DseKiterSpec.v
theories/DseKiterProofs.v
theories/DseKiterEnds.v
theories/DseKiterProps.v
theories/DseAgreeProofs.v
theories/DseAgreeProps.v
theories/ReentrantSpec.v
theories/ReentrantProofs.v
theories/ReentrantProps.v
theories/Communications.v
theories/CommunicationsSpec.v
theories/CommunicationsProofs.v
theories/CommunicationsLive.v
theories/CommunicationsStep.v
theories/CommunicationsAll.v
theories/CommunicationsProps.v
theories/SchedCheck.v
theories/SchedCheckSpec.v
theories/SchedCheckProofs.v
theories/SchedCheckProps.v
theories/NocPath.v
theories/NocPathSpec.v
theories/NocPathProofs.v
theories/NocPathMesh.v
theories/NocPathProps.v
theories/Expansion.v
theories/ExpansionSpec.v
theories/ExpansionProofs.v
theories/ExpansionProps.v
theories/Cmdline.v
theories/CmdlineSpec.v
theories/CmdlineProofs.v
theories/CmdlineProps.v
theories/Mapper.v
theories/MapperSpec.v
theories/MapperProofs.v
theories/MapperProps.v
theories/TaskOrder.v
theories/TaskOrderSpec.v
theories/TaskOrderProofs.v
theories/TaskOrderProps.v
theories/CycleFinder.v
theories/CycleFinderSpec.v
theories/CycleFinderDfs.v
theories/CycleFinderProofs.v
theories/CycleFinderProps.v
theories/MapFinish.v
theories/MapFinishSpec.v
theories/MapFinishProofs.v
theories/MapFinishProps.v
theories/EventScc.v
theories/EventSccSpec.v
theories/EventSccTarjan.v
theories/EventSccProofs.v
theories/EventSccProps.v
theories/Overlaps.v
theories/OverlapsSpec.v
theories/OverlapsProofs.v
theories/OverlapsProps.v
theories/SingleOutput.v
theories/SingleOutputSpec.v
theories/SingleOutputProofs.v
theories/SingleOutputLoop.v
theories/SingleOutputProps.v
theories/RemoveTask.v
theories/RemoveTaskSpec.v
theories/RemoveTaskProofs.v
theories/RemoveTaskProps.v
theories/Lte.v
theories/LteSpec.v
theories/LteProofs.v
theories/LteProps.v
theories/Knees.v
theories/KneesSpec.v
theories/KneesProofs.v
theories/KneesProps.v
theories/MonoKnee.v
theories/MonoKneeSpec.v
theories/MonoKneeProofs.v
theories/MonoKneeProps.v
theories/Tdma.v
theories/TdmaSpec.v
theories/TdmaProofs.v
theories/TdmaProps.v
theories/So4.v
theories/So4Spec.v
theories/So4Props.v
theories/So4Firings.v
theories/So4FiringsProps.v
theories/So4Rules.v
theories/So4RulesSpec.v
theories/So4RulesProps.v
theories/So4RateSpec.v
theories/So4Rate.v
theories/So4RateProps.v
theories/KPeriodicLp.v
theories/KPeriodicLpSpec.v
theories/KPeriodicLpProofs.v
theories/KPeriodicLpEnd.v
theories/KPeriodicLpProps.v
theories/Wiggers.v
theories/WiggersSpec.v
theories/WiggersProofs.v
theories/WiggersLate.v
theories/WiggersEnd.v
theories/WiggersProps.v
theories/MinMax.v
theories/MinMaxSpec.v
theories/MinMaxProofs.v
theories/MinMaxEnd.v
theories/MinMaxProps.v
