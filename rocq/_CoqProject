-Q theories Verif
theories/Order.v
theories/Outcome.v
theories/BTree.v
theories/Ranges.v
theories/History.v
theories/Spec.v
theories/MapModel.v
theories/IMapModel.v
theories/ListLemmas.v
theories/SearchTree.v
theories/IterFacts.v
theories/Instances.v
theories/MapProofs.v
theories/MapRemove.v
theories/AnyEq.v
theories/MapFacts.v
theories/MapIter.v
theories/MapMore.v
theories/MapProps.v
theories/ISim.v
theories/Cuts.v
theories/P_Map.v
theories/StepModel.v
theories/StepFacts.v
theories/P_Step.v
theories/IFacts.v
theories/IMapProps.v
theories/OpsModel.v
theories/OpsProofs.v
theories/SetModel.v
theories/ISetModel.v
theories/SetFacts.v
theories/SetProps.v
theories/P_Set.v
theories/ISetProps.v
theories/P_ISet.v
theories/ExhaustedSet.v
theories/P_Exhausted.v
theories/OpsRest.v
theories/P_Rest.v
theories/WorkModel.v
theories/WorkFacts.v
theories/QueryWork.v
theories/P_Work.v
theories/PrettyFacts.v
theories/P_Pretty.v
theories/Natural.v
theories/Cross.v
theories/CrossProps.v
theories/DenseModel.v
theories/DenseFacts.v
theories/P_Cross.v
theories/CrashModel.v
theories/CrashFacts.v
theories/CrashSim.v
theories/CrashProps.v
theories/AnyFacts.v
theories/P_AnyEq.v
theories/LawFacts.v
theories/P_Laws.v
theories/Cost.v
theories/ExhaustedCrash.v
theories/ExhaustedAny.v
theories/ExhaustedEq.v
theories/P_IMap.v
theories/P_Crash.v
theories/CrashAny.v
theories/CrashSetModel.v
theories/CrashSet.v
theories/P_CrashSet.v
theories/AnyCrash.v
theories/AnyCrashIncl.v
theories/P_AnyCrash.v
theories/AskModel.v
theories/AskFacts.v
theories/AskSim.v
theories/AskIncl.v
theories/P_Ask.v
theories/P_Cost.v
theories/OrdFacts.v
theories/DebugModel.v
theories/DebugFacts.v
theories/P_Order.v
theories/Exhausted.v
theories/Tiling.v
theories/ISetAny.v
theories/P_Query.v
theories/P_Debug.v
theories/CloneModel.v
theories/CloneFacts.v
theories/CloneProps.v
theories/P_Clone.v
theories/CloneSetModel.v
theories/CloneSetFacts.v
theories/CloneSetProps.v
theories/P_CloneSet.v
theories/WrapperModel.v
theories/WrapperFacts.v
theories/P_Wrapper.v
theories/CrossMore.v
theories/CrossProg.v
theories/RelabelIncl.v
theories/P_Agree.v
theories/Conformance.v
theories/FuzzModel.v
theories/FuzzFacts.v
theories/P_Fuzz.v
theories/PropModel.v
theories/PropFacts.v
theories/P_Prop.v
theories/SpecExact.v
theories/MapExact.v
theories/IExact.v
theories/P_Exact.v
theories/SpecProg.v
theories/ProgModel.v
theories/ProgFacts.v
theories/ProgAny.v
theories/P_Prog.v
theories/SpecOps.v
theories/OpsAny.v
theories/P_Ops.v
theories/CloneCount.v
theories/CloneBound.v
theories/P_CloneCost.v
theories/OpsCostModel.v
theories/OpsCost.v
theories/OpsClones.v
theories/P_OpsCost.v
theories/SpecHalt.v
theories/HaltModel.v
theories/HaltFacts.v
theories/HaltIncl.v
theories/HaltOps.v
theories/AskIterModel.v
theories/HaltTally.v
theories/AskIter.v
theories/P_Halt.v
theories/P_AskIter.v
theories/SpecStep.v
theories/WithinModel.v
theories/StepPanic.v
theories/StepPanicSet.v
theories/ProgPanic.v
theories/ProgSub.v
theories/ProgRuns.v
theories/WithinFacts.v
theories/P_StepBad.v
theories/INatural.v
theories/OpsNatural.v
theories/StepSub.v
theories/P_StepSub.v
