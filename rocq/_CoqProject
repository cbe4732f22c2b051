-Q theories Verif
theories/Res.v
theories/Partial.v
theories/Arith.v
theories/MSparse.v
theories/MLdl.v
theories/MSolver.v
theories/Lists.v
theories/Csc.v
theories/SemVec.v
theories/Flat.v
theories/DenseProofs.v
theories/TransposeProofs.v
theories/KktProofs.v
theories/LdlSpec.v
theories/LdlSym.v
theories/LdlNum.v
theories/LdlSolve.v
theories/LdlR.v
theories/LdlFun.v
theories/VecOps.v
theories/Iter.v
theories/SafeInst.v
theories/Setup.v
theories/Session.v
theories/QpSpec.v
theories/NewtonR.v
theories/PermIndep.v
theories/Spec.v
theories/SpecLink.v
theories/Api.v
theories/P1_Sparse.v
theories/Demo.v
theories/P2_Kkt.v
theories/P3_Ldl.v
theories/P4_Always.v
theories/PointR.v
theories/P5_Session.v
theories/P6_Codes.v
theories/StepSpec.v
theories/QpFacts.v
theories/LdlUniq.v
theories/StepFacts.v
theories/StepUniq.v
theories/StepLink.v
theories/P7_Step.v
theories/P8_Problem.v
theories/P8_Cases.v
theories/P9_Entry.v
theories/MHeap.v
theories/HeapSim.v
theories/P10_Heap.v
theories/MIface.v
theories/P11_Iface.v
theories/MAmd.v
theories/AmdBase.v
theories/AmdPre.v
theories/AmdWalk.v
theories/AmdGraph.v
theories/AmdView.v
theories/AmdLists.v
theories/AmdGc.v
theories/AmdInv.v
theories/AmdBuild.v
theories/AmdAsm.v
theories/AmdScan1.v
theories/AmdScan2.v
theories/AmdDetect.v
theories/AmdRestore.v
theories/AmdPivot.v
theories/AmdInit.v
theories/AmdTree.v
theories/AmdKids.v
theories/AmdPostTree.v
theories/AmdPos.v
theories/AmdPost.v
theories/AmdOrder.v
theories/P12_Order.v
theories/MMatlab.v
theories/P13_Matlab.v
theories/Round.v
theories/P14_Round.v
theories/P15_Data.v
theories/QuasiDef.v
theories/P16_Convex.v
theories/Relabel.v
theories/P17_Relabel.v
theories/MPyRefs.v
theories/P18_PyRefs.v
theories/RoundLdl.v
theories/P19_LdlRound.v
theories/P21_Single.v
theories/RoundStep.v
theories/P20_StepRound.v
theories/P22_RoundCodes.v
theories/Motion.v
theories/P23_Motion.v
theories/RoundInt.v
theories/P24_Interior.v
theories/MInactive.v
theories/Cache.v
theories/P25_Cache.v
theories/P26_Reach.v
theories/P27_Upper.v
theories/Left.v
theories/P28_Left.v
theories/P29_Fill.v
theories/P30_Timer.v
theories/P31_Options.v
theories/MProto.v
theories/P32_Proto.v
theories/MPrint.v
theories/P33_Text.v
theories/P34_Defaults.v
theories/P35_Path.v
theories/P36_Handles.v
theories/P37_Range.v
theories/P38_Locate.v
theories/P39_Nonfinite.v
theories/P40_Exact.v
theories/P41_Value.v
theories/P42_Again.v
theories/P43_EndToEnd.v
theories/P44_Stationary.v
theories/P45_MatlabEnd.v
theories/P46_MinDegree.v
theories/P47_Ordering.v
theories/P48_Dense.v
theories/P49_Pattern.v
theories/P50_Rows.v
