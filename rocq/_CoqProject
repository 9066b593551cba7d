-Q theories Verif

theories/M_Alike.v
theories/M_App.v
theories/M_Base.v
theories/M_Bitset.v
theories/M_CTree.v
theories/M_Circuit.v
theories/M_Contract.v
theories/M_Convert.v
theories/M_Cost.v
theories/M_Decompose.v
theories/M_Detect.v
theories/M_Dump.v
theories/M_Equal.v
theories/M_FinFloat.v
theories/M_FinWidth.v
theories/M_Fixed.v
theories/M_FixedText.v
theories/M_Float.v
theories/M_Fuse.v
theories/M_InfMem.v
theories/M_Json.v
theories/M_JsonTn.v
theories/M_Life.v
theories/M_LoadTn.v
theories/M_OSet.v
theories/M_Opt.v
theories/M_Overflow.v
theories/M_OverflowFin.v
theories/M_Parallel.v
theories/M_Path.v
theories/M_Prob.v
theories/M_ProbFloat.v
theories/M_ProbInf.v
theories/M_PyCost.v
theories/M_PyNodes.v
theories/M_PyTree.v
theories/M_PyViews.v
theories/M_Random.v
theories/M_Report.v
theories/M_Resources.v
theories/M_Sampler.v
theories/M_Sampling.v
theories/M_Schedule.v
theories/M_Seed.v
theories/M_Svd.v
theories/M_Symbols.v
theories/M_Tensor.v
theories/M_Testing.v
theories/M_Text.v
theories/M_TnApp.v
theories/M_Tree.v
theories/M_ValidTree.v
theories/M_Walk.v
theories/P_Alike.v
theories/P_Amplitude.v
theories/P_App.v
theories/P_AppMain.v
theories/P_AppMake.v
theories/P_AppNames.v
theories/P_AppTree.v
theories/P_Approx.v
theories/P_Array.v
theories/P_Base.v
theories/P_Bitset.v
theories/P_BitsetMain.v
theories/P_Born.v
theories/P_Canon.v
theories/P_Circuit.v
theories/P_Classical.v
theories/P_Contract.v
theories/P_ContractMain.v
theories/P_ContractThm.v
theories/P_Convert.v
theories/P_Cost.v
theories/P_CostMain.v
theories/P_DecChain.v
theories/P_DecGate.v
theories/P_Decompose.v
theories/P_DecomposeNet.v
theories/P_DecomposeSum.v
theories/P_Detect.v
theories/P_Draws.v
theories/P_Dump.v
theories/P_DumpMain.v
theories/P_EndToEnd.v
theories/P_Equal.v
theories/P_EqualLoad.v
theories/P_FinFloat.v
theories/P_FinFloatMain.v
theories/P_FinFloatNear.v
theories/P_FinFloatRun.v
theories/P_FinFloatWidth.v
theories/P_FinWidth.v
theories/P_FinWidthFinal.v
theories/P_FinWidthMain.v
theories/P_FinWidthOpt.v
theories/P_Fixed.v
theories/P_FixedConv.v
theories/P_FixedFmt.v
theories/P_FixedMain.v
theories/P_FixedProps.v
theories/P_FixedSign.v
theories/P_FixedText.v
theories/P_FixedTextProps.v
theories/P_FloatCost.v
theories/P_FloatExact.v
theories/P_FloatMain.v
theories/P_FloatPickle.v
theories/P_FloatRun.v
theories/P_Forest.v
theories/P_Fuse.v
theories/P_Gates.v
theories/P_Gauss.v
theories/P_InfMem.v
theories/P_InfMemFinal.v
theories/P_InfMemMain.v
theories/P_Json.v
theories/P_JsonTn.v
theories/P_Keeps.v
theories/P_Kronecker.v
theories/P_Life.v
theories/P_Load.v
theories/P_LoadErr.v
theories/P_LoadTn.v
theories/P_LoadTnMain.v
theories/P_LoadTnRun.v
theories/P_LoadTnUse.v
theories/P_OSet.v
theories/P_Opt.v
theories/P_OptCost.v
theories/P_Overflow.v
theories/P_OverflowFin.v
theories/P_OverflowFinMain.v
theories/P_OverflowMain.v
theories/P_ParMain.v
theories/P_Parallel.v
theories/P_Path.v
theories/P_PathMain.v
theories/P_Prob.v
theories/P_ProbFloat.v
theories/P_ProbInf.v
theories/P_PyBuild.v
theories/P_PyCost.v
theories/P_PyFinal.v
theories/P_PyMain.v
theories/P_PyNodes.v
theories/P_PyPath.v
theories/P_PyRun.v
theories/P_PyTens.v
theories/P_PyViews.v
theories/P_RandColor.v
theories/P_RandComp.v
theories/P_RandLoop.v
theories/P_RandMain.v
theories/P_Reach.v
theories/P_ReachFin.v
theories/P_ReachFinMain.v
theories/P_ReachFinal.v
theories/P_ReachSim.v
theories/P_Rename.v
theories/P_RenameCall.v
theories/P_RenameDec.v
theories/P_RenameLoad.v
theories/P_Report.v
theories/P_ReportMain.v
theories/P_Resources.v
theories/P_Same.v
theories/P_SampleMain.v
theories/P_SampleNet.v
theories/P_Sampler.v
theories/P_SamplerMain.v
theories/P_Sampling.v
theories/P_Schedule.v
theories/P_ScheduleEx.v
theories/P_ScheduleMain.v
theories/P_Seed.v
theories/P_SeedMore.v
theories/P_Shape.v
theories/P_Simplify.v
theories/P_Slice.v
theories/P_Split.v
theories/P_Sum.v
theories/P_Svd.v
theories/P_SvdMain.v
theories/P_SvdReal.v
theories/P_Symbols.v
theories/P_Tensordot.v
theories/P_TestGen.v
theories/P_TestMain.v
theories/P_TestNet.v
theories/P_TestZero.v
theories/P_Testing.v
theories/P_Text.v
theories/P_TextLoad.v
theories/P_TnApp.v
theories/P_TnLoad.v
theories/P_Tree.v
theories/P_TreeMain.v
theories/P_TreeProps.v
theories/P_TreeValid.v
theories/P_Twice.v
theories/P_ValidCount.v
theories/P_ValidFinal.v
theories/P_ValidMain.v
theories/P_ValidPickle.v
theories/P_ValidTree.v
theories/P_Walk.v
theories/Props_Alike.v
theories/Props_Amplitude.v
theories/Props_App.v
theories/Props_Bitset.v
theories/Props_Circuit.v
theories/Props_Contract.v
theories/Props_Convert.v
theories/Props_Cost.v
theories/Props_Decompose.v
theories/Props_Detect.v
theories/Props_Dump.v
theories/Props_EndToEnd.v
theories/Props_Equal.v
theories/Props_FinFloat.v
theories/Props_FinWidth.v
theories/Props_Fixed.v
theories/Props_FixedText.v
theories/Props_Float.v
theories/Props_Fuse.v
theories/Props_InfMem.v
theories/Props_Json.v
theories/Props_Life.v
theories/Props_LoadTn.v
theories/Props_OSet.v
theories/Props_Overflow.v
theories/Props_OverflowFin.v
theories/Props_Parallel.v
theories/Props_Path.v
theories/Props_ProbFloat.v
theories/Props_ProbInf.v
theories/Props_PyCost.v
theories/Props_PyTree.v
theories/Props_PyViews.v
theories/Props_Random.v
theories/Props_Reach.v
theories/Props_ReachFin.v
theories/Props_Rename.v
theories/Props_Report.v
theories/Props_Resources.v
theories/Props_Sampler.v
theories/Props_Sampling.v
theories/Props_Schedule.v
theories/Props_Seed.v
theories/Props_Svd.v
theories/Props_Symbols.v
theories/Props_Tensor.v
theories/Props_Testing.v
theories/Props_Text.v
theories/Props_TnApp.v
theories/Props_Tree.v
theories/Props_ValidTree.v
theories/Props_Walk.v
theories/S_Alike.v
theories/S_Amplitude.v
theories/S_App.v
theories/S_Circuit.v
theories/S_Contract.v
theories/S_Convert.v
theories/S_Decompose.v
theories/S_Detect.v
theories/S_Dump.v
theories/S_Equal.v
theories/S_FinFloat.v
theories/S_FinWidth.v
theories/S_Fixed.v
theories/S_FixedText.v
theories/S_Float.v
theories/S_Fuse.v
theories/S_Json.v
theories/S_Life.v
theories/S_LoadTn.v
theories/S_Network.v
theories/S_OSet.v
theories/S_Opt.v
theories/S_Overflow.v
theories/S_OverflowFin.v
theories/S_Parallel.v
theories/S_Path.v
theories/S_ProbFloat.v
theories/S_ProbInf.v
theories/S_PyCost.v
theories/S_PyTree.v
theories/S_PyViews.v
theories/S_Random.v
theories/S_Reach.v
theories/S_ReachFin.v
theories/S_Rename.v
theories/S_Report.v
theories/S_Resources.v
theories/S_Sampler.v
theories/S_Sampling.v
theories/S_Schedule.v
theories/S_Seed.v
theories/S_Slice.v
theories/S_Svd.v
theories/S_SvdReal.v
theories/S_Symbols.v
theories/S_Tensor.v
theories/S_Testing.v
theories/S_Text.v
theories/S_TnApp.v
theories/S_Tree.v
theories/S_ValidTree.v
theories/S_Walk.v
