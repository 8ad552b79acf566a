-Q theories Verif
theories/Num.v
theories/NumOrd.v
theories/Heapq.v
theories/HeapqProofs.v
theories/Elements.v
theories/Simulator.v
theories/Networks.v
theories/CancelQueue.v
theories/QueueProofs.v
theories/CancelQueueProofs.v
theories/Trace.v
theories/SimTrace.v
theories/SimProps.v
theories/TraceProps.v
theories/SimRel.v
theories/NeuronLib.v
theories/NetLib.v
theories/MemoryProof.v
theories/Build.v
theories/BuildNets.v
theories/Bridge.v
theories/Session.v
theories/SimpleNets.v
theories/GeLib.v
theories/InvMem.v
theories/GfLib.v
theories/Misc.v
theories/FuncNets.v
theories/LnLib.v
theories/ExpLog.v
theories/SegLib.v
theories/SubNet.v
theories/SMem.v
theories/SyncNet.v
theories/ModTree.v
theories/Scalar.v
theories/ScalarProofs.v
theories/Compiler.v
theories/Refute.v
theories/CoreExtra.v
theories/PropsCore.v
theories/PredSim.v
theories/PredNeuron.v
theories/PredProofs.v
theories/PropsPred.v
theories/Report.v
theories/ReportProofs.v
theories/PropsReport.v
theories/Vis.v
theories/VisProofs.v
theories/PropsVis.v
theories/Restart.v
theories/MemReuse.v
theories/PropsNets.v
theories/PropsReuse.v
theories/CompilerProofs.v
theories/PropsCompiler.v
theories/LinComb.v
theories/LinRun.v
theories/PropsLin.v
theories/MulNet.v
theories/MulRun.v
theories/MulSpecial.v
theories/PropsMul.v
theories/SignMul.v
theories/SignRun.v
theories/SignProd.v
theories/PropsSign.v
theories/NormNet.v
theories/NormVal.v
theories/NormRun.v
theories/NormTop.v
theories/PropsNorm.v
theories/Script.v
theories/PropsScript.v
theories/E2EAdd.v
theories/E2ELib.v
theories/E2ENode.v
theories/E2ESpec.v
theories/E2ESound.v
theories/E2E.v
theories/PropsE2E.v
theories/DivNet.v
theories/DivMid.v
theories/DivRun.v
theories/DivVal.v
theories/PropsDiv.v
theories/AnySim.v
theories/F64.v
theories/F64Thms.v
theories/PropsAny.v
theories/Matmul.v
theories/PropsMatmul.v
theories/GTrace.v
theories/FNet.v
theories/FSession.v
theories/FConst.v
theories/FRamp.v
theories/FWacc.v
theories/FMem.v
theories/FIMem.v
theories/PropsF64Net.v
theories/FSub.v
theories/FSign.v
theories/PropsF64Net2.v
theories/Reuse.v
theories/Jobs.v
theories/Settle.v
theories/RestFun.v
theories/PropsRest.v
theories/PredRun.v
theories/PredNet.v
theories/PredMem.v
theories/PredMem2.v
theories/PredFun.v
theories/PropsPredNet.v
theories/PredGroup.v
theories/PredSub.v
theories/PredSimple.v
theories/PropsPredNet2.v
theories/PredSync.v
theories/PredLin.v
theories/PropsPredNet3.v
theories/Lib.v
theories/PropsLib.v
theories/PredMul.v
theories/PredMul2.v
theories/PredSMul.v
theories/PropsPredNet4.v
theories/PredDiv.v
theories/PredSMem.v
theories/PredSNorm.v
theories/PropsPredNet5.v
theories/SubReuse.v
theories/SyncReuse.v
theories/PropsReuse2.v
theories/LinReuse.v
theories/LinJobs.v
theories/PropsReuse3.v
theories/ConstReuse.v
theories/IMReuse.v
theories/PropsReuse4.v
theories/MulReuse.v
theories/PropsReuse5.v
theories/DivReuse.v
theories/PropsReuse6.v
theories/SignReuse.v
theories/SignJobs.v
theories/PropsReuse7.v
theories/NormReuse.v
theories/NormJobs.v
theories/PropsReuse8.v
theories/E2ERest.v
theories/E2EAgainSpec.v
theories/E2EQuiet.v
theories/E2EAgain.v
theories/PropsReuse9.v
theories/LogSync.v
theories/LogSyncRun.v
theories/PropsReuse10.v
theories/MemHist.v
theories/MemTwo.v
theories/MemSpur.v
theories/InvTwo.v
theories/InvN.v
theories/PropsReuse11.v
theories/PropsReuse12.v
