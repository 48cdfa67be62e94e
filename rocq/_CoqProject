-Q theories Verif
theories/Cplx.v
theories/Mat2.v
theories/NSet.v
theories/QState.v
theories/Fundamentals.v
theories/CliffordDb.v
theories/Clifford.v
theories/Measure.v
theories/Pattern.v
theories/Layer.v
theories/Standardize.v
theories/PropStd.v
theories/PropCliff.v
theories/Shift.v
theories/PropShift.v
theories/Cleanup.v
theories/PropCleanup.v
theories/Param.v
theories/PropParam.v
theories/NodeIndex.v
theories/PropIndex.v
theories/Statevec.v
theories/PropStatevec.v
theories/Simulator.v
theories/PropSim.v
theories/Density.v
theories/PropChannel.v
theories/Circuit.v
theories/Swaps.v
theories/PropCircuit.v
theories/FlowSem.v
theories/FlowDet.v
theories/OpenGraph.v
theories/FlowSpec.v
theories/Flow.v
theories/FlowWF.v
theories/FlowPat.v
theories/OGMap.v
theories/PropFlow.v
theories/TopGen.v
theories/Corr.v
theories/PropOrder.v
theories/CFlow.v
theories/PropFind.v
theories/Linalg.v
theories/LinalgThm.v
theories/PropLinalg.v
theories/GPFlow.v
theories/GPLin.v
theories/GPAlg.v
theories/GPLoop.v
theories/GPMat.v
theories/GPGraph.v
theories/Focus.v
theories/GPThm.v
theories/PropGPFlow.v
theories/Space.v
theories/SpaceMin.v
theories/SpaceHeur.v
theories/PropSpace.v
theories/Transpile.v
theories/TranspileFlow.v
theories/TranspilePat.v
theories/PropTranspile.v
theories/Extract.v
theories/PropExtract.v
theories/Recon.v
theories/PropRecon.v

theories/Compose.v
theories/PropCompose.v
theories/PropAngle.v
theories/PropRewrite.v
theories/Noise.v
theories/PropNoise.v
theories/DMSim.v
theories/DMRun.v
theories/PropDM.v
theories/Reindex.v
theories/PropReindex.v
theories/PauliStr.v
theories/PauliOp.v
theories/Berg.v
theories/Ladder.v
theories/PropCircExt.v
theories/Push.v
theories/PropPush.v
theories/GState.v
theories/GraphSim.v
theories/GraphSimThm.v
theories/PropGraphSim.v
theories/RemovePauli.v
theories/RemovePauliThm.v
theories/RemovePauliSem.v
theories/RunBranch.v
theories/RemovePauliFin.v
theories/PropRemovePauli.v
theories/LCFree.v
theories/PropLCFree.v
theories/FlowCirc.v
theories/FlowCircSem.v
theories/FlowCircStr.v
theories/FlowCircLoad.v
theories/FlowCircMap.v
theories/FlowCircExt.v
theories/FlowCircFin.v
theories/PropFlowCirc.v
theories/Qasm.v
theories/QasmThm.v
theories/QasmCirc.v
theories/PropQasm.v
theories/TensorNet.v
theories/TensorThm.v
theories/TensorGraph.v
theories/TensorRun.v
theories/PropTensor.v
theories/Fusion.v
theories/FusionThm.v
theories/PropFusion.v
theories/CircSim.v
theories/PropCircSim.v
theories/Inspect.v
theories/PropInspect.v
theories/RandObj.v
theories/PropRandom.v
theories/Pretty.v
theories/PrettySpec.v
theories/PropPretty.v
theories/PropPrettySt.v
theories/PropPrettyRef.v
theories/PrettyPat.v
theories/PrettyPatThm.v
theories/PrettyPatCmd.v
theories/PrettyPatFlow.v
theories/PropPrettyPat.v
theories/Draw.v
theories/DrawThm.v
theories/DrawGeo.v
theories/PropDraw.v
theories/Visit.v
theories/PropVisit.v
theories/PropBloch.v
theories/PropPatInfo.v
theories/PropOGEq.v
theories/PropKraus.v
theories/PropMem.v
