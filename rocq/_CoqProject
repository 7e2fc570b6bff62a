-Q theories Verif
theories/Scalar.v
theories/ScalarR.v
theories/Sums.v
theories/Mat.v
theories/Builder.v
theories/BuilderEnt.v
theories/BuilderRows.v
theories/Slice.v
theories/Csc.v
theories/CscProof.v
theories/LMPC.v
theories/SpecLMPC.v
theories/SpecQP.v
theories/LMPCRef.v
theories/LQP.v
theories/LOk.v
theories/LSeq.v
theories/LDet.v
theories/LRows.v
theories/Wit.v
theories/PropLMPC1.v
theories/LRows2.v
theories/PropLMPC2.v
theories/PropLMPC3.v
theories/LMem.v
theories/NLMap.v
theories/NLTraj.v
theories/NLFun.v
theories/SpecNL.v
theories/NLLoop.v
theories/NLGrad.v
theories/NLEval.v
theories/NLDyn.v
theories/NLSlope.v
theories/NLSlope2.v
theories/NLAcc.v
theories/NLDynSlope.v
theories/NLMPC.v
theories/SpecNLC.v
theories/NLRef.v
theories/NLRun.v
theories/SpecNLP.v
theories/NLCall.v
theories/NLObs.v
theories/NLShape.v
theories/WitNL.v
theories/PropNL1.v
theories/PropNL2.v
theories/PropNL3.v
theories/PropNL4.v
theories/PropNL5.v
theories/Dim.v
theories/Profiler.v
theories/Logger.v
theories/Integrator.v
theories/Discretize.v
theories/SpecNLO.v
theories/PropNL6.v
theories/LUniq.v
theories/PropLMPC4.v
theories/SpecCert.v
theories/LCert.v
theories/LRowsE.v
theories/PropLMPC5.v
theories/World.v
theories/SpecWorld.v
theories/PropWorld.v
theories/PropWorld2.v
theories/PropWorld3.v
theories/PropWorld4.v
theories/PropWorld5.v
theories/PropTol.v
theories/SpecMeta.v
theories/PropMeta.v
theories/Double.v
theories/PropDouble.v
theories/SpecExact.v
theories/Exact.v
theories/PropDouble2.v
theories/SpecTwin.v
theories/PropTwin.v
theories/PyBind.v
theories/SpecPy.v
theories/PropPy.v
theories/PropPy2.v
theories/PropHor.v
theories/NLExc.v
theories/SpecExc.v
theories/PropExc.v
theories/PropExc2.v
theories/RepoTests.v
theories/NLTrace.v
theories/SpecTrace.v
theories/NLTraceEnt.v
theories/NLTraceSame.v
theories/PropTrace.v
theories/DoubleR.v
theories/DoubleStep.v
theories/SpecDrift.v
theories/NLDrift.v
theories/NLDrift2.v
theories/PropDrift.v
theories/PropDrift2.v
theories/NLBuf.v
theories/SpecBuf.v
theories/PropBuf.v
theories/PropBuf2.v
theories/SpecLoop.v
theories/PropLoop.v
theories/SpecNLoop.v
theories/PropNLoop.v
theories/PropCount.v
theories/PropPrint.v
theories/SpecNLMeta.v
theories/SpecManual.v
theories/SpecCoord.v
theories/PropNLMeta.v
theories/PropManual.v
theories/PropCoord.v
theories/PropConvex.v
theories/PropEnv.v
theories/SpecStab.v
theories/PropStab.v
theories/PropStab2.v
theories/SpecNLStab.v
theories/PropNLStab.v
theories/PropNLStab2.v
theories/Examples.v
theories/SpecExamples.v
theories/PropExamples.v
theories/PropExamples2.v
theories/PropExamples3.v
theories/ExampleQuad.v
theories/PropExamples4.v
theories/PropExamples5.v
theories/SpecTail.v
theories/PropTail.v
theories/SpecHorizon.v
theories/PropHorizon.v
theories/SpecTune.v
theories/PropTune.v
theories/SpecSlack.v
theories/PropSlack.v
