-Q theories Verif
theories/Num.v
theories/Py.v
theories/Arr.v
theories/MLayout.v
theories/MAssign.v
theories/MNoise.v
theories/MSparse.v
theories/MFactor.v
theories/MGraph.v
theories/MLinear.v
theories/MSolver.v
theories/MCov.v
theories/MLie.v
theories/MG2o.v
theories/MMisc.v
theories/NumR.v
theories/NumF32.v
theories/NumB32.v
theories/PBase.v
theories/SpecLayout.v
theories/PLayout.v
theories/SpecTree.v
theories/PTree.v
theories/SpecAssign.v
theories/PAssign.v
theories/PAssign2.v
theories/PAssign3.v
theories/SpecGraph.v
theories/PStack.v
theories/PGraph.v
theories/PGraph2.v
theories/PJac.v
theories/PVec.v
theories/SpecSparse.v
theories/PSparse.v
theories/PLinear.v
theories/PCg.v
theories/PFin.v
theories/PCgConv.v
theories/PCgNan.v
theories/PGraph3.v
theories/PGraph4.v
theories/PGraph5.v
theories/SpecDeriv.v
theories/PDeriv.v
theories/Ex.v
theories/PExAssign.v
theories/ExG.v
theories/PExGraph.v
theories/PExSparse.v
theories/PropLayout.v
theories/PropAssign.v
theories/PropGraph.v
theories/PropSparse.v
theories/SpecSolver.v
theories/PSolver.v
theories/PSolver2.v
theories/PSolverR.v
theories/PSolverX.v
theories/ExS.v
theories/PExSolver.v
theories/PStop.v
theories/PExStop.v
theories/PropSolver.v
theories/SpecMisc.v
theories/PMisc.v
theories/PropMisc.v
theories/SpecNoise.v
theories/PSum.v
theories/PNoise.v
theories/PExNoise.v
theories/PropNoise.v
theories/SpecCov.v
theories/PTri.v
theories/PCov.v
theories/PCov2.v
theories/PExCov.v
theories/PropCov.v
theories/SpecG2o.v
theories/PG2o.v
theories/PExG2o.v
theories/PropG2o.v
theories/SpecLie.v
theories/PLie.v
theories/PExLie.v
theories/PropLie.v
theories/PLayout2.v
theories/SpecOrder.v
theories/SpecInv.v
theories/PHold.v
theories/POrder.v
theories/POrder2.v
theories/POrder3.v
theories/PExOrder.v
theories/PropOrder.v
theories/PInv.v
theories/PTotal.v
theories/MPose.v
theories/SpecPose.v
theories/PPose.v
theories/PExInv.v
theories/PropInv.v
theories/SpecSym.v
theories/PSym.v
theories/SpecFrame.v
theories/PFrame.v
theories/PExSym.v
theories/PropSym.v
theories/MAuto.v
theories/SpecAuto.v
theories/PAuto.v
theories/PAutoR.v
theories/PExAuto.v
theories/PropAuto.v
theories/SpecLin.v
theories/PLin.v
theories/PExLin.v
theories/PLinDl.v
theories/PExLinDl.v
theories/PropLin.v
theories/SpecCgLin.v
theories/PLinCg.v
theories/PExLinCg.v
theories/PropLinCg.v
theories/SpecNan.v
theories/PNan.v
theories/PExNan.v
theories/PropNan.v
theories/SpecB32.v
theories/PB32.v
theories/PB32S.v
theories/PExB32.v
theories/PInf.v
theories/PropB32.v
theories/PropInf.v
theories/SpecZero.v
theories/PZero.v
theories/SpecSpatial.v
theories/PJacZero.v
theories/PSpatial.v
theories/PSpatial2.v
theories/PSpatial3.v
theories/PSpatial4.v
theories/PExSpatial.v
theories/PropSpatial.v
theories/PExZero.v
theories/PropZero.v
theories/SpecLoss.v
theories/PLoss.v
theories/PExLoss.v
theories/PropLoss.v
theories/MScript.v
theories/SpecScript.v
theories/PScript.v
theories/PExScript.v
theories/PropScript.v
theories/SpecInfo.v
theories/PInfo.v
theories/PExInfo.v
theories/PropInfo.v
theories/SpecSum.v
theories/PSumTree.v
theories/PExSum.v
theories/PropSum.v
theories/SpecPart.v
theories/PPart.v
theories/PPart2.v
theories/PPartCg.v
theories/PExPart.v
theories/PExPartCg.v
theories/PropPart.v
theories/SpecDescent.v
theories/PDescent.v
theories/PExDescent.v
theories/PropDescent.v
theories/SpecLocal.v
theories/PLocal.v
theories/PExLocal.v
theories/PropLocal.v
theories/SpecTwin.v
theories/PTwin.v
theories/PTwin2.v
theories/PExTwin.v
theories/PropTwin.v
theories/MJit.v
theories/SpecJit.v
theories/PJit.v
theories/PJit2.v
theories/PExJit.v
theories/PropJit.v
theories/SpecResume.v
theories/PResume.v
theories/PExResume.v
theories/PropResume.v
theories/SpecBook.v
theories/PBook.v
theories/PExBook.v
theories/PropBook.v
theories/SpecOutlier.v
theories/POutlier.v
theories/POutlier2.v
theories/PExOutlier.v
theories/PropOutlier.v
theories/SpecStraight.v
theories/PStraight.v
theories/PExStraight.v
theories/PropStraight.v
theories/SpecTurn.v
theories/PTurn.v
theories/PExTurn.v
theories/PropTurn.v
theories/MDual.v
theories/SpecDual.v
theories/PDual.v
theories/PDual2.v
theories/PExDual.v
theories/PropDual.v
theories/SpecNear.v
theories/PNear.v
theories/PFree.v
theories/PExNear.v
theories/PropNear.v
theories/SpecBasin.v
theories/PBasin.v
theories/PBasin2.v
theories/PBasin3.v
theories/PBasin4.v
theories/PBasin5.v
theories/PBasin6.v
theories/PBasin7.v
theories/PBasin8.v
theories/PBasin9.v
theories/PBasin10.v
theories/PBasin11.v
theories/PBasin12.v
theories/PExBasin.v
theories/PropBasin.v
theories/SpecSettle.v
theories/PSettle1.v
theories/PSettle2.v
theories/PSettle3.v
theories/PSettle4.v
theories/PSettle5.v
theories/PSettle6.v
theories/PSettle7.v
theories/PSettle8.v
theories/PSettle9.v
theories/PExSettle.v
theories/PropSettle.v
theories/SpecMean.v
theories/PMean1.v
theories/PMean2.v
theories/PMean3.v
theories/PMean4.v
theories/PExMean.v
theories/PropMean.v
theories/MLog.v
theories/SpecLog.v
theories/PLog.v
theories/PExLog.v
theories/PropLog.v
theories/MHand.v
theories/SpecHand.v
theories/PHand.v
theories/PExHand.v
theories/PropHand.v
theories/MUtils.v
theories/SpecUtils.v
theories/PUtils.v
theories/PExUtils.v
theories/PropUtils.v
theories/SpecNoisy.v
theories/PNoisy.v
theories/PNoisy2.v
theories/PNoisy3.v
theories/PExNoisy.v
theories/PropNoisy.v
theories/SpecRatio.v
theories/PRatio.v
theories/PRatio2.v
theories/PExRatio.v
theories/PropRatio.v
theories/SpecTrCg.v
theories/PLinTr.v
theories/PExLinTr.v
theories/PropLinTr.v
theories/PExSuper.v
theories/PropSuper.v
theories/SpecHalt.v
theories/PHalt.v
theories/PExHalt.v
theories/PropHalt.v
theories/SpecRobust.v
theories/PRobust.v
theories/PRobust2.v
theories/PRobust3.v
theories/PRobust4.v
theories/PRobust5.v
theories/PExRobust.v
theories/PropRobust.v
theories/PRobust6.v
theories/PRobust7.v
theories/PExFit.v
theories/PropFit.v
theories/SpecSmooth.v
theories/PSmooth.v
theories/PSmooth2.v
theories/PSmooth3.v
theories/PExSmooth.v
theories/PropSmooth.v
theories/SpecTrust.v
theories/PSmooth4.v
theories/PTrust.v
theories/PTrust2.v
theories/PExTrust.v
theories/PropTrust.v
theories/SpecFinish.v
theories/PFinish.v
theories/PFinish2.v
theories/PExFinish.v
theories/PropFinish.v
theories/SpecPoseStop.v
theories/PPoseStop.v
theories/PPoseStop2.v
theories/PExPoseStop.v
theories/PropPoseStop.v
theories/SpecGauge.v
theories/PGauge.v
theories/PGauge2.v
theories/PGauge3.v
theories/PGauge4.v
theories/PExGauge.v
theories/PropGauge.v
theories/SpecLoose.v
theories/PLoose.v
theories/PLoose2.v
theories/PLoose3.v
theories/PExLoose.v
theories/PropLoose.v
theories/SpecDrift.v
theories/PDrift.v
theories/PDrift2.v
theories/PDrift3.v
theories/PExDrift.v
theories/PropDrift.v
theories/SpecQuit.v
theories/PQuit.v
theories/PQuit2.v
theories/PExQuit.v
theories/PropQuit.v
theories/SpecRecover.v
theories/PRecover.v
theories/PRecover2.v
theories/PExRecover.v
theories/PropRecover.v
theories/PRebound.v
theories/PRebound2.v
theories/PExRebound.v
theories/PropRebound.v
theories/SpecFall.v
theories/PFall.v
theories/PExFall.v
theories/PropFall.v
theories/SpecPull.v
theories/PPull.v
theories/PExPull.v
theories/PropPull.v
theories/SpecGate.v
theories/PExGate.v
theories/PropGate.v
