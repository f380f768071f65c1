-Q theories Verif
theories/Base.v
theories/ModelCurve.v
theories/SpecCurve.v
theories/ProofCurve.v
theories/PropCurve.v
theories/ModelSymp.v
theories/SpecSymp.v
theories/ProofSymp.v
theories/ProofSympRed.v
theories/ProofSympMain.v
theories/ProofSympRank.v
theories/ProofSympEx.v
theories/PropSymp.v
theories/ModelParse.v
theories/SpecParse.v
theories/ProofParse.v
theories/PropParse.v
theories/CBase.v
theories/ModelBasis.v
theories/SpecBasis.v
theories/ProofBasis.v
theories/ModelPeriod.v
theories/SpecPeriod.v
theories/ProofPeriod.v
theories/ProofPeriodMain.v
theories/PropBasis.v
theories/PropPeriod.v
theories/ModelTree.v
theories/SpecTree.v
theories/ProofTree.v
theories/ProofTreeMax.v
theories/ProofTreeEx.v
theories/PropTree.v
theories/ModelInter.v
theories/SpecInter.v
theories/ProofInter.v
theories/ProofInterMain.v
theories/PropInter.v
theories/CArg.v
theories/ModelEdge.v
theories/SpecEdge.v
theories/ProofEdge.v
theories/ProofAngle.v
theories/PropEdge.v
theories/ModelVec.v
theories/SpecVec.v
theories/ProofVec.v
theories/PropVec.v
theories/ModelQuad.v
theories/SpecQuad.v
theories/ProofQuad.v
theories/ProofGauss.v
theories/ProofTrap.v
theories/PropQuad.v
theories/ModelCache.v
theories/SpecCache.v
theories/ProofCache.v
theories/PropCache.v
theories/ModelCmp.v
theories/SpecCmp.v
theories/ProofCmp.v
theories/PropCmp.v
theories/ModelTau.v
theories/SpecTau.v
theories/ProofTau.v
theories/PropTau.v
theories/ModelPrint.v
theories/SpecPrint.v
theories/ProofPrint.v
theories/PropPrint.v
theories/ModelCli.v
theories/SpecCli.v
theories/ProofCli.v
theories/PropCli.v
theories/ModelStage.v
theories/SpecStage.v
theories/ProofStage.v
theories/PropStage.v
theories/ModelRes.v
theories/SpecRes.v
theories/ProofRes.v
theories/PropRes.v
theories/ModelTurn.v
theories/SpecTurn.v
theories/ProofTurn.v
theories/PropTurn.v
theories/ModelMag.v
theories/SpecMag.v
theories/ProofMag.v
theories/ModelMagRound.v
theories/SpecMagRound.v
theories/ProofMagRound.v
theories/ProofMagRound2.v
theories/PropMag.v
theories/ModelDe.v
theories/SpecDe.v
theories/ProofDe.v
theories/ProofDe2.v
theories/ProofDe3.v
theories/PropDe.v
theories/ModelGc.v
theories/SpecGc.v
theories/ProofGc.v
theories/ProofGc2.v
theories/PropGc.v
theories/ModelExtra.v
theories/SpecExtra.v
theories/ProofExtra.v
theories/PropExtra.v
theories/SpecErr.v
theories/ModelErr.v
theories/ProofErr1.v
theories/ProofErr2.v
theories/ProofErr3.v
theories/ProofErr4.v
theories/ProofErr5.v
theories/ProofErr6.v
theories/PropErr.v
theories/ProofLat1.v
theories/ProofLat2.v
theories/ProofLat3.v
theories/ProofLat4.v
theories/ProofLat5.v
theories/ProofLat6.v
theories/ProofLat7.v
theories/ProofLat8.v
theories/ProofLat9.v
theories/PropLat.v
theories/SpecHyp.v
theories/ProofHyp.v
theories/PropHyp.v
theories/ProofHol1.v
theories/ProofHol2.v
theories/ProofHol3.v
theories/ProofHol4.v
theories/ProofHol5.v
theories/ProofHol6.v
theories/ProofHol7.v
theories/ProofHol8.v
theories/ProofHol9.v
theories/ProofHol10.v
theories/ModelBall.v
theories/SpecBall.v
theories/ProofBall1.v
theories/ProofBall2.v
theories/ProofBall3.v
theories/ProofBall4.v
theories/ProofBall5.v
theories/ProofBall6.v
theories/ProofBall7.v
theories/ProofMid.v
theories/ProofMid2.v
theories/PropBall.v
theories/ModelBallGc.v
theories/SpecBallGc.v
theories/ProofBallGc.v
theories/ProofMid3.v
theories/PropBallGc.v
theories/ModelBallTau.v
theories/SpecBallTau.v
theories/ProofBallTau.v
theories/ProofMid4.v
theories/PropBallTau.v
theories/ModelDeq.v
theories/SpecDeq.v
theories/ProofHol11.v
theories/ProofDeq.v
theories/ProofDeq2.v
theories/SpecFree.v
theories/ProofFree.v
theories/ProofFree2.v
theories/ProofDeq3.v
theories/PropDeq.v
theories/ProofCompact.v
theories/ProofMaxmod.v
theories/ModelDeM2.v
theories/SpecDeM2.v
theories/ProofStrip.v
theories/ProofDeM2.v
theories/ProofDeM2b.v
theories/ProofDeM2c.v
theories/PropDeM2.v
theories/SpecCross.v
theories/ProofCross.v
theories/ProofCross2.v
theories/ProofCross3.v
theories/ProofCross4.v
theories/ProofCross5.v
theories/ProofFree3.v
theories/ProofCross6.v
theories/ProofCross7.v
theories/PropCross.v
theories/ProofGcLoop.v
theories/ProofGcLoop2.v
theories/ProofGcLoop3.v
theories/ProofGcLoop4.v
theories/PropGcLoop.v
theories/ModelRun.v
theories/SpecLead.v
theories/ProofLead.v
theories/ProofLead2.v
theories/PropLead.v
theories/PropLeadTau.v
theories/ModelOut.v
theories/SpecOut.v
theories/ProofOut.v
theories/ProofOut2.v
theories/ProofOut3.v
theories/PropOut.v
theories/ModelTwo.v
theories/SpecRiem.v
theories/ProofRiem1.v
theories/ProofRiem2.v
theories/ProofRiem3.v
theories/ProofRiem4.v
theories/ProofRiem5.v
theories/ProofRiem6.v
theories/PropRiem.v
theories/SpecGamma.v
theories/ProofBeta.v
theories/ProofGamma.v
theories/ProofTwo.v
theories/SpecTwo.v
theories/PropTwo.v
theories/ModelBallTwo.v
theories/SpecBallTwo.v
theories/ProofBallTwo.v
theories/PropBallTwo.v
theories/ModelMaSymp.v
theories/SpecMaSymp.v
theories/ProofMaSymp.v
theories/PropMaSymp.v
theories/ModelMaRoot.v
theories/SpecMaRoot.v
theories/ProofMaRoot.v
theories/ProofMaRoot2.v
theories/ProofMaRoot3.v
theories/PropMaRoot.v
theories/ModelMaTree.v
theories/SpecMaTree.v
theories/ProofMaTree.v
theories/ProofMaTree2.v
theories/ProofMaTree3.v
theories/ProofMaTree4.v
theories/ProofMaTree5.v
theories/PropMaTree.v
theories/ModelMaGroups.v
theories/SpecMaGroups.v
theories/ProofMaGroups.v
theories/PropMaGroups.v
theories/ModelMaInter.v
theories/SpecMaInter.v
theories/ProofMaInter.v
theories/ProofMaInter2.v
theories/ProofMaInter3.v
theories/ProofMaInter4.v
theories/PropMaInter.v
theories/ModelMaPath.v
theories/SpecMaPath.v
theories/ProofMaPath.v
theories/PropMaPath.v
theories/ModelMaDiff.v
theories/ProofMaDiff.v
theories/PropMaDiff.v
theories/ProofMaPU1.v
theories/ProofMaPU2.v
theories/ProofMaPU3.v
theories/ProofMaPU4.v
theories/ProofMaPU5.v
theories/PropMaPU.v
theories/ModelMaPoint.v
theories/SpecMaPoint.v
theories/ProofMaPoint.v
theories/PropMaPoint.v
theories/ModelMaDivisor.v
theories/SpecMaDivisor.v
theories/ProofMaDivisor.v
theories/PropMaDivisor.v
theories/ModelMaFactor.v
theories/SpecMaFactor.v
theories/ProofMaFactor.v
theories/ProofMaFactor2.v
theories/ProofMaFactor3.v
theories/PropMaFactor.v
theories/ModelMaSum.v
theories/SpecMaSum.v
theories/ProofMaSum.v
theories/ProofMaSum2.v
theories/ProofMaSum3.v
theories/ProofMaSum4.v
theories/PropMaSum.v
theories/ModelMaAjm.v
theories/SpecMaAjm.v
theories/ProofMaAjm.v
theories/ProofMaAjm2.v
theories/ProofMaAjm3.v
theories/PropMaAjm.v
theories/ModelMaPeriod.v
theories/SpecMaPeriod.v
theories/ProofMaPeriod.v
theories/ProofMaPeriod2.v
theories/ProofMaPeriod3.v
theories/ProofMaPeriod4.v
theories/ProofMaPeriod5.v
theories/ProofMaPeriod6.v
theories/PropMaPeriod.v
theories/ModelMaRam.v
theories/SpecMaRam.v
theories/ProofMaRam.v
theories/ProofMaRam2.v
theories/ProofMaRam3.v
theories/PropMaRam.v
theories/ModelMaInfty.v
theories/SpecMaInfty.v
theories/ProofMaInfty.v
theories/ProofMaInfty2.v
theories/ProofMaInfty3.v
theories/PropMaInfty.v
theories/ModelMaGood.v
theories/SpecMaGood.v
theories/ProofMaGood.v
theories/PropMaGood.v
theories/ModelGpSymp.v
theories/SpecGpSymp.v
theories/ProofGpSymp.v
theories/ProofGpSymp2.v
theories/ProofGpSymp3.v
theories/PropGpSymp.v
theories/ModelGpMum.v
theories/SpecGpMum.v
theories/ProofGpMum.v
theories/ProofGpMum2.v
theories/PropGpMum.v
theories/ModelGpTree.v
theories/SpecGpTree.v
theories/ProofGpTree.v
theories/PropGpTree.v
theories/ModelGpAJ.v
theories/SpecGpAJ.v
theories/ProofGpAJ.v
theories/PropGpAJ.v
theories/ModelGpGc.v
theories/ProofGpGc.v
theories/PropGpGc.v
theories/SpecGpDe.v
theories/ModelGpDe.v
theories/ProofGpDe.v
theories/PropGpDe.v
theories/SpecGpMoeb.v
theories/ModelGpMoeb.v
theories/ProofGpMoeb.v
theories/PropGpMoeb.v
theories/ModelGpMoeb2.v
theories/ProofGpMoeb2.v
theories/PropGpMoeb2.v
theories/ModelGpHc.v
theories/SpecGpHc.v
theories/ProofGpHc.v
theories/PropGpHc.v
