-Q theories Verif
theories/Res.v
theories/RSum.v
theories/Spec.v
theories/Info.v
theories/Info2.v
theories/Ord.v
theories/MBase.v
theories/MData.v
theories/MEntropy.v
theories/SpecBase.v
theories/PBase.v
theories/Gibbs.v
theories/PEntropy.v
theories/PropsEntropy.v
theories/MMI.v
theories/PCoo.v
theories/PMI.v
theories/PMI2.v
theories/PMI3.v
theories/PCMI.v
theories/PMI4.v
theories/PCMI2.v
theories/PMI5.v
theories/PMI6.v
theories/PropsMI.v
theories/SpecTE.v
theories/MTE.v
theories/PTE.v
theories/PTE2.v
theories/PropsTE.v
theories/MGeneric.v
theories/PGeneric.v
theories/PGeneric2.v
theories/PropsGeneric.v
theories/SpecGamma.v
theories/MEst.v
theories/SpecEst.v
theories/PLog.v
theories/PEst.v
theories/PEst2.v
theories/PEst3.v
theories/PEst4.v
theories/SpecInput.v
theories/PEst5.v
theories/PEst6.v
theories/PropsEst.v
theories/MObj.v
theories/SpecObj.v
theories/PObj.v
theories/PObj2.v
theories/PObj3.v
theories/PropsObj.v
theories/SpecOrd.v
theories/MOrd.v
theories/POrd.v
theories/POrd2.v
theories/POrd3.v
theories/PropsOrd.v
theories/SpecDiv.v
theories/MDiv.v
theories/PDiv.v
theories/PDiv2.v
theories/PropsDiv.v
theories/PropsDiv2.v
theories/MPct.v
theories/PropsPct.v
theories/MDisp.v
theories/SpecDisp.v
theories/PropsDisp.v
theories/MConf.v
theories/SpecConf.v
theories/SpecConf2.v
theories/PropsConf.v
theories/MCtor.v
theories/PropsDD.v
theories/MNorm.v
theories/PropsNorm.v
theories/MCont.v
theories/SpecKern.v
theories/MKern.v
theories/PKern.v
theories/PKern2.v
theories/PKern3.v
theories/PKern4.v
theories/SpecTEc.v
theories/PTEc.v
theories/PKern5.v
theories/PropsKern.v
theories/PropsKern2.v
theories/PropsKern3.v
theories/PropsKern4.v
theories/SpecGauss.v
theories/PropsKern5.v
theories/PropsKern6.v
theories/MKnn.v
theories/SpecKnn.v
theories/PKnn.v
theories/PKnn2.v
theories/PropsKnn.v
theories/PropsKnn2.v
theories/PropsKnn3.v
theories/SpecKnn2.v
theories/PKnn3.v
theories/PropsKnn4.v
theories/PropsKnn5.v
theories/PKnn4.v
theories/PropsKnn6.v
theories/PropsKnn7.v
theories/MFam.v
theories/SpecFam.v
theories/PFam.v
theories/PropsFam.v
theories/PropsFam2.v
theories/PropsFam3.v
theories/SpecNsb.v
theories/MNsb.v
theories/PNsb.v
theories/PNsb2.v
theories/PNsb3.v
theories/PNsb4.v
theories/PropsNsb.v
theories/MComb.v
theories/PropsComb.v
theories/SpecInv.v
theories/PropsInv.v
theories/PropsTE2.v
theories/SpecRepl.v
theories/PRepl.v
theories/PropsRepl.v
theories/SpecMvg.v
theories/MGauss.v
theories/PMvg.v
theories/PMvg2.v
theories/PMvg3.v
theories/PMvg4.v
theories/PMvg5.v
theories/PropsMvg.v
theories/PropsMvg2.v
theories/PropsMvg3.v
theories/SpecEff.v
theories/PropsEff.v
theories/MObjC.v
theories/SpecObjC.v
theories/PropsObjC.v
theories/MArgs.v
theories/PropsArgs.v
theories/SpecSub.v
theories/PSub.v
theories/PropsSub.v
theories/PropsNormC.v
theories/SpecWrap.v
theories/PWrap.v
theories/PropsWrap.v
theories/SpecUnits.v
theories/PUnits.v
theories/PropsUnits.v
theories/PropsUnits2.v
theories/PropsOrd2.v
theories/PropsOrd3.v
theories/PropsMvg4.v
theories/MDivD.v
theories/PropsDivD.v
theories/MKw.v
theories/SpecKw.v
theories/PKw.v
theories/PropsKw.v
theories/PropsTight.v
theories/PropsShift.v
theories/SpecCross.v
theories/PropsCross.v
theories/PWrapC.v
theories/PropsWrapC.v
theories/SpecStab.v
theories/PStab.v
theories/PropsStab.v
theories/PropsLen.v
theories/PropsLen2.v
theories/PropsLocal.v
theories/PropsLocal2.v
theories/PropsDup.v
theories/SpecPool.v
theories/PPool.v
theories/PropsPool.v
theories/SpecCoarse.v
theories/PCoarse.v
theories/PropsCoarse.v
theories/SpecPinsker.v
theories/PPinsker.v
theories/PropsPinsker.v
theories/SpecPredict.v
theories/PPredict.v
theories/PropsPredict.v
theories/MFloat.v
theories/SpecFloat.v
theories/PFloat.v
theories/PFloat2.v
theories/PropsFloat.v
theories/PropsObjF.v
theories/MFloat2.v
theories/PFloat3.v
theories/PFloat4.v
theories/PFloat5.v
theories/PFloat6.v
theories/PropsFloat2.v
theories/SpecLocal.v
theories/PLocal.v
theories/MOrdL.v
theories/PropsPoint.v
theories/PropsPoint2.v
theories/PropsPoint3.v
theories/MHeap.v
theories/SpecHeap.v
theories/PHeap.v
theories/PHeap2.v
theories/PHeap3.v
theories/PHeap4.v
theories/PHeap5.v
theories/PropsHeap.v
theories/PropsHeap2.v
theories/MWorld.v
theories/SpecWorld.v
theories/PWorld.v
theories/PropsWorld.v
theories/SpecBad.v
theories/PBad.v
theories/PBad2.v
theories/PropsBad.v
theories/SpecRescale.v
theories/PRescale.v
theories/PRescale2.v
theories/PropsRescale.v
theories/PropsMore.v
theories/PropsCounts.v
theories/PropsProc.v
theories/PropsReject.v
theories/PropsInv2.v
theories/PropsSub2.v
theories/PropsNormC2.v
theories/PropsShift2.v
theories/PropsRows.v
theories/SpecOrder.v
theories/PGamma.v
theories/PWallis.v
theories/PGamma2.v
theories/POrder.v
theories/PropsOrder.v
theories/PropsMono.v
theories/SpecPert.v
theories/PPert.v
theories/PPert2.v
theories/PPert3.v
theories/PropsPert.v
theories/PropsPert2.v
theories/PropsPert3.v
theories/PropsPert4.v
theories/PropsPert5.v
theories/SpecPertK.v
theories/PPertK.v
theories/PropsPertK.v
theories/PropsPertK2.v
theories/PropsPert6.v
theories/SpecCons.v
theories/PCons.v
theories/PropsCons.v
theories/SpecName.v
theories/PropsPrior.v
theories/SpecSep.v
theories/PropsSep.v
theories/SpecDens.v
theories/PropsDens.v
theories/MFloat3.v
theories/SpecFloat2.v
theories/PFloat7.v
theories/PropsFloat3.v
theories/SpecCons2.v
theories/PropsCons2.v
theories/SpecNeg.v
theories/PNeg.v
theories/PropsNeg.v
theories/PropsDisp2.v
theories/SpecMetric.v
theories/PropsMetric.v
theories/SpecHan.v
theories/PropsHan.v
theories/PropsPoolK.v
theories/PropsCoinfo.v
theories/PropsStabJ.v
theories/PropsStabC.v
theories/PropsStabO.v
theories/PropsStabO2.v
theories/PropsStabO3.v
