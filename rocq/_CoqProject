-Q theories Verif
theories/Num.v
theories/Py.v
theories/MConfig.v
theories/MHelpers.v
theories/MGrid.v
theories/MSpots.v
theories/MFaculae.v
theories/MXoflares.v
theories/MFlares.v
theories/MGranules.v
theories/MStar.v
theories/MPlot.v
theories/MWarn.v
theories/MUnits.v
theories/MSingle.v
theories/MFormat.v
theories/MLabel.v
theories/SpecUnits.v
theories/LUnits.v
theories/LUnitSame.v
theories/LUnitEval.v
theories/LUnitFac.v
theories/LUnitFlare.v
theories/LUnitBad.v
theories/MHeap.v
theories/LBase.v
theories/Spec.v
theories/LGrid.v
theories/LHelpers.v
theories/LCirc.v
theories/LCircErr.v
theories/SpecStar.v
theories/SpecFlare.v
theories/SpecReach.v
theories/LSpotAge.v
theories/LSpotMap.v
theories/LSpotCov.v
theories/LQuad.v
theories/LSpotGen.v
theories/LFac.v
theories/LNew.v
theories/LFlare.v
theories/LFlareGen.v
theories/LFlareAcc.v
theories/LGran.v
theories/LKern.v
theories/PropsGrid.v
theories/PropsHelpers.v
theories/PropsSpots.v
theories/PropsSpotGen.v
theories/PropsFac.v
theories/PropsFlare.v
theories/PropsGran.v
theories/SpecDisk.v
theories/SpecFrame.v
theories/SpecHeap.v
theories/SpecSym.v
theories/SpecConv.v
theories/SpecSim.v
theories/SpecDepth.v
theories/SpecWarn.v
theories/LStar.v
theories/LEclipse.v
theories/LDisk.v
theories/LStarFac.v
theories/LFrame.v
theories/LGauss.v
theories/LTransit.v
theories/LStarCov.v
theories/LCovered.v
theories/LPlot.v
theories/LObserve.v
theories/LHeap.v
theories/LSym.v
theories/SpecSingle.v
theories/LSingle.v
theories/LSingleRep.v
theories/LSingleEx.v
theories/LSphere.v
theories/LConv.v
theories/LSpiral.v
theories/LRes.v
theories/LPack.v
theories/LShow.v
theories/LZonal.v
theories/LCap.v
theories/LSpotDisk.v
theories/LSim.v
theories/LRot.v
theories/LDisc.v
theories/LTurn.v
theories/LLens.v
theories/LLight.v
theories/LDepth.v
theories/SpecSource.v
theories/LSource.v
theories/SpecFar.v
theories/LFar.v
theories/SpecText.v
theories/LText.v
theories/SpecLabel.v
theories/LLabel.v
theories/LWarn.v
theories/LMono.v
theories/SpecHist.v
theories/LHist.v
theories/SpecFlux.v
theories/LFlux.v
theories/SpecKinds.v
theories/LKinds.v
theories/SpecCaps.v
theories/LFacDisk.v
theories/PropsStar.v
theories/PropsMore.v
theories/PropsHeap.v
theories/PropsSym.v
theories/PropsConv.v
theories/PropsSim.v
theories/PropsDepth.v
theories/PropsWarn.v
theories/PropsMono.v
theories/PropsCaps.v
theories/PropsLight.v
theories/SpecBal.v
theories/LBal.v
theories/PropsBal.v
theories/SpecAge.v
theories/LAge.v
theories/LMature.v
theories/PropsAge.v
theories/PropsUnits.v
theories/PropsRes.v
theories/PropsSingle.v
theories/PropsSource.v
theories/PropsFar.v
theories/SpecReport.v
theories/LReport.v
theories/PropsText.v
theories/PropsLabel.v
theories/PropsReport.v
theories/MDouble.v
theories/SpecDouble.v
theories/LDouble.v
theories/LDoubleSum.v
theories/LDoubleRep.v
theories/LDoubleMain.v
theories/LDoubleOrd.v
theories/PropsDouble.v
theories/MArgs.v
theories/SpecArgs.v
theories/LArgs.v
theories/PropsArgs.v
theories/MRng.v
theories/SpecRng.v
theories/LRng.v
theories/LRngRun.v
theories/LRngMore.v
theories/LRngGran.v
theories/PropsRng.v
theories/PropsEclipse.v
theories/SpecLive.v
theories/LLive.v
theories/PropsLive.v
theories/SpecFlareRun.v
theories/LFlareRun.v
theories/PropsFlareRun.v
theories/MArea.v
theories/LArea.v
theories/SpecScale.v
theories/LScale.v
theories/PropsArea.v
theories/PropsScale.v
theories/SpecRotate.v
theories/LRotate.v
theories/SpecOrder.v
theories/LOrder.v
theories/SpecClock.v
theories/LClock.v
theories/MCosine.v
theories/SpecCosine.v
theories/LCosine.v
theories/PropsCosine.v
theories/SpecNearby.v
theories/LNearby.v
theories/MAge64.v
theories/SpecAge64.v
theories/LAge64.v
theories/PropsNearby.v
theories/PropsAge64.v
theories/SpecSpot64.v
theories/LSpot64.v
theories/PropsSpot64.v
theories/MMake.v
theories/SpecMake.v
theories/LMake.v
theories/PropsMake.v
theories/PropsRotate.v
theories/PropsOrder.v
theories/PropsClock.v
theories/TestHelpers.v
theories/TestSpots.v
theories/TestFac.v
theories/TestStar.v
theories/MClean64.v
theories/SpecClean64.v
theories/LClean64.v
theories/PropsClean64.v
theories/MSpotClean64.v
theories/SpecSpotClean64.v
theories/LSpotGone64.v
theories/LSpotClean64.v
theories/PropsSpotClean64.v
