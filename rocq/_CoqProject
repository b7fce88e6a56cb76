-Q theories Verif
theories/Vec.v
theories/VecFacts.v
theories/ModelMip.v
theories/SpecMip.v
theories/ModelUtils.v
theories/ModelGrad.v
theories/SpecCore.v
theories/SpecUtils.v
theories/ProofUtils.v
theories/ProofMaxBox.v
theories/ProofGrad.v
theories/ProofMip.v
theories/ProofSat.v
theories/ProofConcat.v
theories/ProofTorch.v
theories/ModelMilp.v
theories/SpecMilp.v
theories/ProofMilp.v
theories/ModelNet.v
theories/SpecNet.v
theories/ProofBounds.v
theories/ProofNet.v
theories/ProofNetBounds.v
theories/ProofNetTotal.v
theories/ProofRelaxed.v
theories/ProofWarm.v
theories/PropEncodings.v
theories/PropMip.v
theories/PropNetwork.v
theories/ModelPattern.v
theories/SpecPattern.v
theories/ProofPattern.v
theories/ProofGradVec.v
theories/ModelStrengthen.v
theories/SpecStrengthen.v
theories/ProofStrengthen.v
theories/PropPattern.v
theories/SpecStep.v
theories/ProofStep.v
theories/ModelLyapunov.v
theories/SpecLyapunov.v
theories/ProofNetStep.v
theories/ProofLyapunov.v
theories/ProofLyapCert.v
theories/ProofLyapMore.v
theories/ProofLyapStrengthen.v
theories/ProofLoss.v
theories/ModelHybrid.v
theories/SpecHybrid.v
theories/ProofHybrid.v
theories/ProofHybrid2.v
theories/ProofHybridMisc.v
theories/SpecRoa.v
theories/ProofRoa.v
theories/ModelExamples.v
theories/ProofExamples.v
theories/ProofLyapFinal.v
theories/PropSystems.v
theories/PropLyapunov.v
theories/ModelSystems.v
theories/SpecSystems.v
theories/ProofSatStep.v
theories/ProofSystems.v
theories/ProofSystems2.v
theories/ProofFeedback.v
theories/ProofAttain.v
theories/ProofDynamics.v
theories/PropDynamics.v
theories/ModelBarrier.v
theories/SpecBarrier.v
theories/ProofBarrier.v
theories/ProofBarrierEx.v
theories/PropBarrier.v
theories/ModelROptions.v
theories/SpecROptions.v
theories/ProofROptions.v
theories/ProofROptionsEx.v
theories/PropROptions.v
theories/ModelOptim.v
theories/SpecOptim.v
theories/ProofOptim.v
theories/ProofOptim2.v
theories/PropOptim.v
theories/ModelTrain.v
theories/SpecTrain.v
theories/SpecTrainCert.v
theories/ProofTrain.v
theories/ProofTrainLoop.v
theories/ProofTrainEx.v
theories/PropTrain.v
theories/ModelParams.v
theories/SpecParams.v
theories/ProofParams.v
theories/PropParams.v
theories/ModelSampling.v
theories/SpecSampling.v
theories/ProofSampling.v
theories/PropSampling.v
theories/ModelMisc.v
theories/SpecMisc.v
theories/ProofMisc.v
theories/PropMisc.v
theories/SpecExt.v
theories/ModelValueIter.v
theories/SpecValueIter.v
theories/ProofValueIter.v
theories/PropValueIter.v
theories/ModelRrt.v
theories/SpecRrt.v
theories/ProofRrt.v
theories/ProofRrt2.v
theories/ProofRrtEx.v
theories/PropRrt.v
theories/ModelSlip.v
theories/SpecSlip.v
theories/ProofSlip.v
theories/ProofSlipChain.v
theories/ProofSlipEx.v
theories/PropSlip.v
theories/ModelPwl.v
theories/SpecPwl.v
theories/ProofPwl.v
theories/ProofPwlEx.v
theories/PropPwl.v
theories/ModelAffine.v
theories/SpecAffine.v
theories/ProofAffine.v
theories/PropAffine.v
theories/ModelContinuous.v
theories/SpecContinuous.v
theories/ProofContinuous.v
theories/ProofContinuous2.v
theories/ProofContinuous3.v
theories/ProofContinuous4.v
theories/ProofContinuous5.v
theories/ProofContinuous6.v
theories/ModelContExamples.v
theories/ProofContExamples.v
theories/PropContinuous.v
theories/ModelContHybrid.v
theories/SpecContHybrid.v
theories/ProofContHybrid.v
theories/ProofContHybrid2.v
theories/ProofContHybrid3.v
theories/ProofContHybrid4.v
theories/ProofContHybrid5.v
theories/ProofContHybrid6.v
theories/ProofContHybrid7.v
theories/ProofContHybrid8.v
theories/PropContHybrid.v
theories/ModelFeedbackCuts.v
theories/ModelExamples2.v
theories/SpecFeedbackCuts.v
theories/ProofFeedbackCuts.v
theories/ProofCutsTotal.v
theories/ProofExamples2.v
theories/PropCuts.v
theories/ModelExSystems.v
theories/SpecExSystems.v
theories/ModelExamplesEx.v
theories/ProofExSystems.v
theories/ProofExSystems2.v
theories/ProofExSystems3.v
theories/PropExSystems.v
theories/ModelUniFeedback.v
theories/SpecUniFeedback.v
theories/ModelExamplesUni.v
theories/ProofUniFeedback.v
theories/ProofUniFeedback2.v
theories/ProofUniFeedback3.v
theories/PropUniFeedback.v
theories/ProofRoaBoundary.v
theories/SpecRoaFlow.v
theories/ProofRoaFlow.v
theories/ProofRoaFlow2.v
theories/PropRoaFlow.v
theories/ModelPlants.v
theories/SpecPlants.v
theories/ProofPlants.v
theories/ProofPlants2.v
theories/ProofPlants3.v
theories/ProofPlants4.v
theories/ProofPlants5.v
theories/ProofPlants6.v
theories/ProofLinSolve.v
theories/ProofCars.v
theories/PropPlants.v
theories/ModelContSys.v
theories/SpecContSys.v
theories/ProofContSys.v
theories/ProofContSys2.v
theories/ModelContSysEx.v
theories/ProofContSys3.v
theories/PropContSys.v
theories/ModelPoly.v
theories/SpecPoly.v
theories/ProofPoly.v
theories/ProofPoly2.v
theories/ProofPoly3.v
theories/ProofPoly4.v
theories/ModelPolyEx.v
theories/ProofPolyEx.v
theories/PropPoly.v
theories/ModelOptBounds.v
theories/SpecOptBounds.v
theories/ProofOptBounds.v
theories/ProofOptBounds2.v
theories/ProofOptBounds3.v
theories/ProofOptBounds4.v
theories/ProofOptBounds5.v
theories/ModelOptBoundsEx.v
theories/ProofOptBounds6.v
theories/PropOptBounds.v
theories/SpecDerivList.v
theories/ModelDerivList.v
theories/ProofDerivList.v
theories/ProofDerivList2.v
theories/ProofDerivList3.v
theories/ProofDerivList4.v
theories/ProofDerivList5.v
theories/ProofDerivListEx.v
theories/PropDerivList.v
theories/ModelDynLearn.v
theories/SpecDynLearn.v
theories/ProofDynLearn.v
theories/ProofDynLearn2.v
theories/ProofDynLearnEx.v
theories/PropDynLearn.v
theories/ModelLatent.v
theories/SpecLatent.v
theories/ProofLatent.v
theories/ProofLatent2.v
theories/ProofLatent3.v
theories/PropLatent.v
theories/ModelDynTrain.v
theories/SpecDynTrain.v
theories/ProofDynTrain.v
theories/ProofDynTrain2.v
theories/ProofDynTrain3.v
theories/PropDynTrain.v
theories/ModelImage.v
theories/SpecImage.v
theories/ProofImage.v
theories/ProofImage2.v
theories/ProofImage3.v
theories/ProofImage4.v
theories/PropImage.v
theories/ModelQuadLoop.v
theories/SpecQuadLoop.v
theories/ModelExamplesQuad.v
theories/ProofQuadLoop.v
theories/ProofQuadLoop2.v
theories/ProofQuadLoop3.v
theories/ProofQuadLoop4.v
theories/ProofQuadLoop5.v
theories/PropQuadLoop.v
theories/ModelSlipHybrid.v
theories/SpecSlipHybrid.v
theories/ProofSlipHybrid.v
theories/ProofSlipHybrid2.v
theories/PropSlipHybrid.v
theories/SpecSlipSim.v
theories/ProofSlipSim.v
theories/ProofSlipSim2.v
theories/PropSlipSim.v
theories/ModelTd3.v
theories/SpecTd3.v
theories/ProofTd3.v
theories/ProofTd3b.v
theories/ProofTd3c.v
theories/ProofTd3Ex.v
theories/PropTd3.v
theories/PropTd3Learn.v
theories/ModelMiqp.v
theories/SpecMiqp.v
theories/ProofMiqp.v
theories/ProofMiqp2.v
theories/PropMiqp.v
theories/ModelAdam.v
theories/SpecAdam.v
theories/ProofAdam.v
theories/ProofAdam2.v
theories/PropAdam.v
theories/ModelCostToGo.v
theories/SpecCostToGo.v
theories/ProofCostToGo.v
theories/ProofCostToGoEx.v
theories/PropCostToGo.v
theories/ModelQuadEnv.v
theories/SpecQuadEnv.v
theories/ProofQuadEnv.v
theories/PropQuadEnv.v
theories/ModelValueBound.v
theories/SpecValueBound.v
theories/ProofValueBound.v
theories/ProofValueBound2.v
theories/PropValueBound.v
theories/ModelProject.v
theories/SpecProject.v
theories/ProofProject.v
theories/PropProject.v
theories/ModelRunPolicy.v
theories/SpecRunPolicy.v
theories/ProofRunPolicy.v
theories/PropRunPolicy.v
theories/ModelFit.v
theories/SpecFit.v
theories/ProofFit.v
theories/PropFit.v
theories/ModelPlantSim.v
theories/SpecPlantSim.v
theories/ProofPlantSim.v
theories/PropPlantSim.v
theories/ModelCostTable.v
theories/SpecCostTable.v
theories/ProofCostTable.v
theories/PropCostTable.v
theories/ModelCarTraj.v
theories/SpecCarTraj.v
theories/ProofCarTraj.v
theories/PropCarTraj.v
theories/ModelNearest.v
theories/SpecNearest.v
theories/ProofNearest.v
theories/PropNearest.v
