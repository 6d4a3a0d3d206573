-Q theories Verif

theories/ModelGraph.v
theories/SpecGraph.v
theories/ProofGraph.v
theories/PropGraph.v
theories/ModelContext.v
theories/SpecContext.v
theories/ProofContext.v
theories/PropContext.v
theories/ModelBN.v
theories/SpecBN.v
theories/ProofBN.v
theories/PropBN.v
theories/ModelDict.v
theories/PropDict.v
theories/ModelShape.v
theories/SpecShape.v
theories/ProofShape.v
theories/PropShape.v
theories/ModelTensor.v
theories/SpecTensor.v
theories/ProofTensor.v
theories/ModelDist.v
theories/ProofDist.v
theories/PropTensor.v
theories/PropTensorMulti.v
theories/SpecDist.v
theories/ProofDiscrete.v
theories/PropDiscrete.v
theories/PropSupport.v
theories/ModelExt.v
theories/ModelUtils.v
theories/PropUtils.v
theories/SpecDensity.v
theories/ProofGauss.v
theories/ProofIntegral.v
theories/ProofDensity.v
theories/PropDensity.v
theories/ProofGammaFn.v
theories/SpecSimplex.v
theories/ProofBeta.v
theories/PropBeta.v
theories/ProofTonelli.v
theories/SpecPair.v
theories/ProofBetaLaw.v
theories/PropBetaLaw.v
theories/PropSampler.v
theories/SpecLaw.v
theories/ProofLaw.v
theories/PropSamplerMulti.v
theories/SpecMass.v
theories/ProofMass.v
theories/ProofMassChol.v
theories/PropDensityMulti.v
theories/PropMomentum.v
theories/ModelChol.v
theories/SpecChol.v
theories/ProofChol.v
theories/PropChol.v
theories/ProofRing.v
theories/SpecJacobian.v
theories/ProofJacobian.v
theories/ModelHMC.v
theories/SpecHMC.v
theories/ProofHMC.v
theories/PropHMC.v
theories/PropMetropolis.v
theories/SpecAdapt.v
theories/ProofAdapt.v
theories/PropAdapt.v
theories/ModelSGMCMC.v
theories/SpecSGMCMC.v
theories/PropSGMCMC.v
theories/ModelVI.v
theories/SpecVI.v
theories/ProofVI.v
theories/PropELBO.v
theories/PropIW.v
theories/PropVimco.v
theories/ModelObjective.v
theories/PropObjective.v
theories/ModelFlow.v
theories/SpecFlow.v
theories/ProofFlow.v
theories/ProofFlowJac.v
theories/ProofFlowIAF.v
theories/PropFlow.v
theories/PropFlowBatch.v
theories/ModelDiag.v
theories/SpecDiag.v
theories/PropDiag.v
theories/ModelAIS.v
theories/SpecAIS.v
theories/ProofAIS.v
theories/PropAIS.v
theories/ModelOps.v
theories/SpecOps.v
theories/PropOps.v
theories/ModelSpecial.v
theories/PropSpecial.v
theories/ModelGrad.v
theories/SpecGrad.v
theories/ProofGrad.v
theories/PropGrad.v
theories/ModelCall.v
theories/SpecCall.v
theories/ProofCall.v
theories/ProofCallTab.v
theories/ProofCallMore.v
theories/ProofCallAccept.v
theories/PropCall.v
theories/ModelInit.v
theories/SpecInit.v
theories/ProofInit.v
theories/ProofInitKnown.v
theories/PropInit.v
theories/ModelDtype.v
theories/PropDtype.v
theories/ModelVar.v
theories/SpecVar.v
theories/ProofVar.v
theories/ProofVarSame.v
theories/PropVar.v
theories/ModelLife.v
theories/SpecLife.v
theories/ProofLife.v
theories/ProofLifeNet.v
theories/PropLife.v
theories/SpecVolume.v
theories/ProofVolume.v
theories/ProofChange.v
theories/SpecInvariance.v
theories/ProofPhase.v
theories/PropInvariance.v
theories/ProofBimove.v
theories/SpecFlowDensity.v
theories/ProofFlowDensity.v
theories/PropFlowDensity.v
theories/ModelQuery.v
theories/PropQuery.v
theories/SpecRun.v
theories/ProofPart.v
theories/ProofRun.v
theories/PropRun.v
theories/SpecRange.v
theories/ProofRatio.v
theories/ProofRange.v
theories/ProofSimplex.v
theories/PropRatio.v
theories/SpecExpect.v
theories/ProofExpect.v
theories/ProofSamples.v
theories/ProofDerive.v
theories/PropExpect.v
theories/PropGradient.v
theories/ModelNum.v
theories/SpecNum.v
theories/ProofNum.v
theories/PropNum.v
theories/PropNumMatrix.v
theories/ModelSession.v
theories/PropSession.v
theories/ModelFloat.v
theories/SpecFloat.v
theories/ProofFloat.v
theories/PropFloat.v
theories/ModelFloatSample.v
theories/ProofFloatSample.v
theories/PropFloatSample.v
theories/ModelFloatDensity.v
theories/ProofFloatDensity.v
theories/PropFloatDensity.v
theories/ModelExec.v
theories/ProofExec.v
theories/ModelHMCExec.v
theories/SpecExec.v
theories/ProofHMCExec.v
theories/PropExec.v
theories/ModelFloatTune.v
theories/ProofFloatTune.v
theories/PropFloatTune.v
theories/ModelFloatMass.v
theories/ProofFloatMass.v
theories/PropFloatMass.v
theories/ModelFloatSGMCMC.v
theories/SpecFloatSGMCMC.v
theories/ProofFloatSGMCMC.v
theories/PropFloatSGMCMC.v
theories/ModelFloatImportance.v
theories/SpecFloatImportance.v
theories/ProofFloatImportance.v
theories/PropFloatImportance.v
theories/ModelFloatAIS.v
theories/SpecFloatAIS.v
theories/ProofFloatAIS.v
theories/PropFloatAIS.v
theories/ModelFloatVI.v
theories/SpecFloatVI.v
theories/ProofFloatVI.v
theories/PropFloatVI.v
theories/ModelFloatDiag.v
theories/SpecFloatDiag.v
theories/ProofFloatDiag.v
theories/PropFloatDiag.v
theories/ModelFloatFlow.v
theories/SpecFloatFlow.v
theories/ProofFloatFlow.v
theories/PropFloatFlow.v
theories/ModelFloatIaf.v
theories/SpecFloatIaf.v
theories/ProofFloatIaf.v
theories/PropFloatIaf.v
theories/SpecChance.v
theories/ProofChance.v
theories/PropChance.v
theories/SpecChanceR.v
theories/PropChanceR.v
theories/ModelFloatDensity2.v
theories/SpecFloatDensity2.v
theories/ProofFloatDensity2.v
theories/PropFloatDensity2.v
theories/SpecFloatLeapfrog.v
theories/ProofFloatLeapfrog.v
theories/PropFloatLeapfrog.v
theories/SpecAISLaw.v
theories/ProofAISLaw.v
theories/PropAISLaw.v
theories/PropAISLawR.v
theories/ModelExamples.v
theories/SpecExamples.v
theories/ProofExamples.v
theories/PropTowers.v
theories/PropAdamax.v
theories/PropData.v
theories/PropHelpers.v
theories/ModelCache.v
theories/SpecCache.v
theories/ProofCache.v
theories/PropCache.v
theories/ModelGP.v
theories/SpecGP.v
theories/ProofGP.v
theories/PropGP.v
theories/ModelTrain.v
theories/SpecTrain.v
theories/ProofTrain.v
theories/PropTrain.v
theories/ModelTopic.v
theories/SpecTopic.v
theories/ProofTopic.v
theories/PropTopic.v
theories/ModelSSL.v
theories/SpecSSL.v
theories/PropSSL.v
theories/ModelGAN.v
theories/SpecGAN.v
theories/PropGAN.v
theories/ModelPMF.v
theories/SpecPMF.v
theories/PropPMF.v
theories/ModelToy.v
theories/PropToy.v
theories/ModelASSL.v
theories/PropASSL.v
theories/ModelDropout.v
theories/PropDropout.v
theories/ModelSBN.v
theories/PropSBN.v
theories/ModelVaeNF.v
theories/PropVaeNF.v
theories/ModelBernoulliVae.v
theories/PropBernoulliVae.v
