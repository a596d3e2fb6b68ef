-Q theories Verif
theories/ExamplesEKPF.v
theories/ExamplesMixPF.v
theories/ModelBackends.v
theories/ModelCondPdf.v
theories/ModelDiscretePdf.v
theories/ModelDouble.v
theories/ModelDoubleChol.v
theories/ModelDoubleFreq.v
theories/ModelDoubleGauss.v
theories/ModelDoubleGauss2.v
theories/ModelDoubleHist.v
theories/ModelDoubleKF.v
theories/ModelDoubleLin.v
theories/ModelDoubleMean.v
theories/ModelDoubleMeas2.v
theories/ModelDoubleNoise.v
theories/ModelDoublePF.v
theories/ModelDoubleProp.v
theories/ModelDoubleUni.v
theories/ModelEKPF.v
theories/ModelFilter.v
theories/ModelFloat.v
theories/ModelGauss.v
theories/ModelGinac.v
theories/ModelHistogram.v
theories/ModelKalman.v
theories/ModelLinear.v
theories/ModelMCPdf.v
theories/ModelMatrix.v
theories/ModelMixPF.v
theories/ModelMixture.v
theories/ModelModels.v
theories/ModelMoments.v
theories/ModelOwn.v
theories/ModelParticle.v
theories/ModelProposal.v
theories/ModelRtt.v
theories/ModelSR.v
theories/ModelSVD.v
theories/ModelSmoother.v
theories/ModelTables.v
theories/ModelTypekit.v
theories/ModelUniform.v
theories/ModelWrapper.v
theories/OrdLra.v
theories/Outcome.v
theories/ProofsAlgebra.v
theories/ProofsBackends.v
theories/ProofsCondPdf.v
theories/ProofsDiscretePdf.v
theories/ProofsDouble.v
theories/ProofsDoubleChol.v
theories/ProofsDoubleDens2.v
theories/ProofsDoubleFreq.v
theories/ProofsDoubleGauss.v
theories/ProofsDoubleGauss2.v
theories/ProofsDoubleHist.v
theories/ProofsDoubleKF.v
theories/ProofsDoubleLin.v
theories/ProofsDoubleMean.v
theories/ProofsDoubleNoise.v
theories/ProofsDoublePF.v
theories/ProofsDoubleProp.v
theories/ProofsDoubleUni.v
theories/ProofsFilter.v
theories/ProofsGinac.v
theories/ProofsHistogram.v
theories/ProofsKalman.v
theories/ProofsMCPdf.v
theories/ProofsMatrix.v
theories/ProofsMixPF.v
theories/ProofsMixture.v
theories/ProofsMoments.v
theories/ProofsPSmoother.v
theories/ProofsParticle.v
theories/ProofsRtt.v
theories/ProofsSR.v
theories/ProofsSVD.v
theories/ProofsSVDAcc.v
theories/ProofsSVDBid.v
theories/ProofsSVDFinal.v
theories/ProofsSVDInv.v
theories/ProofsSVDIter.v
theories/ProofsSVDMain.v
theories/ProofsSVDRot.v
theories/ProofsSVDSafe.v
theories/ProofsSVDSweep.v
theories/ProofsSmoother.v
theories/ProofsTables.v
theories/ProofsTypekit.v
theories/PropertiesAlgebra.v
theories/PropertiesBackends.v
theories/PropertiesBatch.v
theories/PropertiesCondPdf.v
theories/PropertiesDiscretePdf.v
theories/PropertiesDouble.v
theories/PropertiesDoubleBatch.v
theories/PropertiesDoubleChol.v
theories/PropertiesDoubleDens2.v
theories/PropertiesDoubleFar2.v
theories/PropertiesDoubleFreq.v
theories/PropertiesDoubleGauss.v
theories/PropertiesDoubleGauss2.v
theories/PropertiesDoubleHist.v
theories/PropertiesDoubleKF.v
theories/PropertiesDoubleLin.v
theories/PropertiesDoubleMean.v
theories/PropertiesDoubleMeas2.v
theories/PropertiesDoubleNoise.v
theories/PropertiesDoublePF.v
theories/PropertiesDoubleProp.v
theories/PropertiesDoubleRipley.v
theories/PropertiesDoubleUni.v
theories/PropertiesEKHist.v
theories/PropertiesEKPF.v
theories/PropertiesEKStep.v
theories/PropertiesFilter.v
theories/PropertiesFloat.v
theories/PropertiesGauss.v
theories/PropertiesGinac.v
theories/PropertiesHistogram.v
theories/PropertiesKalman.v
theories/PropertiesLinear.v
theories/PropertiesMCPdf.v
theories/PropertiesMixPF.v
theories/PropertiesMixSafe.v
theories/PropertiesMixture.v
theories/PropertiesModels.v
theories/PropertiesMoments.v
theories/PropertiesOwn.v
theories/PropertiesPSmoother.v
theories/PropertiesParticle.v
theories/PropertiesProposal.v
theories/PropertiesRtt.v
theories/PropertiesSR.v
theories/PropertiesSVD.v
theories/PropertiesSmoother.v
theories/PropertiesTypekit.v
theories/PropertiesUniform.v
theories/PropertiesWrapper.v
theories/Simulation.v
theories/SpecAlgebra.v
theories/SpecBackends.v
theories/SpecBatch.v
theories/SpecBayes.v
theories/SpecCondPdf.v
theories/SpecDiscretePdf.v
theories/SpecDouble.v
theories/SpecDoubleChol.v
theories/SpecDoubleDens2.v
theories/SpecDoubleFreq.v
theories/SpecDoubleGauss.v
theories/SpecDoubleGauss2.v
theories/SpecDoubleHist.v
theories/SpecDoubleKF.v
theories/SpecDoubleLin.v
theories/SpecDoubleMean.v
theories/SpecDoubleNoise.v
theories/SpecDoublePF.v
theories/SpecDoubleProp.v
theories/SpecDoubleUni.v
theories/SpecEKPF.v
theories/SpecGauss.v
theories/SpecGinac.v
theories/SpecHistogram.v
theories/SpecKalman.v
theories/SpecLinear.v
theories/SpecMCPdf.v
theories/SpecMatrix.v
theories/SpecMixPF.v
theories/SpecMixture.v
theories/SpecOwn.v
theories/SpecParticle.v
theories/SpecProb.v
theories/SpecProposal.v
theories/SpecRtt.v
theories/SpecSR.v
theories/SpecSVD.v
theories/SpecSmoother.v
theories/SpecTypekit.v
theories/SpecUniform.v
