-Q theories Verif

theories/Base.v
theories/Dist.v
theories/Prog.v
theories/Resampling.v
theories/ResamplingProofs.v
theories/OrderStats.v
theories/OrderStatsInt.v
theories/MultinomialLaw.v
theories/CondResampling.v
theories/CondResamplingProofs.v
theories/Csmc.v
theories/CsmcProofs.v
theories/CsmcInv.v
theories/Demo.v
theories/CsmcBackward.v
theories/CsmcBackwardOk.v
theories/Smc.v
theories/SmcProofs.v
theories/FinLaw.v
theories/Pmcmc.v
theories/PmcmcSlot.v
theories/PmcmcBias.v
theories/MultinomialUse.v
theories/ResVariance.v
theories/FilterConsistent.v
theories/FilterLimit.v
theories/Twisted.v
theories/Hygiene.v
theories/Gibbs.v
theories/ForceMove.v
theories/GibbsProofs.v
theories/GibbsMore.v
theories/GibbsDemo.v
theories/Sde.v
theories/SdeProofs.v
theories/SdePaths.v
theories/SdeLoss.v
theories/SdeMore.v
theories/Dsb.v
theories/Sim.v
theories/SimMore.v
theories/Mat.v
theories/GaussSB.v
theories/GaussSBMore.v
theories/Images.v
theories/ImagesProofs.v
theories/ImagesMore.v
theories/Corrupt.v
theories/CorruptProofs.v
theories/Dataset.v
theories/Crescent.v
theories/CrescentScore.v
theories/DataKeys.v
theories/Nets.v
theories/UNet.v
theories/NetShapes.v
theories/MatMore.v
theories/Expm.v
theories/Lti.v
theories/Cholesky.v
theories/GaussDiv.v
theories/Bures.v
theories/P_Resampling.v
theories/P_Csmc.v
theories/P_Smc.v
theories/CsmcExch.v
theories/CsmcPath.v
theories/CsmcErgodic.v
theories/P_Ergodic.v
theories/P_Consistency.v
theories/P_Gibbs.v
theories/P_Sde.v
theories/P_Dsb.v
theories/P_Sim.v
theories/P_GaussSB.v
theories/P_Data.v
theories/P_Nets.v
theories/P_Utils.v
theories/GaussCond.v
theories/Toy.v
theories/ToyCond.v
theories/ToyMore.v
theories/ToyKf.v
theories/ToyRef.v
theories/TwistedGp.v
theories/ToyPmcmc.v
theories/P_Toy.v
theories/P_Twisted.v
theories/Restore.v
theories/Csgm.v
theories/Train.v
theories/P_Restore.v
theories/P_Train.v
theories/GibbsErgodic.v
theories/P_GibbsErgodic.v
theories/FilterSlot.v
theories/P_FilterSlot.v
theories/TwistedLimit.v
theories/P_TwistedLimit.v
theories/ForceMoveExact.v
theories/SuprExact.v
theories/SmootherExact.v
theories/GibbsFinal.v
theories/HygieneMore.v
theories/P_Exact.v
theories/RestoreMore.v
theories/P_RestoreMore.v
theories/PmcmcErgodic.v
theories/PmcmcLimit.v
theories/P_PmcmcErgodic.v
theories/EmMoments.v
theories/EmConverge.v
theories/ReverseStep.v
theories/P_EmConverge.v
theories/ScriptRuns.v
theories/SampleStats.v
theories/P_ScriptRuns.v
theories/TrainData.v
theories/P_TrainData.v
theories/ResultFiles.v
theories/ImgFiles.v
theories/P_Files.v
theories/ImgScores.v
theories/P_ImgScores.v
theories/ScoreMin.v
theories/P_ScoreMin.v
theories/AutoCorr.v
theories/P_AutoCorr.v
theories/FigFiles.v
theories/P_FigFiles.v
theories/UNetVal.v
theories/UNetShape.v
theories/UNetSep.v
theories/UNetGrow.v
theories/WsConv.v
theories/P_UNetVal.v
theories/UNetLip.v
theories/UNetLipNet.v
theories/UNetLipMain.v
theories/P_UNetLip.v
theories/EmStable.v
theories/UNetScore.v
theories/P_UNetScore.v
theories/EmStrong.v
theories/UNetStrong.v
theories/P_UNetStrong.v
theories/EmPerturb.v
theories/UNetError.v
theories/P_UNetError.v
theories/Genealogy.v
theories/Coalesce.v
theories/CoalesceMain.v
theories/P_Coalesce.v
theories/PathKL.v
theories/ReverseKL.v
theories/P_ReverseKL.v
theories/Pinsker.v
theories/RevError.v
theories/P_RevError.v
theories/Mlp.v
theories/MlpProofs.v
theories/MlpMain.v
theories/P_Mlp.v
theories/MnistConv.v
theories/P_MnistConv.v
theories/HeurStart.v
theories/GpStart.v
theories/P_HeurStart.v
theories/LowRes.v
theories/P_LowRes.v
theories/Spectral.v
theories/CholFun.v
theories/SbTotal.v
theories/P_Spectral.v
theories/BuresBound.v
theories/BuresStat.v
theories/P_BuresStat.v
theories/SbOptimal.v
theories/P_SbOptimal.v
theories/DoobConverge.v
theories/P_DoobConverge.v
theories/SbConverge.v
theories/P_SbConverge.v
theories/PriorGap.v
theories/CsgmConverge.v
theories/P_PriorGap.v
theories/CsgmBias.v
theories/P_CsgmBias.v
theories/KlStat.v
theories/P_KlStat.v
theories/KfCollapse.v
theories/P_KfCollapse.v
theories/FilterRate.v
theories/FilterConverge.v
theories/P_FilterConverge.v
theories/FilterMean.v
