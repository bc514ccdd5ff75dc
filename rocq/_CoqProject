-Q theories Verif
theories/Py.v
theories/Num.v
theories/NumQ.v
theories/NumF.v
theories/Numpy.v
theories/Filters.v
theories/Registry.v
theories/Spec.v
theories/StructProofs.v
theories/RunProofs.v
theories/Reach.v
theories/KeepProofs.v
theories/RVec.v
theories/RFilter.v
theories/Steps.v
theories/PropsRun.v
theories/PropsRegistry.v
theories/PropsStability.v
theories/PropsAlgebra.v
theories/RMat.v
theories/Misc.v
theories/Preprocess.v
theories/PropsMisc.v
theories/PropsPreprocess.v
theories/PropsPCA.v
theories/PropsLDA.v
theories/Detection.v
theories/PropsDetection.v
theories/PropsESE.v
theories/Mlp.v
theories/PropsMLP.v
theories/PropsMLPR.v
theories/PropsRLS.v
theories/PropsGradient.v
theories/PropsSymmetry.v
theories/PropsAPMem.v
theories/PropsAP.v
theories/History.v
theories/PropsOCNLMS.v
theories/PropsOCNLMSR.v
theories/PropsOCNLMSF.v
theories/Alias.v
theories/PropsAlias.v
theories/PropsStepSize.v
theories/PropsShift.v
theories/PropsWarm.v
theories/PropsNoise.v
theories/PropsConverge.v
theories/PropsRLSRate.v
theories/PropsMinimal.v
theories/PropsUnits.v
theories/PropsAPConverge.v
theories/PropsTracking.v
theories/PropsNan.v
theories/PropsNanF.v
theories/PropsSeries.v
theories/PropsLatency.v
theories/PropsPreInv.v
theories/PropsMeasure.v
theories/PropsRecursion.v
theories/PropsBackprop.v
theories/PropsMLPTrain.v
theories/PropsMLPSym.v
theories/PropsMLPDescent.v
theories/PropsReset.v
theories/PropsIID.v
theories/PropsRLSCost.v
theories/PropsSign.v
theories/PropsSignF.v
theories/PropsDegenerate.v
theories/PropsPCAOpt.v
theories/PropsLDAOpt.v
theories/FloatErr.v
theories/PropsRound.v
theories/PropsRoundRun.v
theories/PropsNanMLP.v
theories/MlpUnknown.v
theories/PropsMLPName.v
theories/PropsNanMLPF.v
theories/MlpAlias.v
theories/PropsMLPAlias.v
theories/PropsDetectUnits.v
theories/PropsVarStep.v
theories/PropsMLPTargets.v
theories/PropsMLPNew.v
theories/PropsOutcomes.v
theories/PropsWindup.v
theories/PropsNoOverflow.v
theories/PropsRLSMemory.v
theories/PropsStall.v
theories/PropsRepeat.v
theories/PropsMeasureF.v
theories/PropsStdF.v
theories/PropsLearning.v
theories/PropsSaturate.v
theories/PropsSignSign.v
theories/PropsGMCC.v
theories/PropsBlind.v
theories/PropsBlindF.v
theories/PropsNIID.v
theories/PropsRLSNoise.v
theories/PropsOrder.v
theories/PropsCentre.v
theories/IntModel.v
theories/PropsInt.v
theories/PropsIntMeasure.v
theories/PropsRLSTrack.v
theories/PropsEpochs.v
theories/PropsAPNoise.v
theories/PropsOutlier.v
theories/PropsEpochsLS.v
theories/PropsContinuity.v
theories/PropsSilence.v
theories/PropsDead.v
theories/PropsUnseen.v
theories/PropsNonlinear.v
theories/PropsGrid.v
theories/PropsMLPUnseen.v
theories/PropsMLPContinuity.v
theories/PropsBoundedF.v
theories/PropsForget.v
theories/PropsForgetF.v
theories/PropsMinimax.v
theories/PropsScaleF.v
theories/PropsRLSRegret.v
theories/PropsNotch.v
theories/PropsLMSRegret.v
theories/PropsOneHot.v
theories/PropsProportional.v
theories/PropsSampleScale.v
theories/PropsReuse.v
theories/PropsBalance.v
theories/PropsElbndF.v
theories/PropsLeF.v
