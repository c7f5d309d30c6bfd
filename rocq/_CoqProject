-Q theories Verif

theories/Prelude.v
theories/SpecIndex.v
theories/SpecLayout.v
theories/ModelSlicing.v
theories/ModelDecomposition.v
theories/ProofSlicing.v
theories/ProofDecomposition.v
theories/PropSlicing.v
theories/PropDecomposition.v
theories/ModelPartition.v
theories/SpecPartition.v
theories/ProofPartition.v
theories/PropPartition.v
theories/Collective.v
theories/ModelGroupCreation.v
theories/PropGroupCreation.v
theories/Ring.v
theories/Tensor.v
theories/ModelCollectives.v
theories/ProofCollectives.v
theories/PropCollectives.v
theories/Phases.v
theories/ModelExchange.v
theories/ProofExchange.v
theories/PropExchange.v
theories/ModelUtilities.v
theories/PropUtilities.v
theories/ModelBuffer.v
theories/ProofBuffer.v
theories/PropBuffer.v
theories/P2P.v
theories/Rounds.v
theories/ModelRepartition.v
theories/ProofRepartition.v
theories/ProofTransfer.v
theories/ProofRepartitionCalls.v
theories/Blocks.v
theories/PropRepartition.v
theories/PropRepartitionErrors.v
theories/SpecHalo.v
theories/ModelHaloMixin.v
theories/ProofHaloMixin.v
theories/PropHaloMixin.v
theories/ModelFloatOut.v
theories/PropFloatOut.v
theories/ModelHaloExchange.v
theories/ProofHaloLinks.v
theories/ProofHaloZones.v
theories/PropHaloExchange.v
theories/ModelFeatureLayer.v
theories/SpecFeature.v
theories/ProofFeatureLayer.v
theories/PropFeatureLayer.v
theories/PropFeatureConv.v
theories/PropFeatureCommon.v
theories/ModelLinear.v
theories/ProofWork.v
theories/PropLinear.v
theories/ModelConv.v
theories/ProofConv.v
theories/ProofConvParts.v
theories/PropConv.v
theories/PropConvChannel.v
theories/PropConvGeneral.v
theories/ModelBatchNorm.v
theories/SpecBatchNorm.v
theories/ProofBatchNorm.v
theories/PropBatchNorm.v
theories/ModelLoss.v
theories/PropLoss.v
theories/ModelInterpolate.v
theories/ProofInterpolate.v
theories/ModelScalars.v
theories/PropInterpolate.v
theories/ModelUpsample.v
theories/SpecInterpolate.v
theories/ProofUpsample.v
theories/ProofUpsampleLayer.v
theories/PropUpsample.v
theories/ModelModule.v
theories/PropModule.v
theories/PropRebuild.v
theories/ProofUpsampleOutput.v
theories/PropUpsampleLayer.v
theories/ModelGradients.v
theories/ProofGradients.v
theories/ModelUpsampleGrad.v
theories/PropUpsampleGrad.v
theories/ModelWorkGrad.v
theories/ProofWorkGrad.v
theories/PropLinearGrad.v
theories/ModelFeatureGrad.v
theories/SpecFeatureGrad.v
theories/ProofFeatureGrad.v
theories/PropFeatureGrad.v
theories/PropConvGrad.v
theories/ModelChannelGrad.v
theories/PropChannelGrad.v
theories/ModelGeneralGrad.v
theories/ProofGeneralGrad.v
theories/PropGeneralGrad.v
theories/SpecDual.v
theories/ModelBatchNormGrad.v
theories/ProofBatchNormGrad.v
theories/PropBatchNormGrad.v
theories/PropBatchNormReal.v
theories/ModelMaxPoolGrad.v
theories/SpecMaxPoolGrad.v
theories/ProofMaxPoolGrad.v
theories/PropMaxPoolGrad.v
theories/ModelChain.v
theories/SpecChain.v
theories/ProofChain.v
theories/PropChain.v
theories/ModelPaddingMode.v
theories/SpecPaddingMode.v
theories/ProofPaddingMode.v
theories/PropPaddingMode.v
theories/ModelTorch.v
theories/SpecWindow.v
theories/PropWindow.v
theories/ModelReduce.v
theories/SpecSum.v
theories/ProofReduce.v
theories/PropReduce.v
theories/SpecRounding.v
theories/PropRounding.v
theories/ModelTraining.v
theories/SpecTraining.v
theories/ProofTraining.v
theories/ProofStages.v
theories/ProofWindows.v
theories/ProofConvStages.v
theories/PropTraining.v
theories/ModelDebug.v
theories/PropDebug.v
theories/ModelData.v
theories/PropData.v
theories/ModelSubtopology.v
theories/PropSubtopology.v
theories/ModelLifetime.v
theories/PropLifetime.v
theories/ModelThreads.v
theories/PropThreads.v
theories/SpecUpsampleGrad.v
theories/PropUpsampleBlocks.v
theories/ProofNormStage.v
theories/ProofUpsampleStage.v
theories/SpecConvSum.v
theories/ModelConvReduce.v
theories/ProofConvReduce.v
theories/PropConvReduce.v
theories/PropConvRounding.v
theories/ModelEquality.v
theories/PropEquality.v
theories/SpecParameters.v
theories/ModelParameters.v
theories/PropParameters.v
theories/SpecConvGradSum.v
theories/ModelConvGradReduce.v
theories/PropConvGradReduce.v
theories/PropConvGradRounding.v
theories/SpecHaloSum.v
theories/ModelHaloReduce.v
theories/ProofSimulation.v
theories/ProofHaloReduce.v
theories/Schedule.v
theories/PropHaloReduce.v
theories/PropHaloRounding.v
theories/ModelFeatureReduce.v
theories/ProofFeatureReduce.v
theories/PropFeatureReduce.v
theories/PropFeatureRounding.v
theories/ProofHaloForward.v
theories/ModelLossReduce.v
theories/PropLossReduce.v
theories/PropLossRounding.v
theories/ModelBatchNormReduce.v
theories/PropBatchNormReduce.v
theories/PropBatchNormRounding.v
theories/PropWindowReduce.v
theories/PropWindowRounding.v
theories/ModelPoolReduce.v
theories/PropPoolReduce.v
theories/PropPoolRounding.v
theories/ModelConstruct.v
theories/PropConstruct.v
theories/ModelCheckpoint.v
theories/PropCheckpoint.v
theories/PropChannelCut.v
theories/PropOutside.v
