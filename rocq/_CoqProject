-Q theories Verif
theories/Base.v
theories/Tensor.v
theories/BaseLemmas.v
theories/TensorLemmas.v
theories/FieldLemmas.v
theories/PadModel.v
theories/LineLemmas.v
theories/PadSpec.v
theories/Pad1dProofs.v
theories/PadNdSpec.v
theories/PadderProofs.v
theories/PadderCor.v
theories/StatProofs.v
theories/PadUtilProofs.v
theories/AxisSlice.v
theories/PadderMore.v
theories/PadWrap.v
theories/PadPropLemmas.v
theories/PadSeq.v
theories/PadLinear.v
theories/ExampleUtil.v
theories/PropsPad.v
theories/TensorOps.v
theories/PoolModel.v
theories/ShapeProofs.v
theories/OuterProofs.v
theories/PoolSpec.v
theories/PoolProofs.v
theories/PoolForward.v
theories/PoolSame.v
theories/PoolHistory.v
theories/PoolLinear.v
theories/AvgProofs.v
theories/AvgOriginal.v
theories/PoolPropLemmas.v
theories/PoolExact.v
theories/PropsPool.v
theories/IndexOps.v
theories/CfaModel.v
theories/IndexLemmas.v
theories/CfaProofs.v
theories/BayerConvProofs.v
theories/DemosaicProofs.v
theories/GradProofs.v
theories/CfaPropLemmas.v
theories/DemosaicChannels.v
theories/CfaAccepts.v
theories/BayerOdd.v
theories/GradColor.v
theories/PropsCfa.v
theories/PropsPadAlg.v
theories/NdSpecModel.v
theories/RaggedProofs.v
theories/ExpandProofs.v
theories/NdSpecProofs.v
theories/NdApplyProofs.v
theories/NdSpecLaws.v
theories/LooseProofs.v
theories/NdLink.v
theories/NdPropLemmas.v
theories/LooseExact.v
theories/PropsNdSpec.v
theories/EdgeModel.v
theories/ConvProofs.v
theories/EdgeProofs.v
theories/EdgeState.v
theories/EdgeComponent.v
theories/EdgeAlias.v
theories/EdgeConst.v
theories/EdgeLinear.v
theories/SharpenProofs.v
theories/EdgePropLemmas.v
theories/EdgeExample.v
theories/EdgeShape.v
theories/PropsEdge.v
theories/RField.v
theories/GaussModel.v
theories/GaussProofs.v
theories/GaussDeriv.v
theories/GaussEdge.v
theories/GaussPool.v
theories/PropsGauss.v
theories/ReduceModel.v
theories/MiscModel.v
theories/MiscProofs.v
theories/PropsMisc.v
theories/StatsModel.v
theories/ReduceProofs.v
theories/StatsProofs.v
theories/MetricsModel.v
theories/PsnrModel.v
theories/MseProofs.v
theories/MetricLaws.v
theories/ReduceFlip.v
theories/PropsMetrics.v
theories/PadRelation.v
theories/SsimRun.v
theories/SsimBlur.v
theories/SsimProofs.v
theories/SsimMain.v
theories/SsimCrop.v
theories/MsLevels.v
theories/MsLoop.v
theories/MsMain.v
theories/MsForward.v
theories/MsReal.v
theories/SsimValue.v
theories/MsValue.v
theories/SsimRefute.v
theories/SsimLaws.v
theories/MsLaws.v
theories/SsimFlip.v
theories/PropsSsim.v
theories/BayerLaws.v
theories/PadTwice.v
theories/PadTwiceEx.v
theories/PropsBayer2.v
theories/PropsTwice.v
theories/ToSame.v
theories/PropsToSame.v
theories/EdgeFlip.v
theories/EdgeAffine.v
theories/SharpenLaws.v
theories/PropsEdge3.v
theories/PropsSharpen.v
theories/PropsMs.v
theories/PoolTwice.v
theories/AvgTwice.v
theories/FilterCommute.v
theories/PropsPool2.v
theories/MagnitudeReal.v
theories/PropsMag.v
theories/FilterAdjoint.v
theories/PropsAdjoint.v
theories/BlurContract.v
theories/BlurGauss.v
theories/PropsBlur.v
theories/PickPad.v
theories/PickPool.v
theories/PickEdge.v
theories/PickSsim.v
theories/PropsPick.v
theories/MetricTower.v
theories/PsnrTower.v
theories/PropsTower.v
theories/PermEdge.v
theories/PermSsim.v
theories/PropsPermute.v
theories/MsSim.v
theories/MsReindex.v
theories/PropsMsItems.v
theories/UtilModel.v
theories/UtilProofs.v
theories/PropsUtil.v
theories/Tiles.v
theories/TilesSsim.v
theories/TilesEdge.v
theories/TilesBayer.v
theories/PropsTiles.v
theories/MetricErrors.v
theories/PropsMetricErr.v
theories/PadRepeat.v
theories/PoolRepeat.v
theories/RepeatEx.v
theories/PropsRepeat.v
theories/AxisErrors.v
theories/PropsAxisErr.v
theories/ReduceShuffle.v
theories/PsnrShuffle.v
theories/EdgeShift.v
theories/SsimShift.v
theories/PropsShift.v
theories/FilterPeriodize.v
theories/EdgePeriodize.v
theories/PeriodizeMag.v
theories/LaplacePeriodize.v
theories/PropsPeriodize.v
theories/Construct.v
theories/ConstructGauss.v
theories/PropsConstruct.v
theories/SsimPeriodize.v
theories/GaussPeriodize.v
theories/PropsPeriodize2.v
theories/EdgeWrap.v
theories/PropsEdgeWrap.v
theories/PropsLaws.v
theories/NoiseModel.v
theories/NoiseProofs.v
theories/EdgeLossModel.v
theories/EdgeLossProofs.v
theories/EdgeLoss.v
theories/EdgeLossLaws.v
theories/EdgeLossGauss.v
theories/SamePair.v
theories/EdgeHV.v
theories/ConvNd.v
theories/PadFlip.v
theories/PoolFlip.v
theories/GaussFlip.v
theories/PropsMirror.v
theories/PropsPerm.v
theories/PropsUser.v
theories/FilterCopy.v
theories/AxisPerm.v
theories/UserFun.v
theories/PadExact.v
theories/PadTight.v
theories/BayerSize.v
theories/PropsExtra.v
theories/PropsEdge2.v
theories/PropsShape.v
theories/PropsLoss.v
theories/PadMono.v
theories/PropsMono.v
theories/RaggedArr.v
theories/RaggedArrProofs.v
theories/PropsArr.v
theories/AliasModel.v
theories/AliasProofs.v
theories/PropsAlias.v
theories/PowerReal.v
theories/PropsPower.v
theories/BlockContract.v
theories/PropsBlock.v
theories/PadMap.v
theories/PropsMap.v
theories/RoundModel.v
theories/RoundProofs.v
theories/PropsRound.v
theories/RoundMetricModel.v
theories/RoundMetric.v
theories/PropsRoundMse.v
theories/BayerConvLaws.v
theories/PropsBayerConv.v
theories/BayerExact.v
theories/PropsExact.v
theories/RoundBayerModel.v
theories/RoundBayer.v
theories/PropsRoundBayer.v
theories/RoundPsnrModel.v
theories/RoundPsnr.v
theories/PropsRoundPsnr.v
theories/EdgeLossFlip.v
theories/PropsLossFlip.v
theories/RoundEdgeModel.v
theories/RoundEdge.v
theories/PropsRoundEdge.v
theories/RoundMag.v
theories/RoundMag2.v
theories/PropsRoundMag.v
theories/RoundSharpenModel.v
theories/RoundSharpen.v
theories/PropsRoundSharpen.v
theories/RoundPolyModel.v
theories/RoundPoly.v
theories/PropsRoundPoly.v
theories/RoundRel.v
theories/RoundAvgModel.v
theories/RoundAvg.v
theories/PropsRoundRel.v
theories/AvgLaws.v
theories/PropsAvgLaws.v
theories/StatsMono.v
theories/PropsStats.v
theories/RoundSsimModel.v
theories/RoundSsim.v
theories/RoundSsimEx.v
theories/PropsRoundSsim.v
theories/RoundSsimDet.v
theories/RoundSsimDetEx.v
theories/PropsRoundDet.v
