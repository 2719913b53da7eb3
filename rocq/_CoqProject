-Q theories Verif
theories/TensorModel.v
theories/TensorProofs.v
theories/PrimModel.v
theories/BigSum.v
theories/PrimSpec.v
theories/PrimProofs.v
theories/PrimProofs2.v
theories/PrimAutogradModel.v
theories/AdjointProofs.v
theories/HaloProofs.v
theories/DistStateModel.v
theories/DistStateProofs.v
theories/PrimPropProofs.v
theories/Props_Prim.v
theories/FFTModel.v
theories/TruncModel.v
theories/LegendreModel.v
theories/QuadModel.v
theories/SHTModel.v
theories/DistSHTModel.v
theories/DistSHTProofs.v
theories/DistSHTProofs2.v
theories/DistSHTProofs3.v
theories/DistSHTProofs4.v
theories/ResampleModel.v
theories/SpectralConvModel.v
theories/DistMiscModel.v
theories/DistMiscProofs.v
theories/DistResampleProofs.v
theories/ResampleSpec.v
theories/ResampleProofs.v
theories/SlerpProofs.v
theories/Props_Resample.v
theories/DistSpectralProofs.v
theories/DistPropProofs.v
theories/Props_Dist.v
theories/TruncSpec.v
theories/TruncProofs.v
theories/FFTProofs.v
theories/Props_Spectral.v
theories/SHTSpec.v
theories/SHTValueProofs.v
theories/VSHTValueProofs.v
theories/SConvProofs.v
theories/Props_SHT.v
theories/QuadSpec.v
theories/PolyProofs.v
theories/CCProofs.v
theories/QuadProofs.v
theories/QuadPropProofs.v
theories/Props_Quad.v
theories/LegSpec.v
theories/LegProofs.v
theories/LegTableProofs.v
theories/Props_Legendre.v
theories/SHTRoundSpec.v
theories/SHTRoundProofs.v
theories/SHTBandProofs.v
theories/Props_Round.v
theories/VLegProofs.v
theories/VRoundProofs.v
theories/VBandProofs.v
theories/Props_Vector.v
theories/DiscoModel.v
theories/DiscoGradModel.v
theories/DiscoSpec.v
theories/DiscoSortProofs.v
theories/DiscoRunProofs.v
theories/DiscoKernelProofs.v
theories/DiscoTensorProofs.v
theories/DiscoLayerProofs.v
theories/DiscoGradProofs.v
theories/DiscoTransposeProofs.v
theories/DiscoPackProofs.v
theories/DiscoExProofs.v
theories/Props_Disco.v
theories/AttnModel.v
theories/AttnSpec.v
theories/AttnCoreProofs.v
theories/AttnKernelProofs.v
theories/AttnUpProofs.v
theories/AttnGradProofs.v
theories/AttnBwdProofs.v
theories/AttnCpuBwdProofs.v
theories/AttnCpuUpBwdProofs.v
theories/AttnOpProofs.v
theories/AttnOpValProofs.v
theories/AttnLayerModel.v
theories/AttnLayerSpec.v
theories/AttnLayerProofs.v
theories/AttnGlobalProofs.v
theories/AttnPropProofs.v
theories/AttnExProofs.v
theories/Props_Attention.v
theories/FilterModel.v
theories/FilterSpec.v
theories/FilterProofs.v
theories/FilterPLProofs.v
theories/FilterPLTotal.v
theories/FilterBasesProofs.v
theories/FilterBases2Proofs.v
theories/FilterApiProofs.v
theories/Props_Filter.v
theories/PsiModel.v
theories/PsiSpec.v
theories/PsiGeoProofs.v
theories/PsiProofs.v
theories/PsiPreProofs.v
theories/PsiLayerProofs.v
theories/PsiUseProofs.v
theories/PsiAttnProofs.v
theories/PsiExProofs.v
theories/Props_Psi.v
theories/DistDiscoModel.v
theories/DistDiscoSpec.v
theories/DistDiscoProofs.v
theories/DistDiscoProofs2.v
theories/DistDiscoProofs3.v
theories/DistDiscoProofs4.v
theories/DistDiscoProofs5.v
theories/DistDiscoProofs6.v
theories/DistDiscoProofs7.v
theories/Props_DistDisco.v
theories/DistAttnModel.v
theories/DistAttnSpec.v
theories/DistAttnProofs.v
theories/DistAttnProofs2.v
theories/DistAttnProofs3.v
theories/DistAttnProofs4.v
theories/DistAttnProofs5.v
theories/Props_DistAttn.v
theories/CacheModel.v
theories/CacheSpec.v
theories/CacheProofs.v
theories/CacheProofs2.v
theories/CacheProofs3.v
theories/Props_Cache.v
theories/SHTMeanProofs.v
theories/UnsoldProofs.v
theories/GrfModel.v
theories/GrfSpec.v
theories/GrfProofs.v
theories/GrfProofs2.v
theories/GrfProofs3.v
theories/GrfProofs4.v
theories/Props_Grf.v
theories/LossModel.v
theories/LossSpec.v
theories/LossProofs.v
theories/LossProofs2.v
theories/LossProofs3.v
theories/LossProofs4.v
theories/Props_Loss.v
theories/MetricModel.v
theories/MetricSpec.v
theories/MetricProofs.v
theories/MetricProofs2.v
theories/MetricProofs3.v
theories/Props_Metric.v
theories/SolverModel.v
theories/SolverSpec.v
theories/SolverProofs.v
theories/SolverProofs2.v
theories/SolverProofs3.v
theories/SolverProofs4.v
theories/Props_Solver.v
theories/SegLossModel.v
theories/SegLossSpec.v
theories/SegLossProofs.v
theories/SegLossProofs2.v
theories/SegLossProofs3.v
theories/SegLossProofs4.v
theories/SegLossProofs5.v
theories/Props_SegLoss.v
theories/GradLossModel.v
theories/GradLossSpec.v
theories/GradLossProofs.v
theories/GradLossProofs2.v
theories/GradLossProofs3.v
theories/GradLossProofs4.v
theories/GradLossProofs5.v
theories/GradLossProofs6.v
theories/Props_GradLoss.v
theories/DistAttnBwdModel.v
theories/DistAttnBwdSpec.v
theories/DistAttnBwdProofs.v
theories/DistAttnBwdProofs2.v
theories/DistAttnBwdProofs3.v
theories/DistAttnBwdProofs4.v
theories/Props_DistAttnBwd.v
theories/DistDiscoBwdModel.v
theories/DistDiscoBwdSpec.v
theories/DistDiscoBwdProofs.v
theories/DistDiscoBwdProofs2.v
theories/DistDiscoBwdProofs3.v
theories/DistDiscoBwdProofs4.v
theories/DistDiscoBwdProofs5.v
theories/Props_DistDiscoBwd.v
theories/NetModel.v
theories/NetModels.v
theories/NetSpec.v
theories/NetParProofs.v
theories/NetLayerProofs.v
theories/NetLayerProofs2.v
theories/NetLayerProofs3.v
theories/NetLayerProofs4.v
theories/NetReadyProofs.v
theories/NetReachProofs.v
theories/NetKindProofs.v
theories/NetKindProofs2.v
theories/NetKindProofs3.v
theories/NetProofs.v
theories/NetTotalProofs.v
theories/NetTotalProofs2.v
theories/NetTotalProofs3.v
theories/NetProofs2.v
theories/NetProofs3.v
theories/NetRefuteProofs.v
theories/Props_Net.v
theories/GpuModel.v
theories/GpuSpec.v
theories/GpuProofs.v
theories/GpuProofs2.v
theories/WarpProofs.v
theories/CudaWarpModel.v
theories/WarpSumProofs.v
theories/CudaDiscoModel.v
theories/CudaDiscoSpec.v
theories/CudaFwdProofs.v
theories/CudaFwdProofs2.v
theories/CudaBwdProofs.v
theories/CudaBwdProofs2.v
theories/CudaSortProofs.v
theories/CudaAttnModel.v
theories/CudaAttnProofs.v
theories/CudaAttnLaneProofs.v
theories/CudaAttnFwdProofs.v
theories/CudaAttnFwdProofs2.v
theories/CudaAttnSpec.v
theories/CudaAttnLaunchProofs.v
theories/Props_Cuda.v
theories/Props_CudaAttn.v
theories/WarpKernelProofs.v
theories/CudaAttnUpModel.v
theories/CudaJobSpec.v
theories/CudaKeyProofs.v
theories/CudaLoopProofs.v
theories/CudaAttnUpProofs.v
theories/CudaAttnUpProofs2.v
theories/CudaAttnUpProofs3.v
theories/CudaAttnUpProofs4.v
theories/CudaAttnUpBwdProofs.v
theories/CudaAttnUpBwdProofs2.v
theories/CudaAttnUpBwdProofs3.v
theories/CudaAttnUpLaunchProofs.v
theories/Props_CudaAttnUp.v
theories/CudaAttnBwdModel.v
theories/CudaAttnBwdProofs.v
theories/CudaAttnBwdProofs2.v
theories/CudaAttnBwdProofs3.v
theories/CudaAttnBwdSpec.v
theories/CudaAttnBwdLaunchProofs.v
theories/Props_CudaAttnBwd.v
theories/CudaUtilsModel.v
theories/CudaTileProofs.v
theories/CudaUtilsSpec.v
theories/CudaUtilsProofs.v
theories/Props_CudaUtils.v
theories/SHTGradSpec.v
theories/SHTGradModel.v
theories/SHTGradProofs.v
theories/DistSHTBwdModel.v
theories/DistSHTBwdProofs.v
theories/DistSHTBwdProofs2.v
theories/Props_DistSHTBwd.v
theories/GpuRwModel.v
theories/GpuRwSpec.v
theories/GpuRwProofs.v
theories/CudaRescaleModel.v
theories/CudaRescaleSpec.v
theories/CudaRescaleProofs.v
theories/CudaRescaleProofs2.v
theories/CudaRescaleProofs3.v
theories/CudaRescaleProofs4.v
theories/CudaRescaleProofs5.v
theories/Props_CudaRescale.v
theories/CudaRingUpModel.v
theories/CudaRingUpSpec.v
theories/CudaRingUpProofs.v
theories/CudaRingUpProofs2.v
theories/CudaRingUpProofs3.v
theories/Props_CudaRingUp.v
theories/GpuRwSyncProofs.v
theories/CudaRingModel.v
theories/GroupKernelProofs.v
theories/CudaRingSpec.v
theories/CudaRingProofs.v
theories/CudaRingProofs2.v
theories/CudaRingProofs3.v
theories/CudaRingProofs4.v
theories/CudaRingProofs5.v
theories/CudaRingProofs6.v
theories/CudaRingProofs7.v
theories/CudaRingProofs8.v
theories/CudaCompactModel.v
theories/CudaCompactProofs.v
theories/Props_CudaRing.v
theories/CudaRingBwdModel.v
theories/CudaRingBwdSpec.v
theories/CudaRingBwdProofs.v
theories/CudaRingBwdProofs2.v
theories/CudaRingBwdProofs3.v
theories/CudaRingBwdProofs4.v
theories/CudaRingBwdProofs5.v
theories/CudaRingBwdProofs6.v
theories/CudaRingBwdProofs7.v
theories/CudaRingBwdProofs8.v
theories/CudaRingBwdProofs9.v
theories/CudaRingBwdProofs10.v
theories/Props_CudaRingBwd.v
theories/Props_CudaRingBwd1.v
theories/CudaRankModel.v
theories/CudaRankSpec.v
theories/CudaRankProofs.v
theories/CudaRankProofs2.v
theories/CudaRankProofs3.v
theories/Props_CudaRank.v
theories/CudaRankUpModel.v
theories/CudaRankUpSpec.v
theories/CudaRankUpProofs.v
theories/CudaRankUpProofs2.v
theories/Props_CudaRankUp.v
theories/RealFFT2Model.v
theories/RealFFT2Spec.v
theories/RealFFT2Proofs.v
theories/Props_RealFFT2.v
theories/MixedPrecModel.v
theories/MixedPrecSpec.v
theories/MixedPrecProofs.v
theories/Props_MixedPrec.v
theories/DatasetModel.v
theories/DatasetSpec.v
theories/DatasetProofs.v
theories/DatasetProofs2.v
theories/DatasetProofs3.v
theories/Props_Dataset.v
theories/DownloadModel.v
theories/DownloadSpec.v
theories/DownloadProofs.v
theories/Props_Download.v
theories/PdeDataModel.v
theories/PdeDataSpec.v
theories/PdeDataProofs.v
theories/PdeDataProofs2.v
theories/PdeDataProofs3.v
theories/Props_PdeData.v
theories/MolaModel.v
theories/MolaSpec.v
theories/MolaProofs.v
theories/Props_Mola.v
theories/RingTypesModel.v
theories/RingTypesProofs.v
theories/Props_RingTypes.v
theories/LayoutModel.v
theories/LayoutSpec.v
theories/LayoutProofs.v
theories/Props_Layout.v
theories/ConvertModel.v
theories/ConvertSpec.v
theories/ConvertProofs.v
theories/Props_Convert.v
theories/GrfMoveModel.v
theories/GrfMoveSpec.v
theories/GrfMoveProofs.v
theories/Props_GrfMove.v
theories/PlotModel.v
theories/PlotSpec.v
theories/PlotProofs.v
theories/Props_Plot.v
