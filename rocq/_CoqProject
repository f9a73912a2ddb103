-Q theories Verif

theories/Base.v
theories/Num.v
theories/Heap.v
theories/Sparse.v
theories/TopkModel.v
theories/TopkSpec.v
theories/TopkProofs.v
theories/TopkBatch.v
theories/RecommendModel.v
theories/RecommendProofs.v
theories/RecommendProofs2.v
theories/PropRecommend.v
theories/PropSimilar.v
theories/PropTopk.v
theories/RVec.v
theories/RecommendBatch.v
theories/RecommendProofs3.v
theories/SimilarBatch.v
theories/SimilarProofs.v
theories/KnnAcc.v
theories/KnnConc.v
theories/KnnModel.v
theories/KnnProofs.v
theories/KnnRec.v
theories/KnnRec2.v
theories/PropKnn.v
theories/MetricsModel.v
theories/MetricsProofs.v
theories/MetricsProofs2.v
theories/PropWeight.v
theories/WeightModel.v
theories/WeightProofs.v
theories/PropMetrics.v
theories/PropSplit.v
theories/SplitModel.v
theories/SplitProofs.v
theories/AlsConc.v
theories/AlsLoss.v
theories/AlsModel.v
theories/AlsProofs.v
theories/AlsProofs2.v
theories/AlsSpec.v
theories/CgProofs.v
theories/PosvImpl.v
theories/PropAls.v
theories/PropCg.v
theories/RowConc.v
theories/ExplainModel.v
theories/ExplainProofs.v
theories/PropExplain.v
theories/AlsState.v
theories/AlsStateProofs.v
theories/PropAlsState.v
theories/BprModel.v
theories/BprProofs.v
theories/BprProofs2.v
theories/PropBpr.v
theories/PropRefit.v
theories/ThreadProg.v
theories/LmfModel.v
theories/LmfProofs.v
theories/MfState.v
theories/PropLmf.v
theories/PropMfState.v
theories/RaceFree.v
theories/AnnModel.v
theories/AnnProofs.v
theories/PropAnn.v
theories/PropAnn2.v
theories/PropAnn3.v
theories/PersistModel.v
theories/PropPersist.v
theories/PropPersist2.v
theories/PropPersist3.v
theories/GpuDot.v
theories/GpuDotConc.v
theories/GpuDotProofs.v
theories/PropGpuDot.v
theories/GpuKnn.v
theories/GpuKnnProofs.v
theories/GpuKnnProofs2.v
theories/GpuKnnProofs3.v
theories/GpuKnnProofs4.v
theories/PropGpuKnn.v
theories/Datasets.v
theories/Offsets.v
theories/PropDatasets.v
theories/PropOffsets.v
theories/CgExact.v
theories/GpuAls.v
theories/GpuAlsProofs.v
theories/GpuAlsProofs2.v
theories/GpuAlsProofs3.v
theories/PropCgExact.v
theories/PropGpuAls.v
theories/PropGpuPartial.v
theories/GpuBpr.v
theories/GpuBprProofs.v
theories/PropGpuBpr.v
theories/Relabel.v
theories/StorageProofs.v
theories/PropStorage.v
theories/GnuHeap.v
theories/GnuHeapProofs.v
theories/FloatModel.v
theories/FloatProofs.v
theories/FitCheck.v
theories/PropFloat.v
theories/RepoTests.v
theories/PropMore.v
theories/PropAnn4.v
theories/GpuMatrix.v
theories/PropAlsMore.v
theories/PropGpuMatrix.v
theories/DatasetGen.v
theories/PropDatasetGen.v
theories/MatrixArgs.v
theories/PropMatrixArgs.v
theories/Factory.v
theories/PropFactory.v
theories/PropAlsMono.v
theories/PropMetricsMono.v
theories/Examples.v
theories/PropExamples.v
theories/PropWeightScale.v
theories/Resume.v
theories/PropResume.v
theories/PropAlsConverge.v
theories/ScaleProofs.v
theories/PropScale.v
theories/PropFilterSets.v
theories/PropMetricsLabels.v
theories/PropFilterKnn.v
theories/EmptyProofs.v
theories/PropEmpty.v
theories/EmptyProofs2.v
theories/PropEmpty2.v
theories/PropEmptyKnn.v
theories/Bench.v
theories/PropBench.v
theories/PropFair.v
theories/PropSplitFair.v
theories/AnnCalls.v
theories/PropAnnCalls.v
theories/PropGpuFair.v
theories/EnvModel.v
theories/PropEnv.v
theories/PropAnnSound.v
theories/AnnIvf.v
theories/PropAnnIvf.v
theories/MetricsDouble.v
theories/DoubleProofs.v
theories/Log3.v
theories/MetricsDoubleProofs.v
theories/PropMetricsDouble.v
theories/SimilarRound.v
theories/SimilarRoundProofs.v
theories/PropSimilarRound.v
theories/PropRecommendRound.v
theories/AnnRound.v
theories/PropAnnRound.v
theories/BlasModel.v
theories/BlasProofs.v
theories/PropBlas.v
theories/LossRound.v
theories/LossRoundProofs.v
theories/PropLossRound.v
theories/CosineRound.v
theories/CosineRoundProofs.v
theories/PropCosineRound.v
theories/StartModel.v
theories/PropStart.v
theories/PropGpuErrors.v
theories/PropAnnNoMatrix.v
theories/PropScaleKnn.v
theories/PropScaleKnnRound.v
theories/PropMoreLikes.v
theories/PropSymRound.v
