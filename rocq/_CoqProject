-Q theories Verif
theories/Api.v
theories/Base.v
theories/BasisProofs.v
theories/Batched.v
theories/CrpsProofs.v
theories/EvalBatch.v
theories/EvalProofs.v
theories/EvalUtils.v
theories/Gauss.v
theories/Ggn.v
theories/GgnProofs.v
theories/GgnSpec.v
theories/GridProofs.v
theories/GridSearch.v
theories/GridSpec.v
theories/Keywords.v
theories/LanczosProofs.v
theories/Laplace.v
theories/Likelihood.v
theories/Loader.v
theories/LoaderProofs.v
theories/LobpcgProofs.v
theories/LossProofs.v
theories/LowRankSolvers.v
theories/LowRankSpec.v
theories/Metrics.v
theories/MetricsProofs.v
theories/MetricsSpec.v
theories/Mv.v
theories/MvProofs.v
theories/Normal.v
theories/Objectives.v
theories/OrderProofs.v
theories/P_Api.v
theories/P_ApproxSamples.v
theories/P_Batched.v
theories/P_CalibrateShape.v
theories/P_Calibrated.v
theories/P_CalibrationBins.v
theories/P_Compare.v
theories/P_CustomLoss.v
theories/P_Eval.v
theories/P_Evidence.v
theories/P_EvidenceShape.v
theories/P_GaussNewton.v
theories/P_GaussNewtonLosses.v
theories/P_Ggn.v
theories/P_GpRegression.v
theories/P_Grid.v
theories/P_HessianBatches.v
theories/P_Invariance.v
theories/P_Keywords.v
theories/P_LanczosMoreData.v
theories/P_Laplace.v
theories/P_Leverage.v
theories/P_Likelihood.v
theories/P_LinSpecial.v
theories/P_LinearOps.v
theories/P_Loader.v
theories/P_LowRank.v
theories/P_Metrics.v
theories/P_Minibatch.v
theories/P_MinibatchDiag.v
theories/P_MinibatchDraws.v
theories/P_MinibatchEvidence.v
theories/P_MinibatchVar.v
theories/P_Monotone.v
theories/P_MonotoneDiag.v
theories/P_MonotoneLanczos.v
theories/P_MonteCarlo.v
theories/P_Nonlinear.v
theories/P_Objectives.v
theories/P_Operands.v
theories/P_Pipeline.v
theories/P_PipelineApprox.v
theories/P_Posterior.v
theories/P_PredictedClass.v
theories/P_Predictives.v
theories/P_Pushforward.v
theories/P_Registry.v
theories/P_Regression.v
theories/P_ScalarMean.v
theories/P_Scores.v
theories/P_Tree.v
theories/P_TreeMll.v
theories/P_TreeMore.v
theories/P_Units.v
theories/Pipeline.v
theories/PipelineApprox.v
theories/PipelineProofs.v
theories/PipelineSpec.v
theories/Posterior.v
theories/PosteriorProofs.v
theories/PosteriorSpec.v
theories/PosteriorTree.v
theories/Predictives.v
theories/PredictivesProofs.v
theories/Pushforward.v
theories/PushforwardProofs.v
theories/PushforwardSpec.v
theories/PyTree.v
theories/PyTreeProofs.v
theories/RealStruct.v
theories/RealSums.v
theories/Registry.v
theories/StackProofs.v
theories/TreeGgn.v
theories/TreeMll.v
theories/TreeMore.v
theories/TreeOpsProofs.v
theories/TreeSpec.v
theories/UnravelProofs.v
