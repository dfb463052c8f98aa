-Q theories Verif

theories/Graph.v
theories/GraphSpec.v
theories/GraphProofs.v
theories/BayesBall.v
theories/BayesBallSpec.v
theories/BayesBallProofs.v
theories/GraphProps.v
theories/Simplify.v
theories/SimplifySpec.v
theories/SimplifyTermProofs.v
theories/SimplifyRoundProofs.v
theories/SimplifyProofs.v
theories/SimplifyExtractProofs.v
theories/SimplifyRefuteProofs.v
theories/SimplifyProps.v
theories/Ext.v
theories/ConjLogProb.v
theories/ConjSpec.v
theories/ConjProofs.v
theories/Conjugacy.v
theories/ConjugacySpec.v
theories/SimplifyTensProofs.v
theories/ConjugacyProofs.v
theories/ConjProps.v
theories/Copy.v
theories/CopySpec.v
theories/CopyProofs.v
theories/CopySubstProofs.v
theories/CopyStateProofs.v
theories/CopyFinalProofs.v
theories/CopyFlagProofs.v
theories/CopyQSpec.v
theories/CopyQProofs.v
theories/CopyNameProofs.v
theories/CopyProps.v
theories/Checks.v
theories/ChecksSpec.v
theories/ChecksProofs.v
theories/ChecksProps.v
theories/Transform.v
theories/TransformSpec.v
theories/TransformProofs.v
theories/TransformProps.v
theories/Lifecycle.v
theories/LifecycleSpec.v
theories/LifecycleProofs.v
theories/Feed.v
theories/FeedSpec.v
theories/FeedProofs.v
theories/LifecycleProps.v
theories/Progbar.v
theories/ProgbarSpec.v
theories/ProgbarProofs.v
theories/ProgbarProps.v
theories/MonteCarlo.v
theories/MonteCarloSpec.v
theories/MonteCarloProofs.v
theories/MH.v
theories/MHSpec.v
theories/ExtProofs.v
theories/MHProofs.v
theories/HMC.v
theories/HMCSpec.v
theories/HMCProofs.v
theories/ChainProofs.v
theories/MonteCarloProps.v
theories/SGLD.v
theories/SGLDSpec.v
theories/SGLDProofs.v
theories/SamplerProofs.v
theories/Gibbs.v
theories/GibbsSpec.v
theories/GibbsProofs.v
theories/GibbsLawProofs.v
theories/SamplerProps.v
theories/Replica.v
theories/ReplicaSpec.v
theories/ReplicaProofs.v
theories/ReplicaMoveProofs.v
theories/ReplicaRunProofs.v
theories/ReplicaProps.v
theories/ResetOps.v
theories/ResetSpec.v
theories/ResetProofs.v
theories/ResetProps.v
theories/VI.v
theories/VISpec.v
theories/VIProofs.v
theories/VIGradProofs.v
theories/VIRefuteProofs.v
theories/KLpqProofs.v
theories/VIIntegralSpec.v
theories/VIIntegralProofs.v
theories/VIProps.v
theories/Optim.v
theories/OptimSpec.v
theories/OptimProofs.v
theories/GAN.v
theories/GANSpec.v
theories/GANProofs.v
theories/Laplace.v
theories/LaplaceSpec.v
theories/LaplaceProofs.v
theories/GANLossProofs.v
theories/TrainProps.v
theories/RandomVar.v
theories/RandomVarSpec.v
theories/RandomVarProofs.v
theories/Empirical.v
theories/EmpiricalSpec.v
theories/EmpiricalProofs.v
theories/DP.v
theories/DPSpec.v
theories/DPProofs.v
theories/Mixture.v
theories/MixtureSpec.v
theories/MixtureProofs.v
theories/ModelProps.v
theories/Util.v
theories/UtilSpec.v
theories/UtilProofs.v
theories/KernelProofs.v
theories/Mode.v
theories/ModeSpec.v
theories/ModeProofs.v
theories/UtilProps.v
theories/Metrics.v
theories/MetricsSpec.v
theories/MetricsProofs.v
theories/Evaluate.v
theories/EvaluateSpec.v
theories/EvaluateProofs.v
theories/Predict.v
theories/Ppc.v
theories/PpcSpec.v
theories/PpcProofs.v
theories/Session.v
theories/SessionSpec.v
theories/SessionProofs.v
theories/PredictSpec.v
theories/PredictProofs.v
theories/CriticismProps.v
theories/CopyCallProofs.v
theories/LogJoint.v
theories/LogJointSpec.v
theories/LogJointProofs.v
theories/LogJointMoreProofs.v
theories/LogJointProps.v
theories/RBSpec.v
theories/RBProofs.v
theories/VIMoreSpec.v
theories/VIMoreProofs.v
theories/RBExampleProofs.v
theories/RBIntegralSpec.v
theories/RBIntegralProofs.v
theories/RBIntegralExampleProofs.v
theories/WakeIntegralProofs.v
theories/VIMoreProps.v
theories/RBScaleProofs.v
theories/RBScaleExampleProofs.v
theories/RBScaleProps.v
theories/Default.v
theories/DefaultSpec.v
theories/DefaultProofs.v
theories/DefaultProps.v
theories/CondJoint.v
theories/CondJointSpec.v
theories/CondJointProofs.v
theories/CondJointProps.v
theories/RVProgram.v
theories/RVProgramSpec.v
theories/RVProgramProofs.v
theories/RVNumberProofs.v
theories/RVProgramProps.v
theories/LogVars.v
theories/LogVarsSpec.v
theories/LogVarsProofs.v
theories/LogTagsSpec.v
theories/LogTagsProofs.v
theories/LogVarsProps.v
theories/Seeds.v
theories/SeedsSpec.v
theories/SeedsProofs.v
theories/SeedsProps.v
theories/CopyLoop.v
theories/CopyLoopSpec.v
theories/CopyLoopProofs.v
theories/CopyLoopProps.v
theories/InvariantSpec.v
theories/InvariantProofs.v
theories/InvariantProps.v
theories/Options.v
theories/OptionsSpec.v
theories/OptionsProofs.v
theories/OptionsProps.v
theories/Schedule.v
theories/ScheduleSpec.v
theories/ScheduleProofs.v
theories/ScheduleSamplerProofs.v
theories/ScheduleRatioProofs.v
theories/ScheduleExampleProofs.v
theories/ScheduleProps.v
theories/GibbsBlockSpec.v
theories/GibbsBlockProofs.v
theories/GibbsBlockExampleProofs.v
theories/GibbsBlockProps.v
theories/TConj.v
theories/TConjSpec.v
theories/TConjProofs.v
theories/TConjExampleProofs.v
theories/TConjProps.v
theories/FullCondSpec.v
theories/FullCondProofs.v
theories/FullCondExampleProofs.v
theories/FullCondProps.v
theories/VolumeSpec.v
theories/VolumeProofs.v
theories/VolumeMassProofs.v
theories/VolumeStepProofs.v
theories/VolumeHMCSpec.v
theories/VolumeFlatProofs.v
theories/VolumeHMCProofs.v
theories/VolumeExampleProofs.v
theories/VolumeProps.v
theories/VolumeFubiniProofs.v
theories/VolumeWalkSpec.v
theories/VolumeWalkProofs.v
theories/VolumeWalkExampleProofs.v
theories/VolumeWalkProps.v
theories/VolumeDeriveSpec.v
theories/VolumeDeriveProofs.v
theories/VolumeDeriveExampleProofs.v
theories/VolumeDeriveProps.v
theories/VolumeGibbsSpec.v
theories/VolumeGibbsProofs.v
theories/VolumeGibbsExampleProofs.v
theories/VolumeGibbsProps.v
theories/Proposals.v
theories/ProposalsProofs.v
theories/ProposalsProps.v
theories/Debug.v
theories/DebugSpec.v
theories/DebugProofs.v
theories/DebugProps.v
theories/Compose.v
theories/ComposeSpec.v
theories/ComposeProofs.v
theories/ComposeExampleProofs.v
theories/ComposeProps.v
theories/SubsampleSpec.v
theories/SubsampleProofs.v
theories/SubsampleExampleProofs.v
theories/SubsampleProps.v
theories/LaplaceJoint.v
theories/LaplaceJointSpec.v
theories/LaplaceJointProofs.v
theories/LaplaceJointProps.v
theories/KLShape.v
theories/KLShapeSpec.v
theories/KLShapeProofs.v
theories/KLShapeProps.v
theories/Steps.v
theories/StepsSpec.v
theories/StepsProofs.v
theories/StepsProps.v
theories/SGLDLimitSpec.v
theories/SGLDLimitProofs.v
theories/SGLDJointSpec.v
theories/SGLDJointProofs.v
theories/SGLDLimitProps.v
theories/Penalty.v
theories/PenaltySpec.v
theories/PenaltyProofs.v
theories/PenaltyProps.v
theories/SGHMCLimitSpec.v
theories/SGHMCLimitProofs.v
theories/SGHMCLimitProps.v
theories/ForgetSpec.v
theories/ForgetProofs.v
theories/ForgetWalkProofs.v
theories/ForgetGibbsProofs.v
theories/ForgetHMCProofs.v
theories/ForgetProps.v
theories/ElboSpec.v
theories/ElboProofs.v
theories/ElboRealProofs.v
theories/ElboDemoProofs.v
theories/ElboNormalProofs.v
theories/ElboProps.v
theories/KLpqLimitProofs.v
theories/KLpqLimitProps.v
theories/AverageSpec.v
theories/AverageProofs.v
theories/AverageWalkProofs.v
theories/AverageRealProofs.v
theories/AverageHMCProofs.v
theories/AverageProps.v
theories/HMCAcceptSpec.v
theories/HMCAcceptProofs.v
theories/HMCAcceptProps.v
theories/FeedHistory.v
theories/FeedHistorySpec.v
theories/FeedHistoryProofs.v
theories/FeedHistoryProps.v
theories/SGHMCJointProofs.v
theories/SGHMCJointProps.v
theories/SamplerReset.v
theories/SamplerResetSpec.v
theories/SamplerResetProofs.v
theories/SamplerResetGibbsProofs.v
theories/SamplerResetProps.v
theories/ImplicitLoss.v
theories/ImplicitLossSpec.v
theories/ImplicitLossProofs.v
theories/ImplicitLossProps.v
