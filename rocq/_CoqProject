-Q theories Verif
theories/Base/Py.v
theories/Base/Lists.v
theories/Model/DataBatches.v
theories/Spec/Batches.v
theories/Proofs/Batches.v
theories/Props/PBatches.v
theories/Model/Stepsize.v
theories/Model/BaseClasses.v
theories/Spec/Sampler.v
theories/Proofs/Sampler.v
theories/Proofs/SamplerHistory.v
theories/Props/PSampler.v
theories/Base/Num.v
theories/Base/Vec.v
theories/Base/Slice.v
theories/Model/TensorUtils.v
theories/Spec/Tensor.v
theories/Proofs/Tensor.v
theories/Proofs/Distances.v
theories/Proofs/SafeFloat.v
theories/Props/PTensor.v
theories/Model/BurnIn.v
theories/Model/SGHMC.v
theories/Model/SGLD.v
theories/Spec/Dynamics.v
theories/Spec/Averages.v
theories/Proofs/Dynamics.v
theories/Spec/Trajectory.v
theories/Proofs/Trajectory.v
theories/Proofs/Finite.v
theories/Props/PDynamics.v
theories/Props/PChain.v
theories/Props/PGaussian.v
theories/Props/PCoverage.v
theories/Model/Session.v
theories/Model/Relativistic.v
theories/Model/SVGD.v
theories/Model/Graph.v
theories/Proofs/Determinacy.v
theories/Proofs/Graphs.v
theories/Proofs/Stability.v
theories/Spec/Svgd.v
theories/Proofs/Session.v
theories/Proofs/Chain.v
theories/Proofs/ChainKernels.v
theories/Proofs/KernelHistory.v
theories/Props/PSession.v
theories/Props/PNoise.v
theories/Props/PRelativistic.v
theories/Proofs/Svgd.v
theories/Proofs/SvgdStep.v
theories/Proofs/SvgdFinite.v
theories/Props/PSVGD.v
theories/Model/Sampling.v
theories/Spec/Sampling.v
theories/Props/PSampling.v
theories/Model/ComputeEss.v
theories/Props/PConstructor.v
theories/Props/PComputeEss.v
theories/Model/BaseModel.v
theories/Spec/Stats.v
theories/Props/PBaseModel.v
theories/Model/SampleChains.v
theories/Spec/Traces.v
theories/Props/PTraces.v
theories/Model/Objectives.v
theories/Spec/Optima.v
theories/Props/PObjectives.v
theories/Model/BNN.v
theories/Model/DefaultNet.v
theories/Spec/Network.v
theories/Spec/Chain.v
theories/Spec/Gaussian.v
theories/Spec/Coverage.v
theories/Proofs/Loop.v
theories/Proofs/Train.v
theories/Props/PGraph.v
theories/Props/PBNN.v
theories/Props/PBNNDemo.v
theories/Props/PBNNArgs.v
theories/Props/PPredict.v
theories/Props/PPredictDemo.v
theories/Spec/Units.v
theories/Props/PUnits.v
theories/Props/PPointwise.v
theories/Props/PWidths.v
theories/Props/PFeed.v
theories/Spec/Shuffle.v
theories/Proofs/Shuffle.v
theories/Proofs/Mixing.v
theories/Props/PShuffle.v
theories/Props/PShuffledSource.v
theories/Props/PSeedReuse.v
theories/Proofs/TrainChain.v
theories/Props/PTrainChain.v
theories/Spec/Posterior.v
theories/Props/PPosterior.v
theories/Model/SvgdSession.v
theories/Spec/SvgdChain.v
theories/Props/PSvgdChain.v
theories/Props/PForget.v
theories/Proofs/FloatAdapt.v
theories/Proofs/FloatCell.v
theories/Props/PFloatAdapt.v
theories/Props/PErgodic.v
theories/Props/PCoupled.v
theories/Spec/Mlp.v
theories/Spec/Convex.v
theories/Proofs/Convex.v
theories/Props/PConvex.v
theories/Props/PDefaultNet.v
theories/Proofs/Momentum.v
theories/Props/PMomentum.v
theories/Props/PMinibatch.v
theories/Props/PMissing.v
theories/Base/Float64.v
theories/Spec/Doubles.v
theories/Props/PSpoilt.v
theories/Proofs/DoubleCell.v
theories/Proofs/DoubleRun.v
theories/Props/PRange.v
theories/Props/PDoubleData.v
theories/Props/PDoubleTensor.v
theories/Proofs/DoubleRel.v
theories/Props/PDoubleRel.v
theories/Proofs/DoubleMean.v
theories/Props/PDoublePredict.v
theories/Spec/DoubleParticles.v
theories/Proofs/DoubleStein.v
theories/Props/PDoubleSvgd.v
theories/Proofs/DoubleKernel.v
theories/Proofs/DoubleBandwidth.v
theories/Props/PDoubleStein.v
theories/Spec/DoubleObjectives.v
theories/Props/PDoubleObjectives.v
theories/Spec/DoubleMixture.v
theories/Props/PDoubleMixture.v
theories/Spec/DoubleCost.v
theories/Props/PDoubleCost.v
theories/Props/PMomentumBatch.v
theories/Spec/Rounding.v
theories/Props/PRounding.v
theories/Props/PRoundedRun.v
theories/Spec/RoundingMomentum.v
theories/Props/PRoundingMomentum.v
theories/Props/PMomentumRun.v
theories/Props/PDoubleCamel.v
