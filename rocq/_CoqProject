-Q theories Verif
theories/BSpline.v
theories/BSplineProofs.v
theories/BSplineProofs2.v
theories/Base.v
theories/Basis.v
theories/BasisProofs.v
theories/BasisVector.v
theories/BasisVectorProofs.v
theories/BasisWitness.v
theories/Bgle.v
theories/BgleProofs.v
theories/Build.v
theories/BuildProofs.v
theories/Calculus.v
theories/Colored.v
theories/ColoredProofs.v
theories/ColoredProofs2.v
theories/ColoredProofs3.v
theories/ColoredProofs4.v
theories/CompositeProofs.v
theories/Construct.v
theories/ConstructProofs.v
theories/Convergence.v
theories/ConvergenceInt.v
theories/ConvergenceMain.v
theories/ConvergenceMain2.v
theories/ConvergenceMain3.v
theories/ConvergenceProofs.v
theories/ConvergenceWit.v
theories/CorrNoiseProofs.v
theories/Correlation.v
theories/CorrelationProofs.v
theories/CorrelationSpec.v
theories/CorrsLoop.v
theories/CorrsProofs.v
theories/Describe.v
theories/DescribeProofs.v
theories/Estimator.v
theories/EstimatorProofs.v
theories/EstimatorProofs2.v
theories/EstimatorProofs3.v
theories/EstimatorSpec.v
theories/Evaluate.v
theories/EvaluateProofs.v
theories/EvolveConv.v
theories/EvolveNoise.v
theories/EvolveProofs.v
theories/FKernel.v
theories/FKernelLaws.v
theories/FKernelLaws2.v
theories/FKernelProofs.v
theories/FKernelProofs2.v
theories/FKernelSpec.v
theories/FemLayout.v
theories/FemLayoutProofs.v
theories/Finder.v
theories/FinderProofs.v
theories/FitMemory.v
theories/FitMemoryProofs.v
theories/Flux.v
theories/Frames.v
theories/FramesProofs.v
theories/FramesProofs2.v
theories/Friction.v
theories/FrictionProofs.v
theories/Gfpe.v
theories/GfpeProofs.v
theories/GfpeWitness.v
theories/Indicator.v
theories/IndicatorMain.v
theories/IndicatorProofs.v
theories/Integrator.v
theories/IntegratorProofs.v
theories/IntegratorProofs2.v
theories/IntegratorWitness.v
theories/KernelSpec.v
theories/KernelValues.v
theories/LocalBasis.v
theories/LocalBasisProofs.v
theories/MemoryProofs.v
theories/MemorySpec.v
theories/Mesh.v
theories/MeshProofs.v
theories/Model.v
theories/Mx11.v
theories/Noise.v
theories/NoiseCorr.v
theories/NoiseProofs.v
theories/NoiseWitness.v
theories/Parallel.v
theories/ParallelProofs.v
theories/Pmf.v
theories/PmfProofs.v
theories/PmfWitness.v
theories/PosColored.v
theories/PosColoredProofs.v
theories/PosMass.v
theories/PosMassProofs.v
theories/ProjCorrs.v
theories/ProjCorrsProofs.v
theories/Projected.v
theories/ProjectedProofs.v
theories/Prony.v
theories/PronyEval.v
theories/PronyEvalProofs.v
theories/PronyEvalProofs2.v
theories/PronyEvalProofs3.v
theories/PronyEvalSpec.v
theories/PronyEvalWitness.v
theories/PronyKernel.v
theories/PronyKernelProofs.v
theories/PronyKernelProofs2.v
theories/PronyProofs.v
theories/PronyProofs2.v
theories/PronyProofs3.v
theories/PronyWitness.v
theories/PropBSpline.v
theories/PropBasis.v
theories/PropBgle.v
theories/PropBuild.v
theories/PropColored.v
theories/PropConstruct.v
theories/PropConvergence.v
theories/PropCorrNoise.v
theories/PropCorrelation.v
theories/PropCorrs.v
theories/PropData.v
theories/PropEstimator.v
theories/PropEvaluate.v
theories/PropEvolveConv.v
theories/PropEvolveNoise.v
theories/PropEvolvePipe.v
theories/PropFinder.v
theories/PropFrames.v
theories/PropFriction.v
theories/PropGfpe.v
theories/PropIndicator.v
theories/PropIntegrator.v
theories/PropKernel.v
theories/PropLayout.v
theories/PropMemory.v
theories/PropMesh.v
theories/PropNoise.v
theories/PropNoiseCorr.v
theories/PropPmf.v
theories/PropPosColored.v
theories/PropPosMass.v
theories/PropProjCorrs.v
theories/PropProjected.v
theories/PropProny.v
theories/PropPronyEval.v
theories/PropPronyKernel.v
theories/PropSaveLoad.v
theories/PropSavedFiles.v
theories/PropSharedData.v
theories/PropSizes.v
theories/PropSmooth.v
theories/PropStability.v
theories/PropVolterra.v
theories/PropWorkflow.v
theories/Quadrature.v
theories/RangeProj.v
theories/RangeProjProofs.v
theories/RealsExp.v
theories/RealsMC.v
theories/SaveLoad.v
theories/SaveLoadProofs.v
theories/SavedFiles.v
theories/SavedFilesProofs.v
theories/SharedData.v
theories/SharedDataProofs.v
theories/Sizes.v
theories/Smooth.v
theories/SmoothProofs.v
theories/StabilityProofs.v
theories/Tactics.v
theories/VolterraMain.v
theories/VolterraWitness.v
theories/Workflow.v
theories/WorkflowProofs.v
theories/WorkflowWitness.v
