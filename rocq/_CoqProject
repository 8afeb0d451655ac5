-Q theories Verif

theories/Base/Py.v
theories/Base/Vec.v
theories/Model/Regularizers.v
theories/Spec/ProxSpec.v
theories/Proofs/VecFacts.v
theories/Proofs/ScalarProx.v
theories/Spec/RegSpec.v
theories/Proofs/L0Proofs.v
theories/Proofs/RegularizerProofs.v
theories/Proofs/L0LMEProofs.v
theories/Proofs/RegularizersMain.v
theories/Properties/Regularizers.v
theories/Model/Logger.v
theories/Model/Solvers.v
theories/Spec/SolverSpec.v
theories/Proofs/SolverProofs.v
theories/Proofs/SolversMain.v
theories/Properties/Solvers.v
theories/Base/Mat.v
theories/Model/Priors.v
theories/Model/Linear.v
theories/Proofs/MatFacts.v
theories/Spec/LinearSpec.v
theories/Proofs/LinearProofs.v
theories/Proofs/LinearMain.v
theories/Properties/Linear.v
theories/Spec/RateSpec.v
theories/Spec/ConvergeSpec.v
theories/Proofs/RateProofs.v
theories/Proofs/LinearRateMain.v
theories/Proofs/ConvergeProofs.v
theories/Proofs/ConvergeMain.v
theories/Properties/LinearRate.v
theories/Properties/Converge.v
theories/Proofs/LinearCriterionMain.v
theories/Properties/LinearCriterion.v
theories/Model/LmeProblem.v
theories/Model/LmePredict.v
theories/Spec/LmeSpec.v
theories/Proofs/LmeProblemProofs.v
theories/Proofs/LmeProblemMain.v
theories/Proofs/LmeDataMain.v
theories/Proofs/LmePredictMain.v
theories/Proofs/FitPredictProofs.v
theories/Properties/LmeProblem.v
theories/Properties/LmeData.v
theories/Properties/LmePredict.v
theories/Base/RMx.v
theories/Model/LmeOracle.v
theories/Spec/MxSpec.v
theories/Proofs/MxFacts.v
theories/Proofs/LmeOracleProofs.v
theories/Proofs/LmeDerivatives.v
theories/Proofs/LmeEstimates.v
theories/Proofs/LmeBlup.v
theories/Proofs/LmeCriteria.v
theories/Proofs/LmeOracleMain.v
theories/Properties/LmeOracle.v
theories/Proofs/LmeEstimateMain.v
theories/Properties/LmeEstimate.v
theories/Model/LmeInner.v
theories/Spec/InnerSpec.v
theories/Proofs/InnerProofs.v
theories/Proofs/InnerLoops.v
theories/Proofs/InnerIP.v
theories/Proofs/InnerGamma.v
theories/Proofs/LmeInnerMain.v
theories/Properties/LmeInner.v
theories/Model/LmeTrace.v
theories/Model/LmeDiagnostics.v
theories/Model/LmeFrame.v
theories/Spec/FrameSpec.v
theories/Spec/DiagnosticsSpec.v
theories/Model/LmeFit.v
theories/Model/LmeBridge.v
theories/Model/LmeUse.v
theories/Spec/UseSpec.v
theories/Spec/FitSpec.v
theories/Proofs/FitProofs.v
theories/Proofs/BridgeProofs.v
theories/Proofs/LmeFitMain.v
theories/Properties/LmeFit.v
theories/Proofs/ReportProofs.v
theories/Proofs/LmeReportMain.v
theories/Properties/LmeReport.v
theories/Model/LmeSelect.v
theories/Spec/SelectSpec.v
theories/Proofs/SelectProofs.v
theories/Proofs/SelectExample.v
theories/Proofs/LmeSelectMain.v
theories/Properties/LmeSelect.v
theories/Model/LmeCache.v
theories/Spec/CacheSpec.v
theories/Proofs/CacheProofs.v
theories/Proofs/LmeCacheMain.v
theories/Properties/LmeCache.v
theories/Model/Lifecycle.v
theories/Spec/LifeSpec.v
theories/Proofs/LifecycleMain.v
theories/Properties/Lifecycle.v
theories/Proofs/LmeUseMain.v
theories/Properties/LmeUse.v
theories/Spec/OrderSpec.v
theories/Proofs/OrderProofs.v
theories/Proofs/OrderTable.v
theories/Proofs/LmeOrderMain.v
theories/Properties/LmeOrder.v
theories/Spec/StationarySpec.v
theories/Proofs/LmeStationaryMain.v
theories/Properties/LmeStationary.v
theories/Spec/LogSpec.v
theories/Spec/TraceSpec.v
theories/Proofs/TraceProofs.v
theories/Proofs/LogProofs.v
theories/Proofs/LmeLogMain.v
theories/Properties/LmeLog.v
theories/Model/Float64.v
theories/Model/Float64Solver.v
theories/Spec/Float64Spec.v
theories/Proofs/Float64Proofs.v
theories/Proofs/Float64Main.v
theories/Properties/Float64.v
theories/Proofs/Float64SolverProofs.v
theories/Proofs/Float64SolverMain.v
theories/Properties/Float64Solver.v
theories/Model/Options.v
theories/Spec/OptionsSpec.v
theories/Proofs/OptionsProofs.v
theories/Proofs/OptionsMain.v
theories/Properties/Options.v
theories/Spec/UnitsSpec.v
theories/Proofs/UnitsProofs.v
theories/Proofs/LmeUnitsMain.v
theories/Properties/LmeUnits.v
theories/Spec/GroupSpec.v
theories/Proofs/GroupProofs.v
theories/Proofs/GroupTable.v
theories/Proofs/LmeGroupsMain.v
theories/Properties/LmeGroups.v
theories/Proofs/LmeTraceMain.v
theories/Properties/LmeTrace.v
theories/Proofs/LmeDiagnosticsMain.v
theories/Properties/LmeDiagnostics.v
theories/Proofs/LmeFrameMain.v
theories/Properties/LmeFrame.v
theories/Spec/BoundSpec.v
theories/Proofs/BoundProofs.v
theories/Proofs/BoundFit.v
theories/Proofs/LmeBoundMain.v
theories/Properties/LmeBound.v
theories/Model/LmeSplit.v
theories/Spec/SplitSpec.v
theories/Proofs/SplitProofs.v
theories/Proofs/SplitFit.v
theories/Proofs/LmeSplitMain.v
theories/Properties/LmeSplit.v
theories/Spec/ColumnSpec.v
theories/Proofs/ColumnProofs.v
theories/Proofs/ColumnFit.v
theories/Proofs/ColumnCases.v
theories/Proofs/LinearColumnsMain.v
theories/Properties/LinearColumns.v
theories/Spec/ShrinkSpec.v
theories/Proofs/ShrinkProofs.v
theories/Proofs/LinearShrinkMain.v
theories/Properties/LinearShrink.v
theories/Spec/ContinueSpec.v
theories/Proofs/ContinueProofs.v
theories/Proofs/ContinueMain.v
theories/Properties/Continue.v
theories/Model/LmeJoint.v
theories/Spec/JointSpec.v
theories/Proofs/LmeJointMain.v
theories/Properties/LmeJoint.v
theories/Spec/PgdTraceSpec.v
theories/Proofs/PgdTraceMain.v
theories/Properties/PgdTrace.v
theories/Spec/PracticalSpec.v
theories/Proofs/ApartProofs.v
theories/Proofs/PracticalProofs.v
theories/Proofs/LmePracticalMain.v
theories/Properties/LmePractical.v
theories/Spec/DistanceSpec.v
theories/Proofs/DistanceProofs.v
theories/Proofs/LinearDistanceMain.v
theories/Properties/LinearDistance.v
theories/Spec/SelectionSpec.v
theories/Proofs/SelectionProofs.v
theories/Proofs/LinearSelectionMain.v
theories/Properties/LinearSelection.v
theories/Spec/EmSpec.v
theories/Proofs/EmProofs.v
theories/Proofs/LmeEmMain.v
theories/Properties/LmeEm.v
theories/Spec/PriorSpec.v
theories/Proofs/PriorProofs.v
theories/Proofs/LmePriorMain.v
theories/Properties/LmePrior.v
theories/Spec/NoiseSpec.v
theories/Proofs/LinearNoiseMain.v
theories/Properties/LinearNoise.v
theories/Spec/RelaxSpec.v
theories/Proofs/RelaxProofs.v
theories/Proofs/LinearRelaxMain.v
theories/Properties/LinearRelax.v
theories/Spec/FeatureSpec.v
theories/Spec/FeatureTableSpec.v
theories/Spec/FeatureLogSpec.v
theories/Proofs/FeatureProofs.v
theories/Proofs/FeatureTable.v
theories/Proofs/FeatureFit.v
theories/Proofs/FeatureCoefs.v
theories/Proofs/FeatureBridge.v
theories/Proofs/FeatureInner.v
theories/Proofs/FeatureRelaxed.v
theories/Proofs/FeatureRelaxedBridge.v
theories/Proofs/FeatureTwin.v
theories/Proofs/LmeFeaturesMain.v
theories/Properties/LmeFeatures.v
theories/Spec/ShrinkLmeSpec.v
theories/Proofs/ShrinkLme.v
theories/Proofs/ShrinkZero.v
theories/Proofs/ShrinkBridge.v
theories/Proofs/LmeShrinkMain.v
theories/Properties/LmeShrink.v
theories/Spec/FlipSpec.v
theories/Proofs/FlipFit.v
theories/Proofs/FlipInner.v
theories/Proofs/FlipRelaxed.v
theories/Proofs/FlipRelaxedBridge.v
theories/Proofs/FlipTable.v
theories/Proofs/FlipBridge.v
theories/Proofs/FlipPredict.v
theories/Proofs/FlipTwin.v
theories/Proofs/FeaturePredict.v
theories/Proofs/PriorFit.v
theories/Proofs/LmeSignsMain.v
theories/Properties/LmeSigns.v
theories/Model/SolverCalls.v
theories/Proofs/SolverCallsMain.v
theories/Properties/SolverCalls.v
theories/Spec/ZeroSpec.v
theories/Spec/ZeroLinearSpec.v
theories/Proofs/ZeroProofs.v
theories/Proofs/ZeroLinear.v
theories/Proofs/LmeZeroMain.v
theories/Properties/LmeZero.v
