-Q theories Verif
theories/Base.v
theories/Uuid.v
theories/OrdMap.v
theories/OrdFacts.v
theories/DynObj.v
theories/TrackManager.v
theories/TrackManagerSpec.v
theories/TrackManagerProofs.v
theories/TrackManagerThms.v
theories/TrackManagerExamples.v
theories/TrackManagerUpdate.v
theories/Properties_TrackManager.v
theories/Scoring.v
theories/ScoringSpec.v
theories/ScoringThms.v
theories/Properties_Scoring.v
theories/Float.v
theories/DlibMatrix.v
theories/Matching.v
theories/MatchingSpec.v
theories/AssignProofs.v
theories/FloatProofs.v
theories/MatchingProofs.v
theories/MatchingThms.v
theories/MatchingExamples.v
theories/Properties_Matching.v
theories/RealField.v
theories/PosDef.v
theories/Correlated.v
theories/Motion.v
theories/RealArith.v
theories/MotionSpec.v
theories/MotionThms.v
theories/DoubleArith.v
theories/DoubleThms.v
theories/Properties_Motion.v
theories/Fusing.v
theories/FusingSpec.v
theories/FusingThms.v
theories/CovInt.v
theories/CovIntThms.v
theories/StateVec.v
theories/StateVecThms.v
theories/PiBounds.v
theories/Distance.v
theories/DistanceThms.v
theories/Properties_Distance.v
theories/MixedFusion.v
theories/FusionVisitor.v
theories/FusionThms.v
theories/Properties_Fusing.v
theories/EigenLlt.v
theories/Unscented.v
theories/Propagation.v
theories/UnscentedThms.v
theories/UnscentedSeam.v
theories/UnscentedShift.v
theories/PiTight.v
theories/UnscentedLoss.v
theories/UnscentedDefinite.v
theories/UnscentedLinear.v
theories/PredictionThms.v
theories/Properties_Prediction.v
theories/Clustering.v
theories/ClusteringSpec.v
theories/ClusteringThms.v
theories/ClusteringCentroid.v
theories/ClusteringExamples.v
theories/Properties_Clustering.v
theories/Rounding.v
theories/RoundingThms.v
theories/RoundingFloat.v
theories/Properties_Rounding.v
theories/Json.v
theories/JsonSpec.v
theories/JsonThms.v
theories/Properties_Json.v
theories/Pipeline.v
theories/PipelineAssoc.v
theories/PipelineThms.v
theories/PipelineLibrary.v
theories/Properties_Pipeline.v
theories/HistorySpec.v
theories/HistoryThms.v
theories/Properties_History.v
theories/StateEq.v
theories/StateArithThms.v
theories/Properties_States.v
theories/Properties_StateVec.v
theories/FloatDistance.v
theories/FloatDistanceThms.v
theories/Properties_FloatDistance.v
theories/SeparationThms.v
theories/SceneSpec.v
theories/SceneThms.v
theories/Properties_Separation.v
theories/Properties_Scene.v
theories/ClusterGroupsThms.v
theories/SumSquares64.v
theories/ClusterDoubleThms.v
theories/Properties_Groups.v
theories/SymmetryThms.v
theories/Properties_Symmetry.v
theories/FrameSpec.v
theories/FrameThms.v
theories/Properties_Frame.v
theories/FloatWeight.v
theories/FloatWeightThms.v
theories/Properties_FloatWeight.v
theories/NotFiniteThms.v
theories/Properties_NotFinite.v
theories/FloatHeading.v
theories/FloatHeadingThms.v
theories/Properties_FloatHeading.v
theories/RepeatSpec.v
theories/RepeatThms.v
theories/Properties_Repeat.v
theories/Properties_HeadingLoss.v
theories/Properties_ClusterDouble.v
theories/Properties_Linear.v
theories/PiDouble.v
theories/TrigSpec.v
theories/AngleAccuracy.v
theories/TrigExists.v
theories/MotionAccuracy.v
theories/MotionMany.v
theories/Properties_Accuracy.v
theories/Approx64.v
theories/CtraAccuracy.v
theories/CtraTiny.v
theories/Properties_CtraAccuracy.v
theories/EqDouble.v
theories/Assignment.v
theories/HungarianThms.v
theories/AssignmentThms.v
theories/Properties_Assignment.v
theories/PipelineDlib.v
theories/DlibSceneSpec.v
theories/DlibSceneThms.v
theories/Properties_DlibScene.v
theories/IdentitySpec.v
theories/IdentityThms.v
theories/Properties_Identity.v
theories/NoiseAccuracy.v
theories/Properties_NoiseAccuracy.v
theories/CentroidDouble.v
theories/Properties_CentroidDouble.v
theories/TimesSpec.v
theories/MotionTimes.v
theories/Properties_Times.v
theories/UnscentedBlock.v
theories/Properties_Block.v
theories/FloatUnscented.v
theories/FloatUnscentedThms.v
theories/Properties_FloatUnscented.v
theories/FloatCovariance.v
theories/FloatCovarianceThms.v
theories/Properties_FloatCovariance.v
theories/FloatLlt.v
theories/FloatLltThms.v
theories/FloatLltRuns.v
theories/Properties_FloatLlt.v
theories/UnscentedSingular.v
theories/Properties_Singular.v
theories/FloatPredict.v
theories/SigmaAccuracy.v
theories/FloatPredictThms.v
theories/Displacement.v
theories/PredictSpec.v
theories/PredictBridge.v
theories/PredictAccuracy.v
theories/PredictInput.v
theories/Properties_FloatPredict.v
theories/CtraPredictSpec.v
theories/CtraSigma.v
theories/CtraBridge.v
theories/CtraPredictAccuracy.v
theories/CtraPredictInput.v
theories/Properties_CtraPredict.v
theories/Properties_Collapse.v
theories/FloatLu.v
theories/FloatLuThms.v
theories/FloatSolve.v
theories/InverseSpec.v
theories/NormThms.v
theories/FloatInverse.v
theories/Properties_FloatInverse.v
theories/FloatMahalanobis.v
theories/FloatMahalanobisThms.v
theories/MahalanobisSpec.v
theories/FloatMahalanobisErr.v
theories/Properties_FloatMahalanobis.v
theories/FloatFusion.v
theories/FloatDiagonal.v
theories/FusionAccuracySpec.v
theories/FloatFusionThms.v
theories/Properties_FloatFusion.v
theories/Properties_FusionDiagonal.v
theories/FloatFusionGeneral.v
theories/FloatPivots.v
theories/FloatDetThms.v
theories/DeterminantSpec.v
theories/DeterminantThms.v
theories/FloatTables.v
theories/FusionResidualSpec.v
theories/Properties_FloatCorrelated.v
theories/HashTable.v
theories/HashTableThms.v
theories/HashManager.v
theories/HashManagerThms.v
theories/HashTableSpec.v
theories/Properties_HashTable.v
theories/LibraryCycle.v
theories/LibraryCycleSpec.v
theories/LibraryCycleThms.v
theories/Properties_LibraryCycle.v
theories/HashCycle.v
theories/HashCycleSpec.v
theories/HashCycleThms.v
theories/Properties_HashCycle.v
