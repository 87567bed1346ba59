-Q theories Verif
theories/Base.v
theories/Arith.v
theories/ExtractModel.v
theories/Spec.v
theories/FillProofs.v
theories/LabelProofs.v
theories/RefSort.v
theories/Prop_Labels.v
theories/SpecIeee.v
theories/FloatLemmas.v
theories/IndexRangeProofs.v
theories/Prop_Blocks.v
theories/OcclusionProofs.v
theories/Prop_Occlusion.v
theories/NeighborProofs.v
theories/RingProofs.v
theories/SeparationProofs.v
theories/RingMapProofs.v
theories/CallbackProofs.v
theories/PipelineProofs.v
theories/SoftProofs.v
theories/ConvProofs.v
theories/FiniteProofs.v
theories/RunProofs.v
theories/Prop_Pipeline.v
theories/SpecReal.v
theories/AngleProofs.v
theories/CurvatureProofs.v
theories/MiscProofs.v
theories/Prop_Rings.v
theories/LibModel.v
theories/SpecLib.v
theories/LibProofs.v
theories/RobustProofs.v
theories/NanFree.v
theories/Prop_Lib.v
theories/MedianFloat.v
theories/LocModel.v
theories/SpecLoc.v
theories/StoreProofs.v
theories/NodeProofs.v
theories/Prop_Store.v
theories/PoseModel.v
theories/SpecPose.v
theories/RotProofs.v
theories/Prop_Rotation.v
theories/OptModel.v
theories/SpecOpt.v
theories/OptProofs.v
theories/WitnessProofs.v
theories/Prop_Optimizer.v
theories/Prop_Chart.v
theories/MapModel.v
theories/SpecMap.v
theories/MapProofs.v
theories/Prop_Map.v
theories/ConvertModel.v
theories/SpecConvert.v
theories/ConvertProofs.v
theories/ConvertProofs2.v
theories/Prop_Convert.v
theories/EkfModel.v
theories/SpecEkf.v
theories/QueueProofs.v
theories/Prop_Queue.v
theories/IntervalProofs.v
theories/Prop_Interval.v
theories/EkfProofs.v
theories/Prop_Ekf.v
theories/RealMatrix.v
theories/KalmanModel.v
theories/SpecKalman.v
theories/StackProofs.v
theories/KalmanProofs.v
theories/KalmanProofs2.v
theories/KalmanProofs3.v
theories/Prop_Kalman.v
theories/EkfNodeProofs.v
theories/Prop_EkfNode.v
theories/Prop_EkfMore.v
theories/SpecRing.v
theories/CompletenessProofs.v
theories/NodeModel.v
theories/Prop_Complete.v
theories/SpecStep.v
theories/StepProofs.v
theories/SolverProofs.v
theories/Prop_Step.v
theories/SpecFusion.v
theories/SpecCycle.v
theories/FusionProofs.v
theories/FusionNodeProofs.v
theories/Prop_Fusion.v
theories/ProblemModel.v
theories/SpecFit.v
theories/FitProofs.v
theories/FitRunProofs.v
theories/Prop_Fit.v
theories/SpecHeight.v
theories/HeightProofs.v
theories/HeightExactProofs.v
theories/Prop_Height.v
theories/ShrinkProofs.v
theories/BiasProofs.v
theories/BiasNodeProofs.v
theories/SpecCertain.v
theories/Prop_Bias.v
theories/OrderProofs.v
theories/TieProofs.v
theories/Prop_Order.v
theories/SpecOrigin.v
theories/OriginProofs.v
theories/TurnProofs.v
theories/Prop_Origin.v
theories/TurnNodeProofs.v
theories/SpecInitial.v
theories/Prop_Initial.v
theories/Prop_Axes.v
theories/MsgModel.v
theories/SpecMsg.v
theories/Prop_Msg.v
theories/LocNodeModel.v
theories/SpecLocOrigin.v
theories/LocOriginProofs.v
theories/LeastSquares.v
theories/Prop_LocOrigin.v
theories/SpecMount.v
theories/RelatedProofs.v
theories/MountProofs.v
theories/Prop_Mount.v
theories/SpecArrival.v
theories/ArrivalProofs.v
theories/Prop_Arrival.v
theories/SpecShuffle.v
theories/ShuffleProofs.v
theories/Prop_Shuffle.v
theories/Prop_Reject.v
theories/SpecSlope.v
theories/SlopeProofs.v
theories/Prop_Slope.v
theories/SpecRotMap.v
theories/RotMapProofs.v
theories/Prop_RotMap.v
theories/SpecRun.v
theories/Prop_Run.v
theories/SpecMirror.v
theories/MirrorProofs.v
theories/Prop_Mirror.v
theories/SpecMirrorMap.v
theories/MirrorMapProofs.v
theories/Prop_MirrorMap.v
theories/SpecSettle.v
theories/Prop_Settle.v
theories/SpecFlip.v
theories/FlipProofs.v
theories/FlipCallback.v
theories/Prop_Flip.v
theories/OffsetProofs.v
theories/Prop_Offset.v
theories/SpecBest.v
theories/BestProofs.v
theories/Prop_Best.v
theories/SpecSwap.v
theories/SwapProofs.v
theories/Prop_Swap.v
theories/SpecBearing.v
theories/FloatAngle.v
theories/Prop_Bearing.v
theories/SpecAccuracy.v
theories/AccuracyProofs.v
theories/Prop_Accuracy.v
theories/PublishModel.v
theories/SpecPublish.v
theories/Prop_Publish.v
theories/SpecUpright.v
theories/Prop_Upright.v
theories/Prop_Worse.v
theories/RoundTripModel.v
theories/SpecDrift.v
theories/DriftProofs.v
theories/DriftFloatProofs.v
theories/Prop_Drift.v
theories/TransformModel.v
theories/SpecStored.v
theories/StoredProofs.v
theories/Prop_Stored.v
theories/SystemModel.v
theories/SpecSystem.v
theories/SystemProofs.v
theories/Prop_System.v
theories/LaunchModel.v
theories/SpecLaunch.v
theories/Prop_Launch.v
theories/SyncModel.v
theories/SpecSync.v
theories/SyncProofs.v
theories/Prop_Sync.v
theories/ChainModel.v
theories/SpecChain.v
theories/ChainProofs.v
theories/Prop_Chain.v
theories/MapChainModel.v
theories/SpecMapChain.v
theories/Prop_MapChain.v
theories/WarnModel.v
theories/SpecWarn.v
theories/WarnProofs.v
theories/Prop_Warn.v
theories/FullMapModel.v
theories/Prop_FullMap.v
theories/DriverModel.v
theories/Prop_Driver.v
theories/RawMapModel.v
theories/Prop_RawMap.v
theories/Prop_RawPose.v
theories/Prop_Rows.v
theories/StackModel.v
theories/Prop_Stack.v
theories/Prop_MapMatrix.v
theories/MarkerModel.v
theories/Prop_Marker.v
