-Q theories Verif
theories/FeatureMapModel.v
theories/FeatureMapSpec.v
theories/FeatureMapProofs.v
theories/FeatureMapHistory.v
theories/LocalMapModel.v
theories/LocalMapProofs.v
theories/FeatureMapMore.v
theories/FeatureMapProps.v
theories/KeypointModel.v
theories/KeypointProofs.v
theories/KeypointClaims.v
theories/KeypointProps.v
theories/SlamModel.v
theories/SlamSpec.v
theories/SlamProps.v
theories/ParametersModel.v
theories/ParametersProps.v
theories/DetectionModel.v
theories/DetectionProofs.v
theories/DetectionProps.v
theories/DoubleModel.v
theories/PoseOptModel.v
theories/PoseOptProofs.v
theories/RansacProofs.v
theories/RansacSeq.v
theories/PoseOptProps.v
theories/RealSums.v
theories/PoseVarianceModel.v
theories/PoseVarianceProps.v
theories/RotationModel.v
theories/RotationProps.v
theories/PrimitiveModel.v
theories/PrimitiveSpec.v
theories/PrimitiveProofs.v
theories/PrimitiveGrow.v
theories/PrimitiveMerge.v
theories/HistogramBins.v
theories/PrimitiveProps.v
theories/Vec3.v
theories/PlaneSegmentModel.v
theories/PlaneSegmentSpec.v
theories/PlaneSegmentProofs.v
theories/PlaneSegmentProps.v
theories/PlaneSegmentMerge.v
theories/CylinderModel.v
theories/CylinderProps.v
theories/CylinderGeometryModel.v
theories/CylinderGeometryProps.v
theories/DepthMapModel.v
theories/DepthMapSpec.v
theories/DepthMapProps.v
theories/MapWriterModel.v
theories/MapWriterSpec.v
theories/MapWriterProps.v
theories/AssociationModel.v
theories/AssociationSpec.v
theories/AssociationProps.v
theories/GeometryModel.v
theories/GeometrySpec.v
theories/GeometryProps.v
theories/PolygonModel.v
theories/PolygonSpec.v
theories/PolygonProps.v
theories/Atan2.v
theories/InverseDepthModel.v
theories/InverseDepthSpec.v
theories/InverseDepthProps.v
theories/CovarianceProps.v
theories/MotionModel.v
theories/MotionProps.v
theories/FieldRing.v
theories/KalmanModel.v
theories/KalmanSpec.v
theories/KalmanProofs.v
theories/KalmanProps.v
theories/TrackingModel.v
theories/TrackingProps.v
theories/ConcaveHullModel.v
theories/ConcaveHullSpec.v
theories/ConcaveHullProofs.v
theories/ConcaveHullProps.v
theories/ConcaveHullCases.v
theories/MatchingModel.v
theories/MatchingSpec.v
theories/MatchingProps.v
theories/BoundaryModel.v
theories/BoundarySpec.v
theories/BoundaryProps.v
theories/OptFeatureModel.v
theories/OptFeatureSpec.v
theories/OptFeatureProps.v
theories/UpgradeSpec.v
theories/UpgradeModel.v
theories/UpgradeProps.v
theories/MapUpdateModel.v
theories/MapUpdateProps.v
theories/VisibilityModel.v
theories/VisibilitySpec.v
theories/VisibilityProps.v
theories/P3pModel.v
theories/P3pSpec.v
theories/P3pLemmas.v
theories/P3pProps.v
theories/ShapeModel.v
theories/ShapeSpec.v
theories/ShapeProps.v
theories/PoseModel.v
theories/PoseSpec.v
theories/PoseProps.v
theories/PoseAngles.v
theories/LsdModel.v
theories/LsdSpec.v
theories/LsdGrow.v
theories/LsdRect.v
theories/LsdDetect.v
theories/LsdRefine.v
theories/LsdProps.v
theories/LsdWitness.v
theories/OctaveModel.v
theories/OctaveSpec.v
theories/OctaveProps.v
theories/ImproveModel.v
theories/ImproveSpec.v
theories/ImproveProps.v
theories/TumModel.v
theories/TumSpec.v
theories/TumProps.v
theories/DemoModel.v
theories/DemoSpec.v
theories/DemoProps.v
theories/GeodesicModel.v
theories/GeodesicSpec.v
theories/GeodesicProps.v
theories/DisplayModel.v
theories/DisplaySpec.v
theories/DisplayProps.v
theories/StatsModel.v
theories/StatsSpec.v
theories/StatsProps.v
theories/LineModel.v
theories/LineSpec.v
theories/LineProps.v
theories/DrawModel.v
theories/DrawSpec.v
theories/DrawProps.v
theories/LoggerModel.v
theories/LoggerSpec.v
theories/LoggerProps.v
theories/DissolveModel.v
theories/DissolveSpec.v
theories/DissolveProofs.v
theories/DissolveProps.v
theories/FillModel.v
theories/FillSpec.v
theories/FillProps.v
theories/MaskModel.v
theories/MaskSpec.v
theories/MaskProps.v
theories/CameraUseModel.v
theories/CameraUseSpec.v
theories/CameraUseProps.v
theories/FamilySpec.v
theories/FamilyProps.v
theories/RandomThreadSpec.v
theories/RandomThreadModel.v
theories/RandomThreadProps.v
theories/CylinderDistanceModel.v
theories/CylinderDistanceSpec.v
theories/CylinderDistanceProps.v
theories/OddEvenModel.v
theories/OddEvenSpec.v
theories/OddEvenProps.v
theories/CompareModel.v
theories/CompareSpec.v
theories/CompareProps.v
theories/FrameTaskModel.v
theories/FrameTaskSpec.v
theories/FrameTaskProps.v
theories/MissingDepthModel.v
theories/MissingDepthSpec.v
theories/MissingDepthProps.v
theories/RoundedGridModel.v
theories/RoundedGridSpec.v
theories/RoundedGridProps.v
theories/DescriptorModel.v
theories/DescriptorSpec.v
theories/DescriptorProps.v
theories/ProportionModel.v
theories/ProportionProps.v
theories/RansacDrawModel.v
theories/RansacDrawSpec.v
theories/RansacDrawProps.v
theories/GatherModel.v
theories/GatherSpec.v
theories/GatherProps.v
theories/RoundedCameraModel.v
theories/RoundedCameraSpec.v
theories/RoundedCameraProps.v
theories/RoundedSegmentModel.v
theories/RoundedSegmentSpec.v
theories/RoundedSegmentProps.v
theories/RoundedDepthMapModel.v
theories/RoundedDepthMapSpec.v
theories/RoundedDepthMapProps.v
theories/RoundedTransformSpec.v
theories/RoundedTransformProps.v
theories/RoundedCloudModel.v
theories/RoundedCloudProps.v
theories/RoundedVarianceModel.v
theories/RoundedVarianceProps.v
theories/VariationModel.v
theories/VariationSpec.v
theories/VariationProps.v
