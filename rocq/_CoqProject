-Q theories Verif
theories/Ransac.v
theories/RansacProofs.v
theories/RansacProps.v
theories/TimestampSync.v
theories/TimestampSyncProofs.v
theories/TimestampSyncProps.v
theories/Mat.v
theories/Quat.v
theories/QuatProofs.v
theories/QuatMatProofs.v
theories/QuatTrigProofs.v
theories/QuatProps.v
theories/CovTransform.v
theories/CovTransformProofs.v
theories/CovTransformProps.v
theories/ErrorPose.v
theories/ErrorPoseProofs.v
theories/ErrorPoseCovProofs.v
theories/ErrorPoseProps.v
theories/RotationCast.v
theories/RotationCastProofs.v
theories/RotationCastProps.v
theories/Euler.v
theories/EulerProofs.v
theories/EulerProps.v
theories/Munkres.v
theories/MunkresProofs.v
theories/MunkresProps.v
theories/LevMarq.v
theories/LevMarqProofs.v
theories/LevMarqProps.v
theories/Simplex.v
theories/SimplexProofs.v
theories/SimplexProps.v
theories/FiniteDiff.v
theories/FiniteDiffProps.v
theories/Tukey.v
theories/TukeyProps.v
theories/Jacobians.v
theories/JacobiansProofs.v
theories/JacobiansProps.v
theories/LinAlg.v
theories/LinAlgProofs.v
theories/LinAlgProps.v
theories/Conic.v
theories/ConicProofs.v
theories/ConicProps.v
theories/ConicLimitProps.v
theories/MatSetoid.v
theories/MatPd.v
theories/Kalman.v
theories/KalmanProofs.v
theories/KalmanProps.v
theories/Average.v
theories/AverageProps.v
theories/KMeans.v
theories/KMeansProps.v
theories/Stats.v
theories/StatsProps.v
theories/Gaussian.v
theories/GaussianProps.v
theories/RosBinary.v
theories/RosBinaryProofs.v
theories/RosBinaryProps.v
theories/Msgpack.v
theories/MsgpackProps.v
theories/Archive.v
theories/ArchiveProps.v
theories/SerialPort.v
theories/SerialPortProps.v
theories/TimeUpdate.v
theories/TimeUpdateProofs.v
theories/TimeUpdateProps.v
theories/TimeUpdateRotProps.v
theories/PoseFilter.v
theories/PoseFilterProofs.v
theories/PoseFilterProps.v
theories/PoseFilterPredictProps.v
theories/Projection.v
theories/ProjectionProofs.v
theories/ProjectionProps.v
theories/HandEye.v
theories/HandEyeProofs.v
theories/HandEyeProps.v
theories/DualQuaternionProps.v
theories/DualQuaternionCases.v
theories/HandEyeSelectProps.v
theories/AbsOrient.v
theories/AbsOrientProofs.v
theories/AbsOrientProps.v
theories/AbsOrientRefineProps.v
theories/Dlt.v
theories/DltProofs.v
theories/HomographyProps.v
theories/ProjectionDltProps.v
theories/FundamentalProps.v
theories/ToolTipProps.v
theories/TsaiLenz.v
theories/TsaiLenzProofs.v
theories/TsaiLenzProps.v
theories/Triangulate.v
theories/TriangulateProofs.v
theories/TriangulateProps.v
theories/LuDet.v
theories/LuDetProps.v
theories/Lens.v
theories/LensProofs.v
theories/LensProps.v
theories/BackProp.v
theories/BackPropProps.v
theories/NewFunction.v
theories/NewFunctionProofs.v
theories/NewFunctionProps.v
theories/SimpleBundle.v
theories/SimpleBundleProofs.v
theories/SimpleBundleProps.v
theories/OrthoIter.v
theories/OrthoIterProofs.v
theories/OrthoIterProps.v
theories/PlanarPose.v
theories/PlanarPoseProofs.v
theories/PlanarPoseProps.v
theories/PlanarInitProps.v
theories/PlanarDltProps.v
theories/PlanarFitProps.v
theories/Spectral.v
theories/ContractsProps.v
theories/KalmanMapProps.v
theories/RotHec.v
theories/RotHecProps.v
theories/MultiCam.v
theories/MultiCamProofs.v
theories/MultiCamProps.v
theories/AbsOrientCov.v
theories/AbsOrientCovProps.v
theories/EssentialPose.v
theories/EssentialPoseProofs.v
theories/EssentialPoseProps.v
theories/SquareHomography.v
theories/SquareHomographyProps.v
theories/EmProofs.v
theories/EmProps.v
theories/ToolTipRefine.v
theories/ToolTipRefineProps.v
theories/RansacPose.v
theories/RansacPoseProps.v
theories/ImageLookup.v
theories/ImageLookupProps.v
theories/SimpleString.v
theories/SimpleStringProps.v
theories/BlockTimer.v
theories/BlockTimerProps.v
theories/TimestampText.v
theories/TimestampTextProps.v
theories/GlobFiles.v
theories/GlobFilesProps.v
theories/RandomDraw.v
theories/RandomDrawProps.v
theories/ViewAngle.v
theories/ViewAngleProps.v
theories/VecOrder.v
theories/VecOrderProps.v
theories/CalibFile.v
theories/CalibFileProps.v
theories/Float64.v
theories/Float64Proofs.v
theories/Float64Props.v
theories/Float64Sync.v
theories/Float64SyncProps.v
theories/Float64Sum.v
theories/Float64SumProps.v
theories/IdentityIterator.v
theories/IdentityIteratorProps.v
theories/ExceptionText.v
theories/ExceptionTextProps.v
theories/RandomMomentsProps.v
theories/RandomUniformProps.v
