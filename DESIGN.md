# Formal model of Ubitrack/utcore in Rocq (Coq 8.16.1)

The C++ sources in `/repo` are read as text; nothing is built or run. Everything
proved here is about the Gallina model in `rocq/theories`. The tie to the code is
the citation (file and lines) on every model definition.

## Layout

For a topic `X` there are up to three files:

* `X.v` - the model: total Gallina definitions, each with a citation, and the small
  independent specification the properties are phrased in.
* `XProofs.v` - lemmas.
* `XProps.v` - the property theorems with `Print Assumptions`, and beside each of
  them a concrete `Example` (or a lemma named `..._case`) meeting the hypotheses.

A theorem named `..._refuted` says that the property, read literally, is false of
the code: it exhibits a witness. Where a restricted form holds, it is proved next
to the refutation. `MANIFEST.json` gives such a property the status `partial` with a
note that begins with or contains "REFUTED". Other partial properties are few; the
note says what is missing.

`seeded/LOG.jsonl` records the wrong programs the theorems were tried on: each line
names the edited definition, the edit, the claim it breaks, the theorems that no
longer prove, and the theorems that were tightened because of it.

Part of the edits were made by hand, part at random. Random edits that do not type-check
are not logged. A failing proof shows that some statement or proof depends on the edited
place; it was not checked for each random edit that the failing statement is false. Of
the random edits, 33 left every proof intact when they were first tried; they are the
last lines of the log. 25 of them led to new or stronger theorems. Eight remain: two are
equivalent to the original, the others change defaults or steps that no theorem observes
(the notes say which of these rest on reading the code only). Random edits were not
tried on every module (not on `Quat.v`, `Float64Sum.v` and `Float64Sync.v`, for instance).

## Modelling conventions

* **Floating point.** `float`/`double` are idealised as exact real numbers (Coq `R`);
  rounding is not modelled. The exception is `Float64.v`, where they are IEEE binary64
  numbers. Where NaN decides control flow, numbers are `option R` with all comparisons
  against NaN false. Where only a comparison matters (RANSAC) the number type and the
  comparison are arbitrary, so the theorem covers IEEE arithmetic too.
* **Division.** Coq's `/` on `R` is total with `x/0 = 0`. No theorem relies on that
  value: each states the non-zero side condition, or the model returns an explicit
  "division by zero / undefined" outcome.
* **Integers.** Unbounded unless the property is about wrap-around, in which case
  `mod 2^32`/`mod 2^64` and the signed reinterpretation are written out.
* **Undefined behaviour** (out-of-range access, dereferencing null, missing return)
  is a distinct outcome of the model (`None`/`UB`).
* **External code** (LAPACK solvers, random numbers, system calls, user functors) is
  a function or oracle argument, universally quantified in the theorems; what is
  assumed about it is a visible hypothesis.
* **Loops** are structural recursion over the data, or explicit fuel with a distinct
  out-of-fuel outcome.
* **Vectors and matrices** are functions of their indices with explicit sizes;
  `meq`/`veq` is equality up to the size.

## Trusted base

* Coq's kernel (8.16.1) and `coqchk`.
* The axioms `Print Assumptions` reports; the complete list per theorem is at the end
  of this file. They all belong to the standard library. No axiom is declared here, no
  kernel check is switched off, nothing is admitted.
* The libraries Coquelicot (derivatives, integrals), Flocq (binary64), Interval (a few
  numeric bounds in concrete cases): fully checked code, but their definitions of
  derivative, integral, rounding are part of the reading of the theorems.
* The reading of the C++ code: the model is hand-written.
* The contracts of external code listed below.


## Model files

| file | code modelled | simplifications beyond the conventions above |
|---|---|---|
| `Ransac.v` | utMath/Optimization/Ransac.h | data, hypotheses and distances are arbitrary types, the comparison an arbitrary function (so IEEE comparison is covered); the casts to int are written out; the random selection is an arbitrary schedule |
| `TimestampSync.v` | utMeasurement/TimestampSync.{h,cpp}, TimestampSyncLS.h | `double` is a real; timestamps wrap at 64 bits |
| `Mat.v` | (none) | specification vocabulary: finite sums, matrices as functions of two indices, positive semidefinite |
| `Quat.v` | utMath/Quaternion.{h,cpp}, Pose.{h,cpp} | reals; division by zero is `None` |
| `CovTransform.v` | utMath/Stochastic/CovarianceTransform.h | the function object is its value and the Jacobian it writes |
| `ErrorPose.v` | utMath/ErrorPose.{h,cpp} | reals; the 6x6 inverse is a hypothesis |
| `RotationCast.v` | utMath/Util/RotationCast.h | reals; division by zero is `None` |
| `Euler.v` | Euler angles of utMath/Quaternion.cpp | reals; atan2 is defined in the file and characterised by theorems |
| `Munkres.v` | utMath/Graph/Munkres.h | exact integer costs; loops by fuel with a separate out-of-fuel outcome |
| `LevMarq.v` | utMath/Optimization/LevenbergMarquardt.h, OptTerminate of Optimization.h | NaN is `None`; problem, weights, solver and normaliser are function arguments |
| `Simplex.v` | utMath/Optimization/DownhillSimplex.h | reals; line 62 names an undeclared type, read as `T` |
| `FiniteDiff.v` | DiscreteJacobianApproximation.h, LinearFunction.h, GaussNewton.h | reals |
| `Tukey.v` | utMath/Optimization/TukeyWeightFunction.h | reals; sorting is a function argument with the contract of std::sort |
| `Jacobians.v` | utMath/Optimization/Function/*, utAlgorithm/Function/* | reals; derivatives are Coquelicot's |
| `LinAlg.v` | utMath/Functors/MatrixFunctors.h, Blas1-3.h, VectorFunctions.h, Geometry/Point*.h, MatrixOperations.h | reals; template recursion is structural recursion |
| `Conic.v` | utMath/Geometry/Conic.h, QuadricFunctors.h, ConicCovariance.h | reals; inf and NaN are `None` |
| `MatSetoid.v` | (none) | rewriting with sized matrix equality |
| `MatPd.v` | (none) | positive definite matrices are invertible |
| `Kalman.v` | utMath/Stochastic/Kalman.h | LAPACK calls are function arguments |
| `Average.v` | utMath/Stochastic/Average.h, TypeToVector.h | reals; the eigenvector routine is a function argument |
| `KMeans.v` | utMath/Stochastic/k_means.h | reals; a mean of no points is `None`; the random start is an argument |
| `Stats.v` | utMath/Stochastic/Correlation.h, index_iterator.h | reals |
| `Gaussian.v` | utMath/Stochastic/Gaussian.h, MahalanobisDistance.h, expectation_maximization.h, Weighted.h | reals; determinant and inverse by contract |
| `RosBinary.v` | utSerialization/ROSBinarySerialization.{h,cpp}, SerializationTraits.h | bytes; 32 bit lengths with wrap-around |
| `Msgpack.v` | utSerialization/MsgpackSerializer.h | the wire format of the msgpack library is modelled by its documentation; `as` overloads left out |
| `Archive.v` | serialize members of the utMath types and of Measurement.h | a boost archive is a sequence of values |
| `SerialPort.v` | utUtil/SerialPort.{h,cpp}, Unix part | system calls are an oracle, all answers allowed |
| `TimeUpdate.v` | utTracking motion models and time update functions | reals |
| `PoseFilter.v` | utTracking/PoseKalmanFilter.cpp, RotationOnlyKf.cpp | LAPACK by contract; process noise not set by the caller (uninitialised) and posOrder -1 for the inside-out constructor are not modelled |
| `Projection.v` | utAlgorithm/Projection.cpp but for the DLT | reals |
| `HandEye.v` | utAlgorithm/PoseEstimation6D6D: DataSelection, HandEyeCalibration.h, DualQuaternion.cpp | reals; LAPACK by contract |
| `DualQuaternionCases.v` | (none) | concrete cases for HandEye |
| `AbsOrient.v` | utAlgorithm/PoseEstimation3D3D: Scale.h, Rotation3D.h, Pose6D.h, AbsoluteOrientation.cpp, ErrorEstimation.h, Optimization.h | reals; LAPACK by contract; assert( n > 2 ) of estimatePose6D_3D3D not modelled |
| `Dlt.v` | Homography.cpp, DLT of Projection.cpp, FundamentalMatrix.cpp, ToolTip/LeastSquare.h | reals; LAPACK by contract |
| `TsaiLenz.v` | utAlgorithm/PoseEstimation6D6D/TsaiLenz.cpp | reals; least squares by contract |
| `Triangulate.v` | utAlgorithm/3DPointReconstruction.cpp, Function/SinglePointMultiProjection.h | reals; the assignment solver by contract; p2d.at for lists of unequal lengths not modelled |
| `LuDet.v` | Math::determinant, utMath/MatrixOperations.h | getrf by contract; other files use the 3x3 formula `det3` for it, justified by C111 |
| `Lens.v` | utAlgorithm/LensDistortion.cpp, CameraLens/{Distortion,Undistortion}.h, utMath/Geometry/PointUndistortion.h | reals |
| `BackProp.v` | utMath/Stochastic/BackwardPropagation.h | gesvd by contract |
| `NewFunction.v` | utMath/Optimization/NewFunction/* | template arguments become data |
| `SimpleBundle.v` | utAlgorithm/BundleAdjustment.cpp | zero depth is NaN (`None`) |
| `OrthoIter.v` | utAlgorithm/PoseEstimation2D3D/NonPlanarPoseEstimation.cpp | reals; LAPACK by contract |
| `PlanarPose.v` | utAlgorithm/PoseEstimation2D3D/PlanarPoseEstimation.cpp | reals; LAPACK by contract; the call of decomposeProjection that only logs is left out |
| `Spectral.v` | (none) | spectral theorem and existence of the singular value decomposition, so that the contracts can be met (C138) |
| `RotHec.v` | utAlgorithm OnlineRotHec.cpp, RotationHecKalmanFilter.{h,cpp} | reals |
| `MultiCam.v` | utAlgorithm/MultipleCameraPoseOptimization.cpp | reals; LAPACK by contract |
| `AbsOrientCov.v` | utAlgorithm/PoseEstimation3D3D/CovarianceEstimation.h | reals |
| `EssentialPose.v` | poseFromFundamentalMatrix of utAlgorithm/FundamentalMatrix.cpp | gesvd by contract; an unused inverse is left out |
| `SquareHomography.v` | squareHomographyImpl of utAlgorithm/Homography.cpp | gesvd by contract; fewer than four corners: `None` |
| `ToolTipRefine.v` | utAlgorithm/ToolTip/Optimization.h, ErrorEstimation.h | own Levenberg-Marquardt loop, because the Jacobian may be NaN while the distances are numbers |
| `RansacPose.v` | utAlgorithm/PoseEstimation3D3D/Ransac.h, ToolTip/Ransac.h | on top of Ransac, AbsOrient and Dlt |
| `ImageLookup.v` | utMath/Optimization/NewFunction/ImageLookup.h | pixels are reals; overflow of int not modelled |
| `SimpleString.v` | utUtil/SimpleString{O,I}Archive.h | "C" locale; printing of doubles by contract (six digits) |
| `BlockTimer.v` | utUtil/BlockTimer.{h,cpp} | threads not modelled |
| `TimestampText.v` | utMeasurement/Timestamp.cpp, Unix part | localtime and gmtime by contract |
| `GlobFiles.v` | utUtil/GlobFiles.cpp | patterns are syntax trees, not texts |
| `RandomDraw.v` | utMath/Random/* | the generator is a stream of numbers in [0,1); Random/Pose.h does not compile when used and is left out |
| `ViewAngle.v` | opening angles and flipHandiness of utMath/CameraIntrinsics.h | reals; overflow of size_t not modelled |
| `VecOrder.v` | comparison operators of utMath/Vector.h, ErrorVector::getRMS | NaN is `None` |
| `CalibFile.v` | utUtil/CalibFile.h | boost archives by contract (header and codec); files are byte strings |
| `Float64.v` | Quaternion product, normalize, vector rotation, arguments of acos in utMath/Quaternion.{h,cpp} | IEEE binary64 (Flocq), round to nearest even, one rounding per operation; no fused multiply-add, no extended precision |
| `Float64Sync.v` | utMeasurement/TimestampSyncLS.h | IEEE binary64; the debug output (which converts the same number once more) is left out |
| `Float64Sum.v` | utMath/Stochastic/Average.h (one entry of mean and covariance), utMath/Blas1.h (inner product, 2-norm) | IEEE binary64; the vector is seen entry by entry; sizes are equal |
| `IdentityIterator.v` | utMath/Stochastic/identity_iterator.h | the reference is a value; std::transform as specified by the standard |
| `ExceptionText.v` | utUtil/Exception.{h,cpp}, utSerialization/Exception.h | the log output itself is left out; decimal printing as in SimpleString.v |

Every `XProofs.v` holds lemmas on the definitions of `X.v`; every `XProps.v` holds property theorems. Props files named after no model (for instance `ContractsProps.v`, `FundamentalProps.v`, `HomographyProps.v`, `ToolTipProps.v`, `PlanarDltProps.v`) prove further properties of the models they import.

## Contracts of external code

The theorems that need them carry these as hypotheses. `ContractsProps.v` (C138) shows
that for every input there is a result that meets the contracts of the decompositions,
so the hypotheses are never unreachable.

| code called | hypotheses (names in the development) | content |
|---|---|---|
| lapack::gesvd | `full_svd`, `least_direction`, `svd8_contract`, `svd4`, `svd3_ok`, `svd32_ok`, `svd33_ok`, `gesvd3`, `gesvd_ok`, `square_svd_ok` | orthogonal factors, non-negative sorted singular values, product is the input; or only: a direction of least length of the image |
| lapack::syev | `syev4_contract`, `horn_solver`, `syev_ok`, `eigen_ok` | orthonormal eigenvectors with ascending eigenvalues; for Horn only: an eigenvector of the largest eigenvalue |
| lapack::gels, solvers of Levenberg-Marquardt | `least_squares`, `tip_solver`, `exact_solver`, `solver_ok`, `solves` | the residual is minimal, or the linear system is solved |
| lapack::getrf, potrf/potri, getri | `getrf_ok`, `inverse_ok`, `inv4`, `invert_matrix`, `is_det`, `lapack_ok` | permuted LU factors, inverse, determinant |
| pseudo-inverse | `pinv` (`penrose`) | the Penrose equations |
| NaN in LAPACK | `nan_stays` | a solver fed with NaN returns NaN |
| assignment solver in point reconstruction | the optimal assignment contract | optimality; the Munkres code itself is a separate model |
| localtime, gmtime | `clock_ok`, `date_ok` (met: `date_exists`) | fields determined by the second, in range |
| printing a double to a stream | `six_digits` | a function of the value, six significant digits |
| random numbers | streams in [0,1) | nothing else |
| boost archives | `archive_ok`, `codec_ok`, `noticed` | reading returns what was written; header checked on opening |
| system calls of the serial port, user functors, weight functions | none | every behaviour allowed |

## Code that is not modelled

* Headers that only declare what a modelled .cpp file defines (3DPointReconstruction.h,
  BundleAdjustment.h, FundamentalMatrix.h, LensDistortion.h, OnlineRotHec.h,
  NonPlanarPoseEstimation.h, PlanarPoseEstimation.h, AbsoluteOrientation.h,
  DualQuaternion.h, TsaiLenz.h, PoseKalmanFilter.h, RotationOnlyKF.h).
* Wrappers that forward their arguments: CameraLens/Correction.{h,cpp},
  ToolTip/TipCalibration.{h,cpp}, BaseSerializer, BoostArchiveSerializer,
  SerializationFormat, Types.h, container_traits.h, Util/{cast_assign,
  matrix_traits,type_traits,vector_traits}.h, Binary/UnaryFunctionPrototype.h,
  NewFunction/Detail/{FixedParameterCopy,ResultMatrix,ResultVector}.h.
* Code that does not compile when used: UnscentedTransform.h, the call operator of
  Random/Pose.h. Dead code: Function/BundleAdjustment.h, invertMultiplyJacobians.
* Platform code and logging: CleanWindows, ETWTracing, LTTNGTracing,
  TracingProvider, Logging, OS.h (except the sleep and timer used by
  BlockTimer), StaticAssert, the Windows parts of SerialPort and Timestamp.
* Timing, real thread interleavings, and the numerical behaviour of LAPACK.
* Rounding errors, except for the quaternion operations in `Float64.v`, the clock synchronisation in `Float64Sync.v` and sums, means and inner products in `Float64Sum.v`.


## Properties

| id | title | status | proved in |
|---|---|---|---|
| C01 | Pose composition is a group action on points | proved | QuatProps |
| C02 | A rotation applied through a quaternion is a rigid rotation and agrees with its matrix form | proved | QuatProps |
| C03 | Quaternion from rotation matrix loses nothing | proved | QuatProps |
| C04 | Logarithm and axis-angle conversions are inverse to each other up to sign | refuted as stated, rest proved | QuatProps |
| C05 | Spherical interpolation stays on the sphere and hits its endpoints | proved | QuatProps |
| C06 | Pose, vector and matrix representations of a rigid motion are interchangeable | proved | QuatProps |
| C07 | Inverting an uncertain pose twice restores its covariance | refuted as stated, rest proved | ErrorPoseProps |
| C08 | Additive/multiplicative covariance conversion round-trips | proved | ErrorPoseProps |
| C09 | Transforming an uncertain point by an uncertain pose accounts for both covariances | refuted as stated, rest proved | ErrorPoseProps |
| C10 | Small matrix inverse and determinant functors are exact | proved | LinAlgProps |
| C100 | The projection DLT recovers the camera of exact data | proved | ProjectionDltProps |
| C101 | The eight-point algorithm returns a singular matrix and recovers exact data | refuted as stated, rest proved | FundamentalProps |
| C102 | The fundamental matrix of two poses maps image points to epipolar lines | proved | FundamentalProps |
| C103 | Tool tip calibration minimises the spread of the tip and is exact | proved | ToolTipProps |
| C104 | Tsai-Lenz hand-eye calibration recovers the transformation | refuted as stated, rest proved | TsaiLenzProps |
| C105 | Tsai-Lenz results are rigid motions; throwing exactly for lists of different length | proved | TsaiLenzProps |
| C106 | Measurements that confirm the prediction do not move the filter | proved | PoseFilterProps |
| C107 | pointToPointDist is the squared distance from the epipolar line | refuted as stated, rest proved | TriangulateProps |
| C108 | Triangulation returns the observed point | proved | TriangulateProps |
| C109 | Unordered image points are matched and reconstructed correctly | proved | TriangulateProps |
| C11 | Compile-time unrolled linear algebra equals its mathematical definition in every dimension | proved | LinAlgProps |
| C110 | The refinement of triangulated points uses the exact derivative | proved | TriangulateProps |
| C111 | determinant is the determinant, for every size | proved | LuDetProps |
| C112 | Projecting with lens distortion and distorting an image point agree | refuted as stated, rest proved | LensProps |
| C113 | The distortion models are consistent | proved | LensProps |
| C114 | The Jacobian of the six-coefficient distortion is its derivative | proved | LensProps |
| C115 | Undistortion inverts distortion | refuted as stated, rest proved | LensProps |
| C116 | Geometry::undistort_point removes lens distortion | refuted as stated, rest proved | LensProps |
| C117 | Covariance of a least-squares estimate from independent equal measurements | proved | BackPropProps |
| C118 | Covariance of a weighted least-squares estimate | refuted as stated, rest proved | BackPropProps |
| C119 | Composed functions evaluate to the composition and calls do not interfere | proved | NewFunctionProps |
| C12 | Point transformation overloads agree with the homogeneous matrix product | refuted as stated, rest proved | LinAlgProps |
| C120 | The Jacobian of a composed function is its derivative | proved | NewFunctionProps |
| C121 | A parameter may occur several times in an expression | refuted as stated, rest proved | NewFunctionProps |
| C122 | The functions of the library multiply by their Jacobians | refuted as stated, rest proved | NewFunctionProps |
| C123 | The objective of the multi-camera pose optimization is differentiated correctly | proved | NewFunctionProps |
| C124 | Bundle adjustment: the Jacobian matches the projection | refuted as stated, rest proved | SimpleBundleProps |
| C125 | Bundle adjustment compares every observation with its own prediction | refuted as stated, rest proved | SimpleBundleProps |
| C126 | Bundle adjustment returns what it optimised | refuted as stated, rest proved | SimpleBundleProps |
| C127 | The reprojection error is invariant under similarity transformations | proved | SimpleBundleProps |
| C128 | Orthogonal iteration: the result is rigid, its error is the reported one, its translation optimal | proved | OrthoIterProps |
| C129 | Orthogonal iteration: more work never gives a worse pose | proved | OrthoIterProps |
| C13 | Point normalisation centres and scales, and its matrices undo each other | proved | LinAlgProps |
| C130 | Orthogonal iteration ends by itself | proved | OrthoIterProps |
| C131 | Orthogonal iteration: zero error means exact reprojection, up to the side of the camera | proved | OrthoIterProps |
| C132 | A homography of a plane gives the pose of the plane | proved | PlanarPoseProps |
| C133 | Exact images of a planar object give its pose | refuted as stated, rest proved | PlanarPoseProps, PlanarInitProps |
| C134 | Exact images of a spatial object give its pose | refuted as stated, rest proved | PlanarDltProps |
| C135 | Refining a pose never makes it worse | proved | PlanarFitProps |
| C136 | Residual and covariance returned by computePose | refuted as stated, rest proved | PlanarFitProps |
| C137 | Collinear points are reported | refuted as stated, rest proved | PlanarInitProps |
| C138 | The contracts of the linear algebra routines can be met on every input | proved | ContractsProps, Spectral |
| C139 | The online rotation calibration is a least squares fit of all measurements so far | proved | RotHecProps |
| C14 | Conic operations act on the point set as advertised | proved | ConicProps |
| C140 | The online rotation calibration finds the rotation between two sensors | refuted as stated, rest proved | RotHecProps |
| C141 | The quaternion Kalman filter for rotation calibration never loses a valid state | refuted as stated, rest proved | RotHecProps |
| C142 | The Kalman measurement update is the maximum a posteriori estimate | proved | KalmanMapProps |
| C143 | Pose from several cameras: residual, covariance and improvement | proved | MultiCamProps, MultiCamProofs |
| C144 | Pose from several cameras: the start of the optimisation | refuted as stated, rest proved | MultiCamProps |
| C145 | Pose from several cameras: local bundles are independent | refuted as stated, rest proved | MultiCamProps |
| C146 | Pose from several cameras: when a pose is estimated | refuted as stated, rest proved | MultiCamProps |
| C147 | Covariance of a pose from point pairs: the Jacobian | proved | AbsOrientCovProps |
| C148 | Covariance of a pose from point pairs: the result | refuted as stated, rest proved | AbsOrientCovProps |
| C149 | The pose of a second camera comes back from its fundamental matrix and one image pair | refuted as stated, rest proved | EssentialPoseProps |
| C15 | Conic centre: exact for central conics, error for parabolic ones | refuted as stated, rest proved | ConicProps |
| C150 | The homography of a square maps the square to the given corners | proved | SquareHomographyProps |
| C151 | Refining a tool tip calibration does not spoil it | refuted as stated, rest proved | ToolTipRefineProps |
| C152 | The error estimate of a tool tip calibration means what it says | refuted as stated, rest proved | ToolTipRefineProps |
| C153 | Robust absolute orientation ignores wrong matches | refuted as stated, rest proved | RansacPoseProps |
| C154 | Robust tool tip calibration ignores wrong poses | refuted as stated, rest proved | RansacPoseProps |
| C155 | The RANSAC drivers return the best hypothesis they can find | refuted as stated, rest proved | RansacPoseProps, RansacProps |
| C156 | A grey value between pixels is a sensible interpolation | refuted as stated, rest proved | ImageLookupProps |
| C157 | The Jacobian of the image lookup is the derivative of the looked-up value | refuted as stated, rest proved | ImageLookupProps |
| C158 | Values survive the text archives | refuted as stated, rest proved | SimpleStringProps |
| C159 | Block timers account for all the time spent in their blocks | refuted as stated, rest proved | BlockTimerProps |
| C16 | Eccentricity does not depend on the orientation of the conic | refuted as stated, rest proved | ConicProps |
| C160 | Short timestamp texts are ordered like the timestamps | refuted as stated, rest proved | TimestampTextProps |
| C161 | Long timestamp texts identify the second | proved | TimestampTextProps |
| C162 | Collecting files yields exactly the files asked for, in a fixed order | refuted as stated, rest proved | GlobFilesProps |
| C163 | Random vectors and matrices respect their limits and parameters | refuted as stated, rest proved | RandomDrawProps |
| C164 | Random rotations are unit quaternions and prefer no direction | proved | RandomDrawProps, RandomMomentsProps, RandomUniformProps |
| C165 | The opening angles of a camera are the angles between its border rays | refuted as stated, rest proved | ViewAngleProps |
| C166 | Vectors can be keys of ordered containers | refuted as stated, rest proved | VecOrderProps |
| C167 | The RMS of an error vector is the root of the mean squared error | proved | VecOrderProps |
| C168 | Calibration files | refuted as stated, rest proved | CalibFileProps |
| C169 | Rounding in quaternion products stays bounded over long chains | proved | Float64Props |
| C17 | RANSAC reports only consensus that exists | proved | RansacProps |
| C170 | Inverse cosines are only taken of numbers between -1 and 1 | refuted as stated, rest proved | Float64Props |
| C171 | Normalising and rotating are accurate to rounding error | proved | Float64Props |
| C172 | Least squares clock synchronisation survives rounding | refuted as stated, rest proved | Float64SyncProps |
| C173 | Averages and covariances are accurate to rounding error | refuted as stated, rest proved | Float64SumProps |
| C174 | Inner products and lengths are accurate to rounding error | refuted as stated, rest proved | Float64SumProps |
| C175 | The repeating container stands for copies of one value | refuted as stated, rest proved | IdentityIteratorProps |
| C176 | Exceptions report where they come from | refuted as stated, rest proved | ExceptionTextProps |
| C177 | The simplex search varies every parameter | refuted as stated, rest proved | SimplexProps |
| C18 | RANSAC's early abort never loses a qualifying hypothesis | refuted as stated, rest proved | RansacProps |
| C19 | A failing RANSAC leaves the caller's result untouched | refuted as stated, rest proved | RansacProps |
| C20 | Levenberg-Marquardt never makes the fit worse and reports the residual of what it returns | proved | LevMarqProps |
| C21 | Levenberg-Marquardt terminates within the iteration limit | proved | LevMarqProps |
| C22 | Levenberg-Marquardt rejects undefined residuals | refuted as stated, rest proved | LevMarqProps |
| C23 | Downhill simplex keeps its bookkeeping consistent and never loses the best vertex | proved | SimplexProps |
| C24 | Finite-difference Jacobian is exact for affine functions | proved | FiniteDiffProps |
| C25 | Analytic Jacobians are the derivatives of the functions they accompany | refuted as stated, rest proved | JacobiansProps |
| C26 | Kalman measurement update keeps the covariance valid and never increases it | proved | KalmanProps |
| C27 | Propagating a sub-range of a state through a function updates the joint covariance correctly | proved | CovTransformProps |
| C28 | Averages of rotations ignore the sign ambiguity and averages of vectors are the mean with a valid covariance | proved | AverageProps |
| C29 | k-means assigns every point to a nearest mean and stops | proved | KMeansProps |
| C30 | Correlation coefficient lies in [-1,1] and is invariant under positive affine rescaling | proved | StatsProps |
| C31 | Filtering iteration visits exactly the matching elements | refuted as stated, rest proved | StatsProps |
| C32 | Assignment solver returns a minimal-cost perfect matching and terminates | refuted as stated, rest proved | MunkresProps |
| C33 | Clock synchronisation filter keeps a valid uncertainty | proved | TimestampSyncProps |
| C34 | Clock synchronisation recovers from an outlier burst | proved | TimestampSyncProps |
| C35 | ROS-style binary serialisation round-trips and its length predictor is exact | refuted as stated, rest proved | RosBinaryProps |
| C36 | Deserialising hostile bytes never reads outside the buffer | refuted as stated, rest proved | RosBinaryProps |
| C37 | Msgpack serialisation of vectors, rotations, poses and measurements round-trips | refuted as stated, rest proved | MsgpackProps |
| C38 | Msgpack serialisation of matrices round-trips for every shape | refuted as stated, rest proved | MsgpackProps |
| C39 | Camera calibration data survives serialisation | refuted as stated, rest proved | ArchiveProps, MsgpackProps |
| C40 | Serial port handle life cycle | refuted as stated, rest proved | SerialPortProps |
| C41 | Pose filter state layout is consistent | refuted as stated, rest proved | TimeUpdateRotProps |
| C42 | Constant-velocity time update composes | refuted as stated, rest proved | TimeUpdateProps, TimeUpdateRotProps |
| C43 | Orientation prediction is correct for timestamps on either side of the last measurement | refuted as stated, rest proved | TimeUpdateRotProps |
| C44 | Quaternion time-update Jacobian matches the integration it accompanies | refuted as stated, rest proved | TimeUpdateRotProps |
| C45 | OpenGL projection matrix maps the view volume to the unit cube | proved | ProjectionProps |
| C46 | Projection decomposition normalises signs without changing the product | proved | ProjectionProps |
| C47 | Dual-quaternion and pose representations round-trip | proved | HandEyeProps |
| C48 | Scale estimation recovers the true scale | proved | AbsOrientProps |
| C49 | Absolute orientation's 4x4 matrix encodes the alignment objective | proved | AbsOrientProps |
| C50 | Linear calibration systems have exactly the intended solutions | proved | HomographyProps, ProjectionDltProps, FundamentalProps, ToolTipProps |
| C51 | Relative pose generation yields one motion per pair | proved | HandEyeProps |
| C52 | Perfect measurements keep full weight in robust estimation | refuted as stated, rest proved | TukeyProps |
| C53 | Rotation matrix to quaternion cast is correct for all rotations | refuted as stated, rest proved | RotationCastProps |
| C54 | Quadric projection routines agree | proved | ConicLimitProps |
| C55 | Angular velocity integration and its optimisation functor agree | refuted as stated, rest proved | TimeUpdateRotProps |
| C56 | Euler angle constructor and accessors describe the same rotation | proved | EulerProps |
| C57 | Products of uncertain poses propagate first-order errors correctly | proved | ErrorPoseProps |
| C58 | Additive error vectors carry the covariance of the quaternion entries | refuted as stated, rest proved | ErrorPoseProps |
| C59 | invertMultiply propagates the covariance of the inverse times the second pose | refuted as stated, rest proved | ErrorPoseProps |
| C60 | Casts between matrices, quaternions, axis-angle and rotation vectors agree | refuted as stated, rest proved | RotationCastProps |
| C61 | Euler angle accessors reproduce the rotation | refuted as stated, rest proved | EulerProps |
| C62 | Levenberg-Marquardt steps improve the linearised problem | refuted as stated, rest proved | LevMarqProps |
| C63 | Gauss-Newton solves affine problems in one step | proved | FiniteDiffProps |
| C64 | Robust weighting bounds the influence of an outlier | refuted as stated, rest proved | TukeyProps |
| C65 | Jacobians of the hand-eye rotation residual are its derivatives | refuted as stated, rest proved | JacobiansProps |
| C66 | Normalising a projective pose keeps the projection | refuted as stated, rest proved | JacobiansProps |
| C67 | The SVD-based pseudo-inverse is the Moore-Penrose inverse | proved | LinAlgProps |
| C68 | Changing the handedness of a transformation is conjugation by the z mirror | proved | LinAlgProps |
| C69 | Angle, semi-axes, centre and area describe the ellipse | refuted as stated, rest proved | ConicProps |
| C70 | Limits and intersections of a conic are exact | proved | ConicLimitProps |
| C71 | Conic classification depends on the point set only | refuted as stated, rest proved | ConicLimitProps |
| C72 | The conic covariance uses the gradient of the conic polynomial | refuted as stated, rest proved | ConicLimitProps |
| C73 | Kalman updates add information and commute | proved | KalmanProps |
| C74 | The average of poses carries the empirical covariance | proved | AverageProps |
| C75 | k-means never gets worse and keeps its clusters | refuted as stated, rest proved | KMeansProps |
| C76 | Gaussian estimates are the sample moments | refuted as stated, rest proved | GaussianProps |
| C77 | The Mahalanobis distance does not depend on coordinates | proved | GaussianProps |
| C78 | The Gaussian probability is the normal density | refuted as stated, rest proved | GaussianProps |
| C79 | Expectation maximisation keeps a valid mixture and never decreases the likelihood | refuted as stated, rest proved | GaussianProps, EmProps |
| C80 | Boost archives restore every value type | refuted as stated, rest proved | ArchiveProps |
| C81 | Inside-out tracking turns the position with the orientation | refuted as stated, rest proved | TimeUpdateRotProps |
| C82 | The inverse angular velocity belongs to the inverse orientation | proved | TimeUpdateRotProps |
| C83 | The pose filter keeps a unit quaternion and a valid covariance | proved | PoseFilterProps |
| C84 | The pose filter starts from its first pose and predicts what it would estimate | proved | PoseFilterProps, PoseFilterPredictProps |
| C85 | q and -q are the same measurement | refuted as stated, rest proved | QuatProps, PoseFilterPredictProps |
| C86 | The orientation filter is well defined and starts from the first orientation | refuted as stated, rest proved | PoseFilterPredictProps |
| C87 | Decomposing a projection matrix gives back the camera | refuted as stated, rest proved | ProjectionProps |
| C88 | Off-axis frustum and image origin | proved | ProjectionProps |
| C89 | Poses and rotation vectors are interchangeable | refuted as stated, rest proved | HandEyeProps |
| C90 | Hemisphere alignment keeps the rotation | refuted as stated, rest proved | HandEyeProps |
| C91 | Dual quaternion hand-eye calibration is sound | proved | DualQuaternionProps |
| C92 | Dual quaternion hand-eye calibration succeeds on determined exact data | refuted as stated, rest proved | DualQuaternionProps, DualQuaternionCases |
| C93 | Hand-eye calibration does not depend on the sign of quaternions | refuted as stated, rest proved | DualQuaternionCases |
| C94 | Motion selection returns matching pairs near the cluster centres | refuted as stated, rest proved | HandEyeSelectProps |
| C95 | The incremental selection takes the motion nearest to each centre | refuted as stated, rest proved | HandEyeSelectProps |
| C96 | The 3D-3D residual is the root mean square error | refuted as stated, rest proved | AbsOrientProps |
| C97 | Absolute orientation finds the optimal rigid motion or reports failure | refuted as stated, rest proved | AbsOrientProps |
| C98 | The Jacobian of the 3D-3D refinement is the derivative of its function | refuted as stated, rest proved | AbsOrientRefineProps |
| C99 | The homography DLT recovers the homography of exact data | proved | HomographyProps |

## Axioms per theorem

What `Print Assumptions` lists for every theorem named in `MANIFEST.json`. All are axioms of the standard library:

* **D** `ClassicalDedekindReals.sig_forall_dec`
* **N** `ClassicalDedekindReals.sig_not_dec`
* **F** `FunctionalExtensionality.functional_extensionality_dep`
* **C** `Classical_Prop.classic`
* **E** `ClassicalEpsilon.constructive_indefinite_description`

A dash means "Closed under the global context".

* `AbsOrientCovProps`: **CDF** points_observable; **CDFN** points_jacobian; **DFN** pose_covariance_inverse, centred_covariance, covariance_units, covariance_units_refuted, unseen_is_certain_refuted, covariance_too_few
* `AbsOrientProps`: **DF** horn_objective, qsand_scaled_rotation, rotation_cost_quadratic, form_maximal_iff_rotation_optimal, rotation_optimal, pose_optimal, pose_exact, absolute_orientation_exact, rotation_fails_iff, absolute_orientation_failure_refuted; **DFN** scale_recovers, scale_is_ratio, scale_undefined, residual_zero_iff, residual_underestimates, residual_rms_refuted
* `AbsOrientRefineProps`: **CDFN** opt_jacobian_xy_partial, opt_jacobian_refuted
* `ArchiveProps`: **-** archive_camera_round_trip, archive_camera_constructors, archive_camera3_refuted, archive_camera_hostile_count_refuted, camera_general_size_refuted, archive_vector_round_trip, archive_matrix_round_trip, archive_pose_round_trip, archive_error_pose_round_trip, archive_error_vector_round_trip, archive_measurement_round_trip, archive_measurement_refuted
* `AverageProps`: **DF** average_exact, average_order, error_average_exact, error_average_valid; **DFN** rotation_average_sign, rotation_average_half_turn_refuted, rotation_average_unit, rotation_average_copies, rotation_average_optimal, pose_average_parts, error_pose_average_exact
* `BackPropProps`: **DF** inverse_times_unique; **DFN** back_identity_inverse, back_identity_covariance, back_identity_undefined, back_identity_pseudo, back_diagonal_computes, back_diagonal_square, back_diagonal_refuted, back_general_refuted, back_general_symmetric
* `BlockTimerProps`: **-** timer_accounting, timer_sequential, timer_location_fixed, timer_location_first, timer_nested_refuted, timer_set_back_refuted, timer_location_refuted; **DF** timer_average, timer_average_refuted
* `CalibFileProps`: **-** calib_last_write, calib_write_frame, calib_full_disk, calib_read_failure, calib_measurement_fresh, calib_measurement_round_trip, calib_drop_all_or_nothing, calib_measurement_failure_refuted, calib_truncated_refuted
* `ConicLimitProps`: **DF** quadric_line_conic_exact, project_quadric_exact, project_ellipsoid_agrees, line_conic_backprojection, ellipsoid_quadric_dual, project_ellipsoid_silhouette, point_conic_contact, spheroid_on_ground, classification_exclusive, classification_invariant, circle_exact, tolerance_scale_refuted, cov_weight_exact, design_exact, design_convention_refuted; **DFN** upper_lower_exact, left_right_exact, limits_defined, horizontal_intersection_exact, conic_inv_cov_valid, conic_inv_cov_exact
* `ConicProps`: **CDFN** semi_axes_exact, semi_axes_defined, semi_axes_order, semi_axes_circle_refuted, conic_area_exact; **DF** conic_matrix_roundtrip, matrix_conic_roundtrip, conic_pixel_exact, translate_conic_exact, translate_conic_group, flip_conic_exact, flip_conic_involutive, scale_conic_exact, conic_inverse_exact, conic_det_exact, conic_inverse_involutive, conic_center_exact, conic_center_defined, conic_center_exception_refuted; **DFN** eccentricity_exact_iff, eccentricity_rotation_refuted
* `ContractsProps`: **CDEFN** eigen_ok_exists, dlt_svd_exists, svd32_exists, svd33_exists; **CDF** getrf_exists; **CDFN** syev_exists, syev4_exists, full_svd_exists, gesvd_exists, least_direction_always, svd8_exists, svd_exists, penrose_exists, least_squares_exists; **DFN** rq_exists
* `CovTransformProps`: **D** transform_range_frame; **DF** transform_range_joint_covariance, transform_range_linear, transform_range_valid, transform_range_symmetry_needed, transform_cov_valid, binary_transform_joint, binary_transform_valid
* `DualQuaternionCases`: **DFN** dual_quaternion_complete_refuted, quaternion_sign_refuted
* `DualQuaternionProps`: **DFN** dual_quaternion_sound, dual_quaternion_accuracy, single_axis_rejected, dual_quaternion_complete
* `EmProps`: **CDFN** em_monotone, em_loop_monotone, em_call_monotone, em_stops, em_collapse_refuted
* `ErrorPoseProps`: **CDFN** inverse_jacobian_partial, inverse_jacobian_refuted, product_left_jacobian, product_right_jacobian, point_jacobian, interpolation_valid, invert_multiply_refuted; **D** uncertain_point_ignored; **DF** double_inverse_refuted, double_inverse_covariance, double_inverse_map, double_inverse_partial, double_inverse_rotation, additive_round_trip, additive_valid, uncertain_point_refuted, uncertain_point_partial, point_covariance, point_product_covariance, product_associative, product_exact_operand, product_neutral, product_valid, additive_covariance_refuted, additive_error_map, conversion_jacobians, invert_multiply_valid; **DFN** perturb_error, jacobian_unique
* `EssentialPoseProps`: **DF** essential_of_poses; **DFN** essential_pose_exact, pose_fundamental_round_trip, equidistant_point_refuted
* `EulerProps`: **CDFN** euler_constructor_accessor, euler_sequence_partial, euler_south_pole_refuted, euler_accessor_partial, euler_accessors_agree, euler_near_lock_refuted; **DFN** euler_constructor
* `ExceptionTextProps`: **-** exception_text_line, exception_text_unique, exception_text_refuted, exception_null_file_refuted
* `FiniteDiffProps`: **CDFN** linear_function_jacobian; **D** gauss_newton_failure; **DF** discrete_jacobian_affine, discrete_jacobian_limit, discrete_jacobian_quadratic_error, discrete_jacobian_zero_width, gauss_newton_affine
* `Float64Props`: **CDFN** rounded_product, rounded_chain, log_domain, slerp_domain, axis_finite, angle_domain_refuted, rounded_normalize, rounded_rotation, rounded_unit_rotation
* `Float64SumProps`: **CDFN** mean_rounding, covariance_rounding, variance_below_zero, mean_of_equal_refuted, inner_product_rounding, norm_rounding, inner_product_storage_refuted, norm_zero_refuted
* `Float64SyncProps`: **CDFN** ls_means_between, ls_first_calls, timestamp_cast, ls_division_refuted, ls_backstep_refuted
* `FundamentalProps`: **-** every_one, every_spec; **DF** fundamental_from_poses_line, fundamental_from_poses_epipolar, fundamental_from_poses_nonzero, fm_system_iff; **DFN** fm_normalize_spec, fm_normalize_fails, fundamental_singular, fundamental_exact, fundamental_throws, fundamental_step_refuted
* `GaussianProps`: **-** gaussian_index_empty_refuted; **CDFN** probability_shape, probability_degenerate, probability_proportional, probability_density_refuted, em_weights_sum, em_components_valid, em_weights_wiped_refuted; **DFN** gaussian_weighted_exact, gaussian_weighted_second_moment, gaussian_mean_optimal, gaussian_plain_exact, gaussian_index_exact, mahalanobis_exact, mahalanobis_affine
* `GlobFilesProps`: **-** regex_correct, glob_images, glob_calibrations, glob_boost, glob_exact, glob_fails, glob_order, glob_file, glob_missing, glob_numbered, glob_case_refuted, glob_pattern_refuted, glob_numbers_refuted
* `HandEyeProps`: **-** pairs_complete, pairs_sorted; **CDFN** pose_vectors_agree, rotation_vector_pose_round_trip, rotation_vector_identity_refuted, hemisphere_alignment_refuted; **D** relative_poses_count, relative_neighbours_exact, relative_poses_lexicographic, incremental_update, incremental_updates; **DF** pose_dual_quaternion_round_trip, dual_quaternion_pose_round_trip, dual_part_orthogonal, dual_quaternion_of_product, relative_neighbours_chain, generate_relative_correct, motion_equation, hand_eye_motions, incremental_motions; **DFN** hemisphere_alignment_short, hemisphere_alignment_length, hemisphere_alignment_inverts
* `HandEyeSelectProps`: **DFN** selection_matched, selection_empty_refuted, reset_indices_first, reset_indices_refuted
* `HomographyProps`: **DF** homography_system_iff, hmaps_iff_projected, homography_unique; **DFN** homography_dlt_exact, homography_dlt_sound, homography_dlt_optimal, full_svd_sufficient
* `IdentityIteratorProps`: **-** identity_second, identity_first, identity_unsized, identity_first_short, identity_moves, identity_subscript, identity_order, identity_plus_refuted
* `ImageLookupProps`: **CDFN** lookup_jacobian_derivative, lookup_jacobian_refuted; **DF** lookup_in_bounds, lookup_pixel, lookup_between, lookup_lipschitz, lookup_affine, lookup_last_column_refuted, lookup_sobel, round_nearest, lookup_jacobian_affine, lookup_jacobian_smoothed, lookup_border_jacobian_refuted
* `JacobiansProps`: **CDFN** derivative_spec, sphere_derivative_spec, radial_distortion_jacobians, dehomogenization_jacobian, normalize_jacobian, quaternion_rotation_jacobian, quaternion_vector_jacobians, quaternion_rotation_jacobian_refuted, quaternion_error_jacobian, lie_jacobian_exact, lie_jacobian_zero, lie_jacobian_zero_refuted, single_point_multi_projection_jacobian, multiple_point_projection_jacobian, multiple_camera_projection_jacobian, projection_error_jacobians, art_error_jacobian, rothec_measurement_jacobian, rothec_combine_jacobian_a, rothec_combine_jacobian_b_iff, rothec_combine_jacobian_b_refuted; **DFN** pose_normalize_unit, pose_normalize_projection, pose_normalize_projection_refuted
* `KMeansProps`: **-** greedy_seeds; **D** seeds_none_refuted; **DF** assign_valid, assign_nearest, kmeans_rounds, kmeans_labels, kmeans_error, seeds_from_input, round_cost, kmeans_cost, kmeans_nan_kept, kmeans_empty_cluster_refuted, seeds_apart; **DFN** seeds_repeated_refuted
* `KalmanMapProps`: **DF** kalman_map
* `KalmanProps`: **DF** kalman_covariance_valid, kalman_textbook, kalman_gain_optimal, kalman_no_innovation, kalman_well_defined, kalman_identity_agrees, kalman_information, kalman_information_state, kalman_order_independent
* `LensProps`: **-** transform_all_spec; **CDFN** distort6_derivative; **DF** project_unproject, unproject_project, project_is_pinhole, project_then_distort, project_then_distort_refuted, distort6_defined, distort6_extends, distort_none, camera_distort_lens_distort, radial_rotates, undistort_unique, undistort_point_distorts, undistort_point_refuted; **DFN** undistort_terminates, undistort_improves, undistort6_improves, camera_undistort_improves, undistort_fixed, image_undistort_fixed, undistort_error, undistort_inverts_refuted
* `LevMarqProps`: **DF** lm_step_decreases_linearisation, lm_stop_rule; **DFN** lm_reports_its_residual, lm_never_worse, lm_terminates_within_limit, lm_terminates_within_limit_svd, lm_unlimited_diverges, lm_nan_accepted_refuted, lm_affine_decreases, lm_weighted_system, lm_perfect_fit_diverges
* `LinAlgProps`: **D** outer_product_exact, matrix_vector_zero_columns_refuted; **DF** inverse2_two_sided, inverse3_two_sided, inverse_defined_iff_det, det2_laws, det3_laws, inner_product_exact, inner_dynamic_exact, cross_product_laws, matrix_vector_exact, matrix_vector_forward_exact, matrix_matrix_exact, transform_point_exact, transform_point_44_4_refuted, transform_point_44_4_exact_iff, project_point_exact, project_point_scale, normalization_matrix_normalizes, normalization_matrix_inverse, pseudo_invert_penrose, penrose_unique, pseudo_invert_least_squares, lh_to_rh_conjugation, lh_to_rh_involutive, lh_to_rh_multiplicative, lh_to_rh_points, lh_to_rh_rotation; **DFN** norms_exact, normalize_exact, normalization_centres, normalization_scale_zero
* `LuDetProps`: **DF** lu_determinant, laplace_is_det, small_determinants
* `MsgpackProps`: **-** msgpack_vector_round_trip, msgpack_dynamic_vector_round_trip, msgpack_dynamic_vector_refuted, msgpack_quaternion_round_trip, msgpack_pose_round_trip, msgpack_measurement_round_trip, msgpack_pose_measurement_round_trip, msgpack_empty_measurement, msgpack_stream_order, msgpack_exhausted_keeps_old, msgpack_zone_vector_refuted, msgpack_error_vector_round_trip, msgpack_error_pose_round_trip, msgpack_matrix_round_trip_iff, msgpack_tall_matrix_refuted, msgpack_empty_matrix_refused, msgpack_camera_round_trip
* `MultiCamProofs`: **DFN** lm_no_worse
* `MultiCamProps`: **CDEFN** start_from_camera_refuted; **CDFN** estimated_pose, estimate_no_worse, estimate_returns, estimate_local, bundles_independent, empty_bundle, empty_first_bundle_refuted, too_few_points, negative_minimum, bundle_beyond, no_camera, multi_camera_all; **DFN** start_from_camera
* `MunkresProps`: **-** munkres_result_optimal_partial, munkres_terminates_iff, munkres_termination_refuted, munkres_reduction_invariant, munkres_zero_assignment_minimal, munkres_match_lists_inverse, munkres_nonsquare_refuted
* `NewFunctionProps`: **CDFN** repeated_parameter_refuted, dehomogenization_contract, norm_contract, lie_contract, intrinsics_contract, objective_jacobian; **D** evaluate_composes, calls_independent; **DF** expression_jacobian, expression_jacobian_zero, store_contract; **DFN** difference_of_parameters, repeated_parameter_computes, addition_contract, subtraction_contract, linear_contract, norm_contract_refuted
* `OrthoIterProps`: **DF** exact_fit_reprojects, reprojection_is_exact_fit, behind_the_camera_same_error; **DFN** oi_pose_optimal_translation, oi_failure_writes_nothing, oi_error_monotone, oi_terminates
* `PlanarDltProps`: **DFN** projection_init_exact, projection_init, projection_init_refuted
* `PlanarFitProps`: **DF** reprojection_error_is_sum; **DFN** refined_pose, refinement_never_worse, refinement_ends, init_pose_rigid, init_projection_guard, computed_residual, computed_covariance, computed_covariance_refuted
* `PlanarInitProps`: **DFN** rotated_plane_exact, collinearity_test, collinear_points_missed, collinearity_test_refuted
* `PlanarPoseProps`: **DF** facing_reprojects; **DFN** homography_pose_rotation, homography_pose_exact, homography_pose_plain_exact, homography_pose_plain_rigid, planar_pose_exact, level_points_pose, level_points_refuted
* `PoseFilterPredictProps`: **DF** pose_sign_measurement, pose_sign_refuted; **DFN** prediction_is_time_update, rkf_step_invariant, rkf_invariant, rkf_rotation_never_degenerate, rkf_predict_total, rkf_first_rotation_adopted, rkf_velocity_first_refuted
* `PoseFilterProps`: **DFN** expected_velocity_keeps_state, expected_rotation_keeps_state, expected_pose_keeps_state, filter_step_invariant, filter_invariant, rotation_measurement_never_degenerate, rotation_filter_never_degenerate, first_pose_adopted
* `ProjectionDltProps`: **DF** projection_system_iff, pmaps_iff_projected; **DFN** projection_dlt_exact, projection_dlt_sound, projection_dlt_normal_form, p_full_svd_sufficient
* `ProjectionProps`: **D** correct_origin_keeps_shape; **DF** decompose_defined, decompose_translation, off_axis_maps_screen, off_axis_defined, correct_origin_flips, correct_origin_involution; **DFN** gl_maps_rectangle, gl_maps_depth, depth_is_distance, gl_defined, gl33_is_camera, decompose_factors, decompose_reproduces_camera, decompose_recovers_camera, decompose_proportional_iff, decompose_scale_refuted
* `QuatProps`: **CDFN** angle_of_rotation, axis_angle_roundtrip_partial, axis_angle_identity_refuted, logarithm_roundtrip_partial, logarithm_small_rotations, logarithm_exact_refuted, logarithm_of_exponential, slerp_stays_on_sphere, slerp_hits_endpoints, slerp_constant_speed, pose_interpolation_endpoints; **D** pose_vector_roundtrips; **DF** pose_action_compose, pose_mul_assoc, pose_neutral, pose_inverse, pose_inverse_product, pose_rigid_closed, rotation_preserves_geometry, rotation_agrees_with_matrix, rotation_product, rotation_sign_irrelevant, rotation_is_conjugation, negate_if_closer_correct, pose_matrix_acts_as_pose, pose_matrix_homomorphism; **DFN** quaternion_of_rotation_matrix, quaternion_matrix_roundtrip, axis_angle_gives_unit, axis_angle_defined, axis_angle_is_rodrigues, exponential_is_unit, pose_matrix_roundtrip
* `RandomDrawProps`: **CDFN** rotation_onto, rotation_volume, rotation_isotropic; **DF** uniform_within, uniform_within_own, uniform_matrix_within, uniform_matrix_onto, uniform_onto, normal_covariance_refuted; **DFN** rotation_unit, rotation_injective
* `RandomMomentsProps`: **CDFN** rotation_moments, rotation_invariant
* `RandomUniformProps`: **CDFN** rotation_uniform
* `RansacPoseProps`: **-** ransac_first_qualifying, ransac_best_refuted; **DFN** ransac_pose_exact, fits_distance, separated_by_distance, ransac_pose_unset_refuted, ransac_tip_exact, ransac_tip_failure_refuted
* `RansacProps`: **-** ransac3_reports_existing_consensus, ransac_reports_existing_consensus, ransac_early_abort_complete, ransac3_early_abort_complete, ransac_large_input_refuted, ransac_failure_leaves_result, ransac_zero_minimum_refuted, ransac_final_failure_refuted
* `RosBinaryProps`: **-** ros_get_length, ros_length_exact, ros_round_trip, ros_sequence, ros_write_safe, ros_long_string_refuted, ros_read_safe, ros_overrun_sticky, ros_read_32bit_refuted, ros_vector_phantom_refuted
* `RotHecProps`: **DF** online_fit, online_information, online_order, online_signs, rhk_sign; **DFN** online_result_unit, online_error, online_result_error, online_converges, online_half_turn_refuted, online_half_turn_sign_refuted, rhk_always_valid, rhk_compromise, rhk_exact_state, rhk_sign_refuted
* `RotationCastProps`: **CDFN** cast_axis_angle_roundtrip_partial, cast_identity_refuted, cast_matrix_axis_angle_partial, cast_matrix_axis_angle_half_turn_refuted; **DF** cast_quaternion_to_matrix; **DFN** cast_matrix_to_quaternion_partial, cast_half_turn, cast_matrix_to_quaternion_refuted, cast_axis_angle_consistent, cast_rotation_vector_consistent, cast_rotation_vector_is_exponential, cast_rotation_vector_roundtrip
* `SerialPortProps`: **-** serial_one_session, serial_refused_unless_open, serial_double_close_refuted, serial_reopen_refuted, serial_failed_open_leaks_refuted, serial_flush_unchecked_refuted, serial_flush_after_failed_open_refuted
* `SimpleBundleProps`: **CDFN** bundle_jacobian, bundle_jacobian_refuted; **DF** predictions_fill_the_rows, full_visibility_objective, partial_visibility_refuted, bundle_gauge; **DFN** bundle_roundtrip, bundle_poses_are_rigid, bundle_terminates, bundle_final_error, exact_data_unchanged, normalised_error, normalised_error_refuted
* `SimpleStringProps`: **-** archive_round_trip, archive_injective, archive_too_many, archive_blank_refuted, archive_counter_refuted; **DF** archive_double_refuted
* `SimplexProps`: **DF** simplex_start_points, simplex_zero_start_refuted, simplex_state_coherent, simplex_best_monotone, simplex_returns_best_seen, simplex_selection, simplex_trial_point, simplex_contraction, simplex_terminates_within_limit
* `Spectral`: **CDFN** eigenvectors_exist
* `SquareHomographyProps`: **DFN** square_homography_maps, square_homography_exact, square_homography_regular_iff, square_homography_unique
* `StatsProps`: **-** filtered_iteration_diverges_refuted, filtered_iteration_no_match, filtered_iteration_correct_iff, filtered_size; **DFN** correlation_range, correlation_symmetric, correlation_defined, correlation_self, correlation_affine, correlation_extreme, correlation_prefix
* `TimeUpdateProps`: **CDFN** time_update_exact, time_update_exact_rotation, advance_compose, time_update_composes; **DFN** time_update_jacobian_linear, time_update_in_place
* `TimeUpdateRotProps`: **-** state_layout_partition, update_offsets; **CDFN** rotation_update_tiny_refuted, rotation_update_order2_refuted, quaternion_update_velocity_jacobian_iff, quaternion_update_velocity_jacobian_corrected, quaternion_update_rotation_jacobian_iff, velocity_between_exact, integration_functor_correct_iff, integration_functor_refuted, integration_functor_jacobian_rows, integration_functor_jacobian_iff, inside_out_exact, inside_out_velocity_exact, inside_out_axis_refuted, invert_velocity_jacobian; **D** noise_setters_exact, noise_setter_order_refuted; **DF** update_interval_exact, prediction_interval_iff, prediction_earlier_refuted, invert_velocity_value; **DFN** rotation_update_composes, exp_step_integrate, integration_unit, integration_axis_angle, integration_rodrigues, inverse_velocity_exact
* `TimestampSyncProps`: **DF** sync_covariance_valid, sync_moves_towards_measurement, sync_first_event_exact, sync_fixed_point, sync_counts_events, sync_counter_restarts, sync_ls_counts_events, sync_ls_warmup_exact, sync_ls_exact_on_lines, sync_ls_constant_native_refuted, sync_outlier_run_bounded, sync_outlier_run_attained, sync_rejections_bounded
* `TimestampTextProps`: **-** now_fields, now_monotone, now_wraps, now_wrap_refuted, short_order, short_unique, short_length, short_day_refuted, long_shape, long_length, long_unique, date_exists
* `ToolTipProps`: **DF** tool_tip_optimal, tool_tip_exact, tool_tip_ambiguous, two_poses_ambiguous, tip_residual, tip_system_iff
* `ToolTipRefineProps`: **CDFN** tip_jacobian_derivative, tip_jacobian_axis_refuted, tip_step_downhill; **DFN** tip_refine_optimal, tip_damping, tip_round_limit, tip_refine_exact_refuted, tip_errors_meaning, tip_errors_world, tip_errors_few_refuted
* `TriangulateProps`: **CDFN** multi_projection_jacobian; **DF** epipolar_distance_spec, epipolar_distance_zero_iff, epipolar_distance_undefined_iff, homogeneous_from_scale, homogeneous_to_scale_refuted, direction_check_idle, multi_view_throws_iff, multi_projection_spec; **DFN** two_view_exact, multi_view_exact, reconstruct_exact
* `TsaiLenzProps`: **DFN** tsai_lenz_exact, tsai_half_turn_never_found, tsai_half_turn_motion_refuted, tsai_lenz_less_than_half, tsai_lenz_two_positions, tsai_lenz_throws
* `TukeyProps`: **DFN** tukey_weight_antitone_partial, tukey_perfect_suppressed_refuted, tukey_weight_unbounded, compute_weights_blocks, compute_weights_overrun, compute_weights_zero_rows, tukey_outlier_unbounded_refuted
* `VecOrderProps`: **DF** less_spec, equal_spec, less_irreflexive, less_transitive, less_total, less_not_equal, less_nan_refuted; **DFN** rms_mean, rms_defined, rms_zero, rms_rotated
* `ViewAngleProps`: **CDFN** angle_horizontal_rays, angle_vertical_rays, angle_monotone, angle_diagonal_value, angle_diagonal_refuted, angle_offset_refuted; **DF** flip_projects, flip_twice
