{"id": "C01", "title": "Pose composition is a group action on points", "statement": "For poses with unit rotation: applying the product of two poses to a point equals applying the second pose to the point and then the first; products are associative; the default pose is neutral; and a pose multiplied with its inverse, on either side, is the neutral pose (so inverse-then-apply recovers the point exactly, in exact arithmetic).", "quantifier": "all poses with unit quaternions and all 3D points", "why_tests_cant": "An algebraic law over a 7-dimensional continuum; a test samples finitely many poses and cannot distinguish an identity from an approximate coincidence.", "anchors": ["src/utMath/Pose.cpp: operator~, operator*, operator*(Pose,Vector3)", "src/utMath/Quaternion.cpp: operator*(Vector3)", "src/utMath/Pose.h"]}
{"id": "C02", "title": "A rotation applied through a quaternion is a rigid rotation and agrees with its matrix form", "statement": "For every unit quaternion the vector rotation operator preserves inner products, lengths and cross products, and equals multiplication by the 3x3 matrix produced by toMatrix, which is orthogonal with determinant +1. q and -q give the same rotation. Composition of quaternions corresponds to matrix products.", "quantifier": "all unit quaternions, all vectors", "why_tests_cant": "Polynomial identity over a continuum of inputs.", "anchors": ["src/utMath/Quaternion.h: toMatrix", "src/utMath/Quaternion.cpp: operator*(const Vector<double,3>&)"]}
{"id": "C03", "title": "Quaternion from rotation matrix loses nothing", "statement": "Converting any unit quaternion to a 3x3 matrix and constructing a Quaternion from that matrix yields the original quaternion up to sign, in every branch of the conversion (positive trace and each dominant-diagonal case); the matrix of the reconstructed quaternion is exactly the input matrix.", "quantifier": "all unit quaternions, i.e. all rotation matrices, including half turns", "why_tests_cant": "The branch selection partitions a continuum; the half-turn boundary cases have measure zero and are missed by random tests.", "anchors": ["src/utMath/Quaternion.cpp: Quaternion(const Matrix&) lines 35-74", "src/utMath/Quaternion.h: toMatrix 289-318"]}
{"id": "C04", "title": "Logarithm and axis-angle conversions are inverse to each other up to sign", "statement": "For every unit quaternion, fromLogarithm applied to toLogarithm gives back the same rotation, and building a quaternion from the axis and angle reported by toAxisAngle gives back the same rotation; every quaternion built from a unit axis and any angle has unit norm.", "quantifier": "all unit quaternions; all axes and angles", "why_tests_cant": "Transcendental identity over a continuum including the special-cased zero rotation.", "anchors": ["src/utMath/Quaternion.h: Quaternion(axis,angle) 97-106, toAxisAngle 323-340", "src/utMath/Quaternion.cpp: toLogarithm 229-247, fromLogarithm 250-260"]}
{"id": "C05", "title": "Spherical interpolation stays on the sphere and hits its endpoints", "statement": "slerp of two unit quaternions is a unit quaternion for every parameter (whenever the spherical formula is used), at t=0 it represents the rotation of the first and at t=1 the rotation of the second quaternion, also when the two quaternions lie on opposite hemispheres.", "quantifier": "all pairs of unit quaternions, all parameters t", "why_tests_cant": "Continuum of inputs with a sign branch and a near-zero-angle branch.", "anchors": ["src/utMath/Quaternion.cpp: slerp 275-325", "src/utMath/Pose.cpp: linearInterpolate 79-85"]}
{"id": "C06", "title": "Pose, vector and matrix representations of a rigid motion are interchangeable", "statement": "Writing a pose to a 7-vector and reading it back is the identity; the 3x4/4x4 matrix built from a pose sends every homogeneous point to the point obtained by applying the pose; the 4x4 matrix of a product of poses is the product of their matrices, and the matrix of the inverse pose is the inverse matrix.", "quantifier": "all poses with unit rotation, all points", "why_tests_cant": "Universally quantified algebraic law.", "anchors": ["src/utMath/Pose.h: toVector/fromVector 140-156", "src/utMath/Matrix.h: Matrix(const Pose&) 154-174", "src/utMath/Pose.cpp"]}
{"id": "C07", "title": "Inverting an uncertain pose twice restores its covariance", "statement": "For an ErrorPose p, ~(~p) has the same pose and the same covariance as p.", "quantifier": "all unit-rotation poses and all 6x6 covariance matrices", "why_tests_cant": "The sign of an off-diagonal block is wrong only when translation and cross-covariance are non-zero; tests that check the mean or a diagonal covariance pass.", "anchors": ["src/utMath/ErrorPose.cpp: inversionJacobian 45-132, operator~ 490-501"]}
{"id": "C08", "title": "Additive/multiplicative covariance conversion round-trips", "statement": "Converting an ErrorPose to an additive 7-dimensional error vector and back yields the original pose and the original 6x6 covariance.", "quantifier": "all unit-rotation poses and all 6x6 matrices", "why_tests_cant": "Bilinear identity over 36 covariance entries and a continuum of rotations.", "anchors": ["src/utMath/ErrorPose.cpp: ErrorConversion 464-485, toAdditiveErrorVector 610-621, fromAdditiveErrorVector 624-631"]}
{"id": "C09", "title": "Transforming an uncertain point by an uncertain pose accounts for both covariances", "statement": "The covariance of (ErrorPose * ErrorVector) equals the pose contribution plus the rotated covariance of the point; in particular with an exact pose the result covariance is R C R^T.", "quantifier": "all poses, covariances and points", "why_tests_cant": "A missing summand is invisible to tests using exact points.", "anchors": ["src/utMath/ErrorPose.cpp: operator*(ErrorPose,ErrorVector) 504-588"]}
{"id": "C10", "title": "Small matrix inverse and determinant functors are exact", "statement": "For every 2x2 and 3x3 matrix with non-zero determinant the inverse functor returns a two-sided inverse; the determinant functor is multiplicative, alternating and equals 1 on the identity.", "quantifier": "all real 2x2 and 3x3 matrices", "why_tests_cant": "Polynomial identities in 18 variables.", "anchors": ["src/utMath/Functors/MatrixFunctors.h: det 62-85, inverse 121-173"]}
{"id": "C11", "title": "Compile-time unrolled linear algebra equals its mathematical definition in every dimension", "statement": "The template-recursive inner product, outer product, matrix-vector and matrix-matrix products compute exactly the sums of products that define them, touching every index once, for every dimension and for column-major storage.", "quantifier": "all dimensions, all matrices and vectors", "why_tests_cant": "Template instantiations are unbounded in number; each test instantiates one size.", "anchors": ["src/utMath/Blas1.h: InnerProduct 110-162", "src/utMath/Blas2.h: outer_product_impl 135-176, 236-339", "src/utMath/Blas3.h: 115-181"]}
{"id": "C12", "title": "Point transformation overloads agree with the homogeneous matrix product", "statement": "Every overload of TransformPoint (2D/3D/4D points with 3x3, 3x4, 4x4 matrices) returns the homogeneous matrix-vector product of the given matrix with the (suitably padded) point.", "quantifier": "all matrices and points, all supported overloads", "why_tests_cant": "A single wrong index only matters if two matrix entries differ; typical test matrices (rigid motions with last row 0,0,0,1) hide it.", "anchors": ["src/utMath/Geometry/PointTransformation.h: 84-183"]}
{"id": "C13", "title": "Point normalisation centres and scales, and its matrices undo each other", "statement": "The estimated shift and scale give the mean and standard deviation per coordinate: the shifted and scaled points have zero mean and unit mean square; the matrix generated for normalisation maps each homogeneous point to its normalised point, and the matrix generated with the inverse flag is its two-sided inverse, for every dimension, whenever no scale is zero.", "quantifier": "all finite point lists, all dimensions, all non-zero scales", "why_tests_cant": "Quantifies over list length and dimension.", "anchors": ["src/utMath/Geometry/PointNormalization.h: 64-123"]}
{"id": "C14", "title": "Conic operations act on the point set as advertised", "statement": "For a conic given by six coefficients: conversion to the symmetric matrix and back is lossless and the matrix quadratic form equals the conic polynomial; translating by t, or flipping vertically in an image of height h, moves the point set exactly (a point lies on the result iff its pre-image lies on the input); flipping twice is the identity; ConicInverse is the coefficient form of the inverse symmetric matrix whenever the determinant is non-zero.", "quantifier": "all conics, points, shifts and heights", "why_tests_cant": "Polynomial identities over a continuum.", "anchors": ["src/utMath/Geometry/Conic.h: MatrixFromConic 115-125, ConicFromMatrix 149-159, ConicInverse 185-203, TranslateConic 802-841, FlipConicHorizontal 915-944"]}
{"id": "C15", "title": "Conic centre: exact for central conics, error for parabolic ones", "statement": "For a conic with non-vanishing quadratic discriminant the returned centre is the unique point at which the gradient of the conic vanishes; for a conic whose discriminant is zero the function reports the documented exception instead of returning a point.", "quantifier": "all conics", "why_tests_cant": "The guard tests the reciprocal of a quantity already divided by, which is unreachable for finite inputs; a test of the exception with one parabola sees inf/nan behaviour of that one input only.", "anchors": ["src/utMath/Geometry/Conic.h: ConicCenter 388-406"]}
{"id": "C16", "title": "Eccentricity does not depend on the orientation of the conic", "statement": "Rotating an ellipse leaves the reported eccentricity unchanged, and for an axis-aligned ellipse it equals the textbook value.", "quantifier": "all ellipses and all rotations", "why_tests_cant": "Axis-aligned test conics have zero mixed coefficient, which hides the halved term.", "anchors": ["src/utMath/Geometry/Conic.h: ConicEccentricity 438-450"]}
{"id": "C17", "title": "RANSAC reports only consensus that exists", "statement": "When ransac returns a non-zero count n, there is an iteration whose hypothesis was estimated from a sample of the given data such that exactly n of the data lie strictly below the threshold for it, n is at least the required minimum, the final estimate is computed from exactly those data in their original order, and (three-argument variant) the returned inlier flags mark exactly those data.", "quantifier": "all data, all estimators and evaluators, all random choices, all iteration limits", "why_tests_cant": "Quantifies over every random schedule and over the early-abort scan, whose stale flags could leak only for particular schedules.", "anchors": ["src/utMath/Optimization/Ransac.h: 127-241, 262-395, 403-501"]}
{"id": "C18", "title": "RANSAC's early abort never loses a qualifying hypothesis", "statement": "If any executed iteration produces a hypothesis with at least the required number of inliers then ransac succeeds; with a minimum number of runs the returned count is the maximum over the executed iterations. This holds for data sets of fewer than 2^31 items.", "quantifier": "all data, estimators, evaluators, random choices", "why_tests_cant": "The abort condition mixes unsigned wrap-around and a cast to int; correctness is a loop invariant over all prefixes.", "anchors": ["src/utMath/Optimization/Ransac.h: 194, 336, 445, 458-466"]}
{"id": "C19", "title": "A failing RANSAC leaves the caller's result untouched", "statement": "When ransac returns 0 the output parameter is unchanged, and when it returns non-zero the output is the estimate of the final consensus set.", "quantifier": "all data, parameters (including a required minimum of 0 and estimators that fail on the consensus set)", "why_tests_cant": "Needs the interaction of a degenerate parameter or a failing final estimation with the return convention.", "anchors": ["src/utMath/Optimization/Ransac.h: 223-240, 366-394, 477-500"]}
{"id": "C20", "title": "Levenberg-Marquardt never makes the fit worse and reports the residual of what it returns", "statement": "For every problem, weight function and solver outcome with non-NaN residuals, the returned value is the residual of the returned parameters and is at most the residual at the starting point; parameters only change when the residual strictly decreases.", "quantifier": "all problems, all starting points, all iteration histories", "why_tests_cant": "Loop invariant over arbitrary iteration histories.", "anchors": ["src/utMath/Optimization/LevenbergMarquardt.h: 80-229"]}
{"id": "C21", "title": "Levenberg-Marquardt terminates within the iteration limit", "statement": "With a positive iteration limit the optimiser evaluates at most limit+1 iterations; with no limit and zero precision there are inputs on which it never stops.", "quantifier": "all problems, all solver outcomes", "why_tests_cant": "Termination is a liveness property of an unbounded loop.", "anchors": ["src/utMath/Optimization/LevenbergMarquardt.h: 80-229", "src/utMath/Optimization/Optimization.h: OptTerminate 57-81"]}
{"id": "C22", "title": "Levenberg-Marquardt rejects undefined residuals", "statement": "A step whose residual is not a number is never accepted into the returned parameters.", "quantifier": "all iteration histories including NaN residuals", "why_tests_cant": "NaN makes the rejecting comparison false; needs a problem that becomes undefined mid-way.", "anchors": ["src/utMath/Optimization/LevenbergMarquardt.h: accept/reject branch"]}
{"id": "C23", "title": "Downhill simplex keeps its bookkeeping consistent and never loses the best vertex", "statement": "Throughout the search every stored function value is the function value of its vertex, the maintained column sums equal the sums of the vertices, and the best value found never gets worse.", "quantifier": "all cost functions, dimensions, starting points, iteration counts", "why_tests_cant": "Invariant over all iterations.", "anchors": ["src/utMath/Optimization/DownhillSimplex.h: 53-189"]}
{"id": "C24", "title": "Finite-difference Jacobian is exact for affine functions", "statement": "For an affine function the numerically approximated Jacobian equals the function's matrix whatever the point and positive step width.", "quantifier": "all affine functions, dimensions, points, step widths", "why_tests_cant": "Quantifies over dimension and continuum.", "anchors": ["src/utMath/Optimization/Function/DiscreteJacobianApproximation.h"]}
{"id": "C25", "title": "Analytic Jacobians are the derivatives of the functions they accompany", "statement": "For radial lens distortion, dehomogenisation, vector normalisation, projection and quaternion-vector rotation, each entry of the Jacobian returned by the library is the partial derivative of the corresponding component of the evaluated function.", "quantifier": "all points of the domain", "why_tests_cant": "Derivative is a limit; finite-difference tests only sample and tolerate errors.", "anchors": ["src/utAlgorithm/Function/RadialDistortion.h", "src/utMath/Optimization/NewFunction/Dehomogenization.h", "src/utMath/Optimization/Function/VectorNormalize.h", "src/utMath/Optimization/Function/QuaternionVectorRotation.h"]}
{"id": "C26", "title": "Kalman measurement update keeps the covariance valid and never increases it", "statement": "If the prior covariance is symmetric positive semidefinite and the measurement covariance is such that the innovation covariance is symmetric and invertible and the measurement covariance is positive semidefinite, the updated covariance is symmetric positive semidefinite and no larger than the prior; a measurement equal to the prediction does not move the state.", "quantifier": "all state and measurement dimensions, all matrices", "why_tests_cant": "Quantifies over dimensions and matrices.", "anchors": ["src/utMath/Stochastic/Kalman.h: 71-219"]}
{"id": "C27", "title": "Propagating a sub-range of a state through a function updates the joint covariance correctly", "statement": "Transforming a block of a state vector updates the full covariance as F C F^T for the block map F that applies the function's Jacobian on the block and the identity elsewhere, preserving symmetry and positive semidefiniteness.", "quantifier": "all dimensions, block positions, Jacobians, covariances", "why_tests_cant": "Quantifies over dimension and block position.", "anchors": ["src/utMath/Stochastic/CovarianceTransform.h: 71-193"]}
{"id": "C28", "title": "Averages of rotations ignore the sign ambiguity and averages of vectors are the mean with a valid covariance", "statement": "Averaging quaternions gives the same result when any input with non-zero scalar part is replaced by its negation; vector averages with covariance return the arithmetic mean and a symmetric positive semidefinite covariance equal to the mean of squared deviations.", "quantifier": "all non-empty lists", "why_tests_cant": "List-length induction with arbitrary sign patterns.", "anchors": ["src/utMath/Stochastic/Average.h: 83-318"]}
{"id": "C29", "title": "k-means assigns every point to a nearest mean and stops", "statement": "Each returned label is the index of a mean with minimal distance (lowest index on ties), labels are always valid indices, there are exactly as many labels as points, and at most 100 refinement rounds are made; the seeding routine only ever selects points that occur in the input.", "quantifier": "all point lists, distance functions, random choices", "why_tests_cant": "Quantifies over data and random schedule.", "anchors": ["src/utMath/Stochastic/k_means.h: 62-403"]}
{"id": "C30", "title": "Correlation coefficient lies in [-1,1] and is invariant under positive affine rescaling", "statement": "For sequences with non-zero variance the value is between -1 and 1, symmetric in its arguments, 1 for identical sequences, and unchanged when one sequence is scaled by a positive factor and shifted.", "quantifier": "all finite sequences", "why_tests_cant": "Cauchy-Schwarz over every length.", "anchors": ["src/utMath/Stochastic/Correlation.h: 31-83"]}
{"id": "C31", "title": "Filtering iteration visits exactly the matching elements", "statement": "Iterating from begin to end through the index-filtered iterator visits exactly the elements whose label matches, in order, and stops.", "quantifier": "all label sequences", "why_tests_cant": "Infinite looping after the first match is a liveness failure.", "anchors": ["src/utMath/Stochastic/index_iterator.h: 139-146"]}
{"id": "C32", "title": "Assignment solver returns a minimal-cost perfect matching and terminates", "statement": "For every square cost matrix the Munkres solver stops and returns a permutation whose cost is minimal among all permutations.", "quantifier": "all square cost matrices", "why_tests_cant": "Optimality against n! alternatives and termination for all inputs.", "anchors": ["src/utMath/Graph/Munkres.h: 140-507"]}
{"id": "C33", "title": "Clock synchronisation filter keeps a valid uncertainty", "statement": "After any sequence of events the timestamp synchroniser's 2x2 covariance stays symmetric positive semidefinite with positive first variance, gains stay in [0,1], the first event is returned unchanged as the local time, and the average deviation never becomes negative.", "quantifier": "all event sequences", "why_tests_cant": "Invariant over unbounded histories.", "anchors": ["src/utMeasurement/TimestampSync.cpp: 40-135"]}
{"id": "C34", "title": "Clock synchronisation recovers from an outlier burst", "statement": "At most a bounded number of consecutive events can be rejected as outliers before one is accepted, and the outlier budget always stays within its bounds.", "quantifier": "all event sequences", "why_tests_cant": "Bound over arbitrary histories.", "anchors": ["src/utMeasurement/TimestampSync.cpp: 81-135"]}
{"id": "C35", "title": "ROS-style binary serialisation round-trips and its length predictor is exact", "statement": "For every supported value (scalars, booleans, strings, vectors, fixed arrays and nested combinations) deserialising the bytes written by serialise returns the value and consumes exactly the predicted number of bytes, leaving trailing bytes untouched; serialising into a buffer of the predicted length never overruns.", "quantifier": "all values of all supported types", "why_tests_cant": "Round-trip over unbounded values.", "anchors": ["src/utSerialization/ROSBinarySerialization.h: 122-674"]}
{"id": "C36", "title": "Deserialising hostile bytes never reads outside the buffer", "statement": "Whatever bytes and lengths are supplied, reading a value either succeeds within the buffer or raises the overrun error before touching memory outside it.", "quantifier": "all byte strings", "why_tests_cant": "Adversarial inputs; unsigned 32-bit products wrap.", "anchors": ["src/utSerialization/ROSBinarySerialization.h: advance 549-562, getLength 567, vectors 218-352"]}
{"id": "C37", "title": "Msgpack serialisation of vectors, rotations, poses and measurements round-trips", "statement": "Unpacking what was packed returns the original vector, quaternion, pose, and timestamped measurement.", "quantifier": "all values, all vector lengths", "why_tests_cant": "Unbounded values.", "anchors": ["src/utSerialization/MsgpackSerializer.h: 131-465, 539-576"]}
{"id": "C38", "title": "Msgpack serialisation of matrices round-trips for every shape", "statement": "Unpacking a packed MxN matrix returns the same matrix for all M and N.", "quantifier": "all shapes, all matrices", "why_tests_cant": "Square matrices, the only ones tested, hide the stride error.", "anchors": ["src/utSerialization/MsgpackSerializer.h: 322-410"]}
{"id": "C39", "title": "Camera calibration data survives serialisation", "statement": "Writing camera intrinsics and reading them back gives the same focal matrix, image size, radial and tangential coefficients, whichever constructor produced them.", "quantifier": "all intrinsics, all constructors", "why_tests_cant": "One constructor records the wrong coefficient count; the loss is visible only after a round trip of that constructor.", "anchors": ["src/utMath/CameraIntrinsics.h: 100-300"]}
{"id": "C40", "title": "Serial port handle life cycle", "statement": "Over any sequence of open, close, send and receive calls every descriptor obtained from the system is closed exactly once, and the port can be reopened after closing.", "quantifier": "all call sequences and system-call outcomes", "why_tests_cant": "Needs sequences such as close-close or close-open with descriptor reuse.", "anchors": ["src/utUtil/SerialPort.cpp: 246-383"]}
{"id": "C41", "title": "Pose filter state layout is consistent", "statement": "For every position and orientation order the index ranges used for position derivatives, quaternion and angular velocities partition the state vector, and the process-noise setters write inside the range of the quantity they name.", "quantifier": "all model orders", "why_tests_cant": "Quantifies over all orders.", "anchors": ["src/utTracking/LinearPoseMotionModel.h: 42-113", "src/utTracking/PoseKalmanFilter.cpp: 79-308"]}
{"id": "C42", "title": "Constant-velocity time update composes", "statement": "Advancing a state by dt1 and then by dt2 equals advancing it by dt1+dt2, for every derivative order, the accompanying Jacobian is the exact linear map, and updating in place gives the same result as updating into a separate vector.", "quantifier": "all orders, states and time steps", "why_tests_cant": "Quantifies over order; in-place aliasing hazards depend on evaluation order.", "anchors": ["src/utTracking/Function/LinearTimeUpdate.h", "src/utTracking/Function/PoseTimeUpdate.h", "src/utTracking/PoseKalmanFilter.cpp: timeUpdate 208-233"]}
{"id": "C43", "title": "Orientation prediction is correct for timestamps on either side of the last measurement", "statement": "Predicting the orientation for a timestamp earlier than the last measurement uses the (negative) time difference, as the time update does.", "quantifier": "all pairs of 64-bit timestamps", "why_tests_cant": "Requires an out-of-order query; unsigned subtraction wraps.", "anchors": ["src/utTracking/RotationOnlyKF.cpp: 51-133"]}
{"id": "C44", "title": "Quaternion time-update Jacobian matches the integration it accompanies", "statement": "The block of the Jacobian relating angular velocity to the predicted quaternion is the derivative of the prediction (to first order at zero velocity) for every time step.", "quantifier": "all quaternions and time steps", "why_tests_cant": "At dt=1 the erroneous factor is invisible.", "anchors": ["src/utTracking/Function/QuaternionTimeUpdate.h: 67-100"]}
{"id": "C45", "title": "OpenGL projection matrix maps the view volume to the unit cube", "statement": "For every projection matrix with unit-length viewing row the near and far planes are mapped to depth -1 and +1 (after the perspective division), and the image rectangle is mapped to [-1,1]x[-1,1].", "quantifier": "all frusta and projection matrices", "why_tests_cant": "Continuum of parameters.", "anchors": ["src/utAlgorithm/Projection.cpp: projectionMatrixToOpenGLimp 225-262"]}
{"id": "C46", "title": "Projection decomposition normalises signs without changing the product", "statement": "Whatever triangular/orthogonal factors are supplied by the numerical library, the sign normalisation preserves the product K*R up to the final scale, makes the rotation proper and makes the calibration matrix have K33=-1 and K11>0 for invertible input.", "quantifier": "all factor pairs", "why_tests_cant": "Eight sign patterns times continuum.", "anchors": ["src/utAlgorithm/Projection.cpp: decomposeProjectionImpl 146-206"]}
{"id": "C47", "title": "Dual-quaternion and pose representations round-trip", "statement": "Converting a pose to a dual quaternion and back is the identity for unit rotations, and the dual part is always orthogonal to the real part.", "quantifier": "all poses", "why_tests_cant": "Polynomial identity.", "anchors": ["src/utAlgorithm/PoseEstimation6D6D/DataSelection.h: pose_cast 93-270"]}
{"id": "C48", "title": "Scale estimation recovers the true scale", "statement": "If one point set is a similarity transform (rotation, translation, uniform scale s>0) of the other, the estimated scale between the sets is exactly s (in the documented direction) whenever the points do not all coincide.", "quantifier": "all point sets, similarities", "why_tests_cant": "Quantifies over list length and transformations.", "anchors": ["src/utAlgorithm/PoseEstimation3D3D/Scale.h: 50-108"]}
{"id": "C49", "title": "Absolute orientation's 4x4 matrix encodes the alignment objective", "statement": "For every quaternion the quadratic form of the constructed symmetric matrix equals the sum over correspondences of the inner product of one point with the rotated other point, so that a unit maximiser of the form is exactly a least-squares optimal rotation.", "quantifier": "all correspondence lists, all quaternions", "why_tests_cant": "Identity over all lists; a transposed index yields the inverse rotation.", "anchors": ["src/utAlgorithm/PoseEstimation3D3D/Rotation3D.h: 57-146"]}
{"id": "C50", "title": "Linear calibration systems have exactly the intended solutions", "statement": "A homography (resp. projection matrix, fundamental matrix, tool tip) satisfies all rows of the linear system assembled from correspondences iff it maps each source to its target point (resp. satisfies the corresponding geometric constraint), and undoing the normalisation transports solutions back to the original coordinates.", "quantifier": "all correspondence lists", "why_tests_cant": "Equivalence over all lists.", "anchors": ["src/utAlgorithm/Homography.cpp: 45-105", "src/utAlgorithm/Projection.cpp: 59-130", "src/utAlgorithm/FundamentalMatrix.cpp: 52-177", "src/utAlgorithm/ToolTip/LeastSquare.h: 83-128"]}
{"id": "C51", "title": "Relative pose generation yields one motion per pair", "statement": "From n absolute poses all-pairs generation produces n(n-1)/2 relative poses, one for each ordered pair i<j, in lexicographic order, and matching eye/hand lists satisfy the hand-eye equation whenever the absolute poses do.", "quantifier": "all pose lists", "why_tests_cant": "List-length induction.", "anchors": ["src/utAlgorithm/PoseEstimation6D6D/DataSelection.h: 365-389, 530-551", "src/utAlgorithm/PoseEstimation6D6D/DataSelection.cpp: 148-163"]}
{"id": "C52", "title": "Perfect measurements keep full weight in robust estimation", "statement": "The robust weight function gives a measurement with smaller error a weight at least as large as one with larger error; in particular an error-free measurement is not suppressed.", "quantifier": "all error vectors", "why_tests_cant": "The failing input (error exactly zero) has measure zero.", "anchors": ["src/utMath/Optimization/TukeyWeightFunction.h: 56-80"]}
{"id": "C53", "title": "Rotation matrix to quaternion cast is correct for all rotations", "statement": "RotationCast from a rotation matrix returns a quaternion representing that rotation.", "quantifier": "all rotation matrices including half turns", "why_tests_cant": "Half turns have measure zero and lose the signs.", "anchors": ["src/utMath/Util/RotationCast.h: 96-111"]}
{"id": "C54", "title": "Quadric projection routines agree", "statement": "Projecting an ellipsoid directly equals converting it to a quadric and projecting that, and the result is the inverse of the symmetric matrix P Q P^T in conic coefficients.", "quantifier": "all ellipsoids and projection matrices", "why_tests_cant": "Polynomial identity in ~20 variables.", "anchors": ["src/utMath/Geometry/QuadricFunctors.h: 117-358"]}
{"id": "C55", "title": "Angular velocity integration and its optimisation functor agree", "statement": "Integrating an angular velocity over a time step yields a unit quaternion and rotates by angle |v|dt about v; the optimisation functor for the same operation returns the same quaternion.", "quantifier": "all velocities and time steps", "why_tests_cant": "The erroneous threshold is only visible for the exact formula versus the small-angle one.", "anchors": ["src/utMath/RotationVelocity.h: 75-109", "src/utMath/Optimization/Function/RotationVelocityIntegration.h"]}
{"id": "C56", "title": "Euler angle constructor and accessors describe the same rotation", "statement": "The quaternion built from three Euler angles is a unit quaternion equal to a fixed product of three axis rotations.", "quantifier": "all angles", "why_tests_cant": "Trigonometric identity over all real angles.", "anchors": ["src/utMath/Quaternion.h: Quaternion(x,y,z) 76-90"]}
{"id": "C57", "title": "Products of uncertain poses propagate first-order errors correctly", "statement": "For the error model documented in ErrorPose.h, the Jacobians used for a product of two uncertain poses and for an uncertain pose applied to a point are the derivatives of the resulting errors; the propagated covariance is symmetric positive semidefinite, does not depend on the bracketing of a product, and an exact identity pose is neutral.", "quantifier": "all rigid poses, all covariances, all error directions", "why_tests_cant": "A derivative at every pose; associativity of covariances over all triples.", "anchors": ["src/utMath/ErrorPose.h: 50-66", "src/utMath/ErrorPose.cpp: 135-291, 504-570, 633-640"]}
{"id": "C58", "title": "Additive error vectors carry the covariance of the quaternion entries", "statement": "The rotation block of the covariance returned by toAdditiveErrorVector is the covariance of the four quaternion entries under the documented multiplicative error.", "quantifier": "all rigid poses and covariances", "why_tests_cant": "The two conversions undo each other, so a round-trip test cannot see that both are swapped.", "anchors": ["src/utMath/ErrorPose.cpp: ErrorConversion 464-485, toAdditiveErrorVector 610-621"]}
{"id": "C59", "title": "invertMultiply propagates the covariance of the inverse times the second pose", "statement": "The covariance returned by invertMultiply(a,b) is the first-order covariance of ~a*b.", "quantifier": "all rigid poses and covariances", "why_tests_cant": "Needs the derivative of the composed map.", "anchors": ["src/utMath/ErrorPose.cpp: invertMultiply 591-607"]}
{"id": "C60", "title": "Casts between matrices, quaternions, axis-angle and rotation vectors agree", "statement": "RotationCast conversions between the four rotation representations describe the same rotation and undo each other, and are defined for every rotation.", "quantifier": "all unit quaternions, unit axes and angles, rotation vectors and rotation matrices", "why_tests_cant": "Singular inputs (identity, half turns) have measure zero.", "anchors": ["src/utMath/Util/RotationCast.h: 113-380"]}
{"id": "C61", "title": "Euler angle accessors reproduce the rotation", "statement": "Rotating about the three coordinate axes by the angles returned by getEulerAngles, in the documented order, gives the original rotation, for the default accessor and all six sequences.", "quantifier": "all unit quaternions, all sequences", "why_tests_cant": "Poles have measure zero and three of the six sequences are mirror images.", "anchors": ["src/utMath/Quaternion.cpp: getEulerAngles 85-203"]}
{"id": "C62", "title": "Levenberg-Marquardt steps improve the linearised problem", "statement": "A non-zero step that solves the damped normal equations with positive damping strictly decreases the linearised residual; on affine problems every such step is accepted and the residual strictly decreases while the damping stays positive. A start that already fits perfectly is left by the optimiser after finitely many iterations when a positive precision is given.", "quantifier": "all problem sizes, Jacobians, residuals, damping values", "why_tests_cant": "A numerical test only visits one Jacobian and one damping value per run; non-termination cannot be observed.", "anchors": ["src/utMath/Optimization/LevenbergMarquardt.h: 95-240", "src/utMath/Optimization/Optimization.h: OptTerminate"]}
{"id": "C63", "title": "Gauss-Newton solves affine problems in one step", "statement": "For an affine problem and a linear solver that solves the normal equations, every positive number of Gauss-Newton iterations returns a least-squares optimal parameter vector from any start.", "quantifier": "all affine problems, sizes, starts and iteration counts", "why_tests_cant": "Tests compare one problem against one optimum within a tolerance.", "anchors": ["src/utMath/Optimization/GaussNewton.h: 68-115"]}
{"id": "C64", "title": "Robust weighting bounds the influence of an outlier", "statement": "The weighted contribution of a single measurement to the minimised sum is bounded by a constant that depends only on the tuning constant, however large its error.", "quantifier": "all tuning constants, all errors", "why_tests_cant": "Boundedness over all errors is not observable on finitely many samples.", "anchors": ["src/utMath/Optimization/TukeyWeightFunction.h: 56-80", "src/utMath/Optimization/LevenbergMarquardt.h: 110-124"]}
{"id": "C65", "title": "Jacobians of the hand-eye rotation residual are its derivatives", "statement": "For the residual a x - x b the matrices returned with respect to x, a and b are the derivatives with respect to these quaternions.", "quantifier": "all quaternions a, b, x", "why_tests_cant": "A sign or order error in a quaternion product matrix is invisible when x is close to the identity.", "anchors": ["src/utAlgorithm/Function/RotHecFunction.h: 56-132"]}
{"id": "C66", "title": "Normalising a projective pose keeps the projection", "statement": "Normalising the quaternion of a pose and dividing the translation by its squared length gives a unit quaternion and leaves the projected image of every point unchanged.", "quantifier": "all poses with non-zero quaternion, all cameras and points", "why_tests_cant": "Holds or fails depending on the length of the quaternion, which is one in tests.", "anchors": ["src/utAlgorithm/Function/ProjectivePoseNormalize.h: 53-66", "src/utAlgorithm/Function/MultiplePointProjection.h: 82-100"]}
{"id": "C67", "title": "The SVD-based pseudo-inverse is the Moore-Penrose inverse", "statement": "Given an exact singular value decomposition, the returned matrix satisfies the four Penrose conditions for every shape and every rank (zero singular values are left alone), it is the only such matrix, and applying it to a right-hand side gives a least-squares solution.", "quantifier": "all shapes n x m, all matrices with a thin SVD, all right-hand sides", "why_tests_cant": "Quantifies over all shapes and ranks; tests invert one well-conditioned matrix.", "anchors": ["src/utMath/MatrixOperations.h: pseudoInvert_matrix 105-148"]}
{"id": "C68", "title": "Changing the handedness of a transformation is conjugation by the z mirror", "statement": "leftHandToRightHandMatrix equals S M S with S mirroring z: it is an involution, respects products, maps mirrored points to mirrored images and keeps rotations rotations.", "quantifier": "all 4x4 matrices and points", "why_tests_cant": "Six individual sign flips: one missing sign is only visible for matrices with that entry non-zero.", "anchors": ["src/utMath/Matrix.h: leftHandToRightHandMatrix 393-406"]}
{"id": "C69", "title": "Angle, semi-axes, centre and area describe the ellipse", "statement": "For every real ellipse the returned angle, centre and semi-axes parametrise exactly its points, the area is the textbook area, and the first semi-axis is the longer one; this also holds for circles and does not depend on the sign of the equation.", "quantifier": "all real ellipses", "why_tests_cant": "Special cases (a = c, b = 0, negated equation) have measure zero.", "anchors": ["src/utMath/Geometry/Conic.h: ConicAngle 264-272, ConicSemiAxes 298-329, ConicArea 482-486"]}
{"id": "C70", "title": "Limits and intersections of a conic are exact", "statement": "The upper/lower and left/right limits of an ellipse bound the coordinates of all its points and are attained; they exist whenever the ellipse has a point; the horizontal intersection returns exactly the points of the conic on that line, or none if there are none.", "quantifier": "all ellipses, all lines", "why_tests_cant": "Quantifies over a continuum of points.", "anchors": ["src/utMath/Geometry/Conic.h: ConicUpperLowerLimit 971-993, ConicLeftRightLimit 1019-1032, ConicHorizontalIntersection 1057-1065"]}
{"id": "C71", "title": "Conic classification depends on the point set only", "statement": "Ellipse and hyperbola tests are mutually exclusive, agree with the sign of the discriminant and are invariant under translation, flipping, scaling and multiplication of the equation; the same holds for the parabola and degeneracy tests.", "quantifier": "all conics, non-zero factors, tolerances", "why_tests_cant": "A tolerance compared with an unnormalised quantity is wrong only for badly scaled equations.", "anchors": ["src/utMath/Geometry/Conic.h: IsConicCircle 524-535, IsConicDegenerate 576-579, IsConicEllipse 602-606, IsConicHyperbola 629-633, IsConicParabola 672-677"]}
{"id": "C72", "title": "The conic covariance uses the gradient of the conic polynomial", "statement": "Each observed point contributes the outer product of its parameter vector weighted by variance times squared gradient length; the accumulated information matrix is symmetric positive semidefinite; the parameter vector is that of the coefficient convention used by all other conic functions.", "quantifier": "all conics and point lists", "why_tests_cant": "The coefficient convention only matters for conics with mixed or linear terms.", "anchors": ["src/utMath/Geometry/ConicCovariance.h: 74-128"]}
{"id": "C73", "title": "Kalman updates add information and commute", "statement": "With invertible covariances the update adds the measurement information to the inverse covariance and to the information vector, and applying two independent linear measurements in either order gives the same state and covariance.", "quantifier": "all dimensions, states, covariances, measurement matrices", "why_tests_cant": "Order independence quantifies over pairs of measurements in every dimension.", "anchors": ["src/utMath/Stochastic/Kalman.h: 71-219"]}
{"id": "C74", "title": "The average of poses carries the empirical covariance", "statement": "Averaging poses returns the mean translation, the average rotation, and as covariance the empirical second moment of translation difference and vector part of the relative quaternion, a symmetric positive semidefinite matrix.", "quantifier": "all non-empty lists of poses", "why_tests_cant": "List-length induction over six-dimensional deviations.", "anchors": ["src/utMath/Stochastic/Average.h: 233-318"]}
{"id": "C75", "title": "k-means never gets worse and keeps its clusters", "statement": "Every refinement round, and hence the whole run, does not increase the sum of squared distances to the assigned means; finite start values give finite means; the start values chosen by the seeding routine are pairwise distinct.", "quantifier": "all data, start values and random choices", "why_tests_cant": "Monotonicity over every round; an empty cluster needs a particular constellation of start values.", "anchors": ["src/utMath/Stochastic/k_means.h: 113-138, 204-344"]}
{"id": "C76", "title": "Gaussian estimates are the sample moments", "statement": "The weighted, unweighted and per-label estimators return the (weighted) mean and the (weighted) second central moment, a symmetric positive semidefinite matrix; the variance is its trace; with weights that sum to one the covariance is E[xx']-mm' and the mean minimises the weighted squared distance; a failure is reported when there is no data.", "quantifier": "all dimensions, lengths, weights and data", "why_tests_cant": "Quantifies over dimension and length; the empty label is an edge case.", "anchors": ["src/utMath/Stochastic/Gaussian.h: 63-221"]}
{"id": "C77", "title": "The Mahalanobis distance does not depend on coordinates", "statement": "For a positive definite covariance the distance is defined, is the root of the quadratic form of the inverse covariance, vanishes only at the mean, and is unchanged under every invertible affine change of coordinates.", "quantifier": "all dimensions, Gaussians, affine maps", "why_tests_cant": "Affine invariance quantifies over all invertible matrices.", "anchors": ["src/utMath/Stochastic/MahalanobisDistance.h: 42-99"]}
{"id": "C78", "title": "The Gaussian probability is the normal density", "statement": "The probability functor returns the multivariate normal density: positive, decreasing with the Mahalanobis distance, correctly normalised.", "quantifier": "all dimensions, regular covariances, points", "why_tests_cant": "The normalisation is an integral over the whole space.", "anchors": ["src/utMath/Stochastic/expectation_maximization.h: 47-117"]}
{"id": "C79", "title": "Expectation maximisation keeps a valid mixture and never decreases the likelihood", "statement": "After every round the weights are non-negative and sum to one, the components have the responsibility-weighted moments, and the log likelihood has not decreased.", "quantifier": "all mixtures and data", "why_tests_cant": "Monotonicity is a statement about all mixtures (Jensen's inequality).", "anchors": ["src/utMath/Stochastic/expectation_maximization.h: 119-276", "src/utMath/Stochastic/Weighted.h: 53-79"]}
{"id": "C80", "title": "Boost archives restore every value type", "statement": "Writing a vector, matrix, rotation, pose, uncertain pose or uncertain vector and a timestamped measurement to a boost archive and reading it back gives the same value and leaves the rest of the archive untouched.", "quantifier": "all values, all lengths, all following archive contents", "why_tests_cant": "Unbounded values and arbitrary continuation.", "anchors": ["src/utMath/Vector.h", "src/utMath/Matrix.h", "src/utMath/Quaternion.h", "src/utMath/Pose.h", "src/utMath/ErrorPose.h", "src/utMath/ErrorVector.h", "src/utMeasurement/Measurement.h"]}
{"id": "C81", "title": "Inside-out tracking turns the position with the orientation", "statement": "The inside-out time update rotates the camera position about the origin by exactly the rotation it applies to the orientation, so a point on the axis of rotation does not move.", "quantifier": "all poses, angular velocities and time steps", "why_tests_cant": "The drift per step is of third order and only visible for all angles at once.", "anchors": ["src/utTracking/Function/InsideOutPoseTimeUpdate.h: 80-160"]}
{"id": "C82", "title": "The inverse angular velocity belongs to the inverse orientation", "statement": "If an orientation q rotates with angular velocity w, then its inverse rotates with the velocity computed by InvertRotationVelocity, and the Jacobian of that function is its derivative.", "quantifier": "all unit quaternions, velocities and times", "why_tests_cant": "Equality of two one-parameter families of rotations.", "anchors": ["src/utTracking/Function/InvertRotationVelocity.h"]}
{"id": "C83", "title": "The pose filter keeps a unit quaternion and a valid covariance", "statement": "After every sequence of pose, rotation and velocity measurements at arbitrary times, in either mode and for every motion model, the orientation in the state is a unit quaternion, the covariance is symmetric positive semidefinite with no variance along the quaternion, and the time is that of the last measurement taken; measuring orientations can never make the quaternion vanish.", "quantifier": "all orders of the motion model, all measurement sequences, times and noise", "why_tests_cant": "An invariant over unbounded sequences of measurements.", "anchors": ["src/utTracking/PoseKalmanFilter.cpp: 79-266"]}
{"id": "C84", "title": "The pose filter starts from its first pose and predicts what it would estimate", "statement": "The first pose measurement becomes the state exactly, whatever its covariance; predictPose(t) returns the pose and covariance the filter would hold after its own time update to t, including t equal to the last measurement, and is refused before the first measurement.", "quantifier": "all poses, covariances, filter states and times", "why_tests_cant": "Equality of two code paths for all states.", "anchors": ["src/utTracking/PoseKalmanFilter.cpp: 95-127, 208-233, 269-308"]}
{"id": "C85", "title": "q and -q are the same measurement", "statement": "Negating the quaternion of a measured orientation or pose (the same rotation) does not change what the pose filter does with it.", "quantifier": "all measurements and filter states not exactly orthogonal", "why_tests_cant": "Both signs of every measurement under every state.", "anchors": ["src/utTracking/PoseKalmanFilter.cpp: 95-157"]}
{"id": "C86", "title": "The orientation filter is well defined and starts from the first orientation", "statement": "RotationOnlyKF always holds a unit quaternion and a valid covariance, measuring an orientation or predicting never divides by zero, and the first measured orientation becomes the state exactly.", "quantifier": "all sequences of orientation and velocity measurements", "why_tests_cant": "An invariant over unbounded sequences; the order of the first two measurements matters.", "anchors": ["src/utTracking/RotationOnlyKf.cpp: 51-133"]}
{"id": "C87", "title": "Decomposing a projection matrix gives back the camera", "statement": "The calibration, rotation and translation returned for a projection matrix of any scale multiply to that matrix up to scale, and for a matrix made from a camera they are the camera's own calibration, rotation and translation.", "quantifier": "all finite cameras, all scale factors", "why_tests_cant": "Recovery for every camera and every homogeneous scale needs uniqueness of the factorisation.", "anchors": ["src/utAlgorithm/Projection.cpp: decomposeProjectionImpl 146-206"]}
{"id": "C88", "title": "Off-axis frustum and image origin", "statement": "The off-axis projection maps the corners of the screen rectangle to the corners of the clip square and points of a ray through the eye to one image point, with depth -1 and +1 at the near and far distance; correcting the image origin mirrors exactly the image rows y to height-1-y and is its own inverse.", "quantifier": "all eyes, rectangular screens, clip distances and calibration matrices", "why_tests_cant": "Continuum of geometries.", "anchors": ["src/utAlgorithm/Projection.cpp: 298-349, 352-360"]}
{"id": "C89", "title": "Poses and rotation vectors are interchangeable", "statement": "Every rigid pose converts to a rotation vector with translation and back to the same pose.", "quantifier": "all rigid poses", "why_tests_cant": "Continuum; the failing inputs (no rotation at all) have measure zero.", "anchors": ["src/utAlgorithm/PoseEstimation6D6D/DataSelection.h: 106-113, 182-208"]}
{"id": "C90", "title": "Hemisphere alignment keeps the rotation", "statement": "Bringing a rotation vector of up to a full turn into the range of half a turn changes neither the rotation nor the translation.", "quantifier": "all rotation vectors up to a full turn", "why_tests_cant": "Continuum; only turns of more than half a turn are changed.", "anchors": ["src/utAlgorithm/PoseEstimation6D6D/DataSelection.h: 293-321"]}
{"id": "C91", "title": "Dual quaternion hand-eye calibration is sound", "statement": "On exact data the calibration returns the true pose or reports failure; with motions about a single axis, where the pose is not determined, it always reports failure; and any pose it accepts, on any data, is rigid and leaves a residual of at most one hundredth of its norm in the motion equations.", "quantifier": "all pose lists, all true poses, all correct singular value decompositions", "why_tests_cant": "Ranges over all decompositions the library routine may return, all list lengths and a continuum of poses.", "anchors": ["src/utAlgorithm/PoseEstimation6D6D/DualQuaternion.cpp: 46-252"]}
{"id": "C92", "title": "Dual quaternion hand-eye calibration succeeds on determined exact data", "statement": "If the data are exact and determine the pose (the sixth singular value is not small), the calibration succeeds.", "quantifier": "all exact data sets and correct decompositions", "why_tests_cant": "Depends on which basis of the kernel the decomposition returns.", "anchors": ["src/utAlgorithm/PoseEstimation6D6D/DualQuaternion.cpp: 165-214"]}
{"id": "C93", "title": "Hand-eye calibration does not depend on the sign of quaternions", "statement": "Replacing the quaternion of an input pose by its negative, which describes the same rotation, does not change the calibration result.", "quantifier": "all pose lists", "why_tests_cant": "Both signs of each measurement; needs an argument over all decompositions.", "anchors": ["src/utAlgorithm/PoseEstimation6D6D/DualQuaternion.cpp: 87-156, 217-252"]}
{"id": "C94", "title": "Motion selection returns matching pairs near the cluster centres", "statement": "For every cluster the selected eye and hand motions are those of one and the same pair, the first of those nearest to the centre of the cluster.", "quantifier": "all motion lists, centres and memberships", "why_tests_cant": "List-length induction; empty clusters occur only for particular data.", "anchors": ["src/utAlgorithm/PoseEstimation6D6D/DataSelection.cpp: 92-127"]}
{"id": "C95", "title": "The incremental selection takes the motion nearest to each centre", "statement": "DataSelection::resetIndices stores, for every cluster, the index of the member nearest to its centre.", "quantifier": "all motion lists, centres and memberships", "why_tests_cant": "Needs the loop invariant for lists of any length.", "anchors": ["src/utAlgorithm/PoseEstimation6D6D/DataSelection.h: 491-527"]}
{"id": "C96", "title": "The 3D-3D residual is the root mean square error", "statement": "estimatePose6DResidual returns the documented root-mean-square distance between the first points and the moved second points; in particular it is zero exactly when the pose maps every point to its partner.", "quantifier": "all poses and equally long nonempty point lists", "why_tests_cant": "Relates a sum of distances to a root of a sum of squares over lists of any length.", "anchors": ["src/utAlgorithm/PoseEstimation3D3D/ErrorEstimation.h: 50-88"]}
{"id": "C97", "title": "Absolute orientation finds the optimal rigid motion or reports failure", "statement": "The returned pose is rigid and no rigid pose has a smaller sum of squared distances; for exact data whose points are not on a line it is the motion itself; if no eigenvalue is positive, which is so exactly when the correlation matrix vanishes, calculateAbsoluteOrientation throws as documented.", "quantifier": "all correspondence lists, all rigid motions, all correct eigenvalue routines", "why_tests_cant": "Optimality quantifies over all rigid motions.", "anchors": ["src/utAlgorithm/PoseEstimation3D3D/Pose6D.h: 55-95", "src/utAlgorithm/PoseEstimation3D3D/AbsoluteOrientation.cpp: 43-50", "src/utAlgorithm/PoseEstimation3D3D/AbsoluteOrientation.h: 46-66"]}
{"id": "C98", "title": "The Jacobian of the 3D-3D refinement is the derivative of its function", "statement": "Along every curve of unit quaternions and translations the matrix computed by jacobian maps the velocity of the parameters to the velocity of the transformed point.", "quantifier": "all points, all unit quaternions, all smooth curves", "why_tests_cant": "Derivative identity over a continuum; a wrong sign only slows the optimiser down.", "anchors": ["src/utAlgorithm/PoseEstimation3D3D/Optimization.h: 84-182"]}
{"id": "C99", "title": "The homography DLT recovers the homography of exact data", "statement": "For correspondences of a regular homography, four of them in general position, homographyDLT returns a nonzero multiple of that homography; in general its result maps every point correctly whenever any homography does, and minimises the algebraic error.", "quantifier": "all correspondence lists of any length, all regular homographies, all correct singular value decompositions", "why_tests_cant": "Exactness for every list and every valid decomposition; tests fix a few matrices.", "anchors": ["src/utAlgorithm/Homography.cpp: 45-106"]}
{"id": "C100", "title": "The projection DLT recovers the camera of exact data", "statement": "For images of points by a regular camera which determine it up to scale, projectionDLT returns that camera scaled to a unit viewing direction with the first point in front of it.", "quantifier": "all correspondence lists, all cameras, all correct singular value decompositions", "why_tests_cant": "Exactness for every list and every valid decomposition.", "anchors": ["src/utAlgorithm/Projection.cpp: 57-131"]}
{"id": "C101", "title": "The eight-point algorithm returns a singular matrix and recovers exact data", "statement": "Points are normalised to mean zero and mean distance sqrt 2; the returned matrix always is singular; given at least eight correspondences that determine the fundamental matrix of two views, a nonzero multiple of that matrix is returned, for every step size.", "quantifier": "all correspondence lists, step sizes and correct decompositions", "why_tests_cant": "Quantifies over all lists, step sizes and decompositions.", "anchors": ["src/utAlgorithm/FundamentalMatrix.cpp: 52-177", "src/utAlgorithm/FundamentalMatrix.h: 40-60"]}
{"id": "C102", "title": "The fundamental matrix of two poses maps image points to epipolar lines", "statement": "fundamentalMatrixFromPoses maps the first image of every world point to the line through its second image and the second image of the first camera's centre, so every pair of images meets the epipolar constraint; the matrix is not zero unless the centres coincide.", "quantifier": "all rigid poses, all regular intrinsic matrices, all world points", "why_tests_cant": "Universally quantified over poses and world points.", "anchors": ["src/utAlgorithm/FundamentalMatrix.cpp: 191-219"]}
{"id": "C103", "title": "Tool tip calibration minimises the spread of the tip and is exact", "statement": "The returned tip and world point minimise the sum of squared distances between the tip seen by each pose and the world point; for exact data they are the true ones if the poses' rotations agree on no direction; otherwise, and always for two poses, other points fit equally well.", "quantifier": "all pose lists, all tips, all correct least squares solvers", "why_tests_cant": "Optimality over all points and lists of any length.", "anchors": ["src/utAlgorithm/ToolTip/LeastSquare.h: 83-128"]}
{"id": "C104", "title": "Tsai-Lenz hand-eye calibration recovers the transformation", "statement": "If base <- hand <- eye <- world is the same for all positions, three or more positions are given and two of the used motions turn about axes that are not parallel, performHandEyeCalibration returns the transformation between hand and eye.", "quantifier": "all lists of rigid hand and eye poses, all transformations, with and without all pairs, all correct inversions and least squares solvers", "why_tests_cant": "Real data, lists of any length.", "anchors": ["src/utAlgorithm/PoseEstimation6D6D/TsaiLenz.cpp: 84-148, 168-368, 371-446, 461-516"]}
{"id": "C105", "title": "Tsai-Lenz results are rigid motions; throwing exactly for lists of different length", "statement": "For lists of the same length a rigid pose is returned whose rotation is by less than a half turn (so a half turn between hand and eye is never found); for two positions or fewer it is the identity; lists of different length are refused with an exception.", "quantifier": "all lists of poses, whatever the inversion and the least squares solver return", "why_tests_cant": "All data including degenerate ones.", "anchors": ["src/utAlgorithm/PoseEstimation6D6D/TsaiLenz.cpp: 168-220, 323-368, 419-446"]}
{"id": "C106", "title": "Measurements that confirm the prediction do not move the filter", "statement": "If a pose, rotation or angular velocity measurement equals what the pose filter predicts for its time (and the angular velocity is not above the limit of ten), the state after the measurement is the predicted state, every entry of it.", "quantifier": "all orders of the motion model, all reachable filter states, times and process noise", "why_tests_cant": "Reachable states are infinitely many; the entries touched depend on index arithmetic over the orders.", "anchors": ["src/utTracking/PoseKalmanFilter.cpp: 95-181, 208-266"]}
{"id": "C107", "title": "pointToPointDist is the squared distance from the epipolar line", "statement": "pointToPointDist returns the squared Euclidean distance of the second image point from the epipolar line of the first (zero exactly when the epipolar constraint holds) for 2D points and for homogeneous points of any scale; it is undefined exactly when the line has no finite point.", "quantifier": "all points, all 3x3 matrices", "why_tests_cant": "Reals; degenerate lines.", "anchors": ["src/utAlgorithm/3DPointReconstruction.cpp: 49-83", "src/utAlgorithm/3DPointReconstruction.h: 43-63"]}
{"id": "C108", "title": "Triangulation returns the observed point", "statement": "From exact image points of two or more calibrated cameras get3DPosition returns the observed point whenever two of the cameras are not in line with it; it throws exactly for different numbers of cameras and points, fewer than two cameras or a failed SVD.", "quantifier": "all camera matrices K with non-zero determinant, all rigid camera poses, all points in front of or behind the cameras, any number of cameras, all correct SVDs", "why_tests_cant": "Reals, any number of views.", "anchors": ["src/utAlgorithm/3DPointReconstruction.cpp: 86-163, 194-213"]}
{"id": "C109", "title": "Unordered image points are matched and reconstructed correctly", "statement": "If two calibrated cameras see the same points, in any order, no two of them coplanar with the camera centres, reconstruct3DPoints with the fundamental matrix of the two poses returns the points in the order of the first image.", "quantifier": "all numbers and positions of points, all orders, all correct SVDs and optimal assignment solvers", "why_tests_cant": "Arbitrary permutations and scenes.", "anchors": ["src/utAlgorithm/3DPointReconstruction.cpp: 229-264", "src/utAlgorithm/FundamentalMatrix.cpp"]}
{"id": "C110", "title": "The refinement of triangulated points uses the exact derivative", "statement": "SinglePointMultiProjection evaluates the image of the point in every view and its Jacobian is the matrix of partial derivatives of these images wherever the point is in no focal plane.", "quantifier": "all lists of 3x4 matrices, all points with non-zero depths", "why_tests_cant": "Derivatives are limits.", "anchors": ["src/utAlgorithm/Function/SinglePointMultiProjection.h: 85-136"]}
{"id": "C111", "title": "determinant is the determinant, for every size", "statement": "Math::determinant returns the determinant of the matrix (the function that is linear in each row, vanishes for equal rows and is one for the unit matrix), for square matrices of every size, including singular ones and those needing row interchanges; the special functions for two and three rows agree with it.", "quantifier": "all sizes, all real matrices, all correct LU factorisations with row interchanges", "why_tests_cant": "All sizes at once.", "anchors": ["src/utMath/MatrixOperations.h: 59-78", "src/utMath/Functors/MatrixFunctors.h: 50-101"]}
{"id": "C112", "title": "Projecting with lens distortion and distorting an image point agree", "statement": "Sensor and image coordinates are converted into each other without loss for every camera matrix with K(0,0), K(1,1) <> 0; for K(2,2) = +-1 the conversion is the pinhole projection; and projectWithDistortion of a 3D point gives the image that lensDistort assigns to its pinhole projection.", "quantifier": "every intrinsic matrix in either convention (K(2,2) = 1 or -1), every distortion vector, every point with nonzero depth", "why_tests_cant": "The two functions use different signs for the sensor coordinates when K(2,2) = -1; the discrepancy only shows for tangential coefficients in that convention, which a sample camera may not have.", "anchors": ["src/utAlgorithm/LensDistortion.cpp:42-88", "src/utAlgorithm/CameraLens/Distortion.h:43-65"]}
{"id": "C113", "title": "The distortion models are consistent", "statement": "The rational distortion with six radial coefficients is defined exactly where its divisor is not zero, reduces to the model with four coefficients when k3..k6 = 0, leaves points alone without coefficients, commutes with rotations about the axis when it is purely radial, and the list overloads apply it pointwise to outputs that are long enough (and write out of bounds otherwise).", "quantifier": "all coefficients, all points, all lists of points and outputs", "why_tests_cant": "Two hand-written polynomials in two files must agree for all coefficients; the list overloads write through result.begin() without resizing.", "anchors": ["src/utAlgorithm/CameraLens/Distortion.h:69-140", "src/utAlgorithm/Function/RadialDistortion.h:40-47"]}
{"id": "C114", "title": "The Jacobian of the six-coefficient distortion is its derivative", "statement": "The 2x2 matrix computed by PointUndistortion::jacobian is the derivative of the distortion with respect to the point.", "quantifier": "all coefficients and all points at which the divisor is not zero", "why_tests_cant": "Generated code with 33 temporaries; a finite-difference test checks single points up to a tolerance.", "anchors": ["src/utAlgorithm/CameraLens/Undistortion.h:114-177"]}
{"id": "C115", "title": "Undistortion inverts distortion", "statement": "Removing the distortion from the image of a point gives the point back.", "quantifier": "all distortion coefficients, all points, every exact solver of the linear systems", "why_tests_cant": "Undistortion is an iterative minimisation that stops after five steps; a test with a tolerance cannot tell a limit on the error from equality.", "anchors": ["src/utAlgorithm/LensDistortion.cpp:107-122", "src/utAlgorithm/CameraLens/Undistortion.h:203-224"]}
{"id": "C116", "title": "Geometry::undistort_point removes lens distortion", "statement": "undistort_point maps the distorted image of a point to its undistorted image.", "quantifier": "all camera matrices, coefficients and points", "why_tests_cant": "The function evaluates the forward polynomial; for small coefficients the result differs little from the input, so a tolerance test may pass.", "anchors": ["src/utMath/Geometry/PointUndistortion.h:71-127"]}
{"id": "C117", "title": "Covariance of a least-squares estimate from independent equal measurements", "statement": "backwardPropagationIdentity returns s (J^T J)^-1, the covariance of the least-squares parameters when every measurement has variance s, for every Jacobian of full rank; for rank-deficient Jacobians it returns the product with the pseudo-inverse.", "quantifier": "all sizes, all variances s >= 0, all Jacobians, every correct singular value decomposition", "why_tests_cant": "The result goes through an SVD with a relative cut-off and writes half of a symmetric matrix with BLAS; sample Jacobians do not settle the cut-off or the orientation of V^T for all inputs.", "anchors": ["src/utMath/Stochastic/BackwardPropagation.h:150-212"]}
{"id": "C118", "title": "Covariance of a weighted least-squares estimate", "statement": "backwardPropagation and backwardPropagationDiagonal return (J^T E^-1 J)^-1 for the covariance E of the measurements.", "quantifier": "all sizes, all positive definite covariances E, all Jacobians of full rank", "why_tests_cant": "The number of weighted rows and the orientation of the eigenvector matrix are wrong in ways that vanish for square Jacobians and for symmetric eigenvector matrices.", "anchors": ["src/utMath/Stochastic/BackwardPropagation.h:71-132", "src/utMath/Stochastic/BackwardPropagation.h:228-294"]}
{"id": "C119", "title": "Composed functions evaluate to the composition and calls do not interfere", "statement": "evaluate of an expression built with operator<< gives the composition of its functions; jacobian and evaluateWithJacobian give the same value and matrix as separate calls; results cached by earlier calls with other parameter vectors have no influence.", "quantifier": "all expressions, all functions, all parameter vectors, all contents of the caches", "why_tests_cant": "Every nested Binder keeps a mutable cached result that the Jacobian reads; a stale cache shows only for particular orders of calls.", "anchors": ["src/utMath/Optimization/NewFunction/Detail/Binder.h:46-219", "src/utMath/Optimization/NewFunction/MultiVariateFunction.h:44-145"]}
{"id": "C120", "title": "The Jacobian of a composed function is its derivative", "statement": "For an expression in which no element of the parameter vector is used twice and whose functions multiply by their own Jacobians, the matrix computed by jacobian is the derivative of the composition; columns of parameters that do not occur are left unchanged.", "quantifier": "all expressions with up to three arguments per function, all depths, all parameter vectors, all former contents of the destination and of the uninitialised intermediate matrices", "why_tests_cant": "The chain rule is spread over template recursion with left multiplication; tests cover a few expressions at a few points.", "anchors": ["src/utMath/Optimization/NewFunction/Detail/Binder.h:114-183", "src/utMath/Optimization/NewFunction/Detail/Parameter.h:72-78"]}
{"id": "C121", "title": "A parameter may occur several times in an expression", "statement": "The Jacobian is the derivative also for expressions that refer to the same parameter in several places.", "quantifier": "all expressions", "why_tests_cant": "The contributions of the occurrences would have to be added; the code overwrites, which shows only in expressions with a repeated parameter.", "anchors": ["src/utMath/Optimization/NewFunction/Detail/Parameter.h:72-78"]}
{"id": "C122", "title": "The functions of the library multiply by their Jacobians", "statement": "Addition, Subtraction, LinearTransformation, Dehomogenization, StoreIntermediate, VectorNorm, LieRotation and CameraIntrinsicsMultiplication: multiplyJacobianK multiplies a left-hand matrix with any number of rows by the derivative with respect to the K-th argument.", "quantifier": "all sizes, all arguments at which the function is differentiable, all left-hand matrices", "why_tests_cant": "Each function writes the product by hand; VectorNorm ignores all rows but the first.", "anchors": ["src/utMath/Optimization/NewFunction/Addition.h:42-65", "src/utMath/Optimization/NewFunction/Subtraction.h:43-66", "src/utMath/Optimization/NewFunction/Dehomogenization.h:43-80", "src/utMath/Optimization/NewFunction/VectorNorm.h:40-57", "src/utMath/Optimization/NewFunction/LieRotation.h:44-191", "src/utAlgorithm/NewFunction/CameraIntrinsicsMultiplication.h:43-95"]}
{"id": "C123", "title": "The objective of the multi-camera pose optimization is differentiated correctly", "statement": "ObjectiveFunction::evaluateWithJacobian writes for every measurement the image of the point in its camera and fills J with the derivative of all images with respect to the six pose parameters, whatever J held before, and touches nothing else.", "quantifier": "all numbers of measurements, cameras, points and poses with a rotation of at least 1e-6 and nonzero depths", "why_tests_cant": "A composition of seven functions evaluated into sub-blocks of J; finite-difference tests check single poses.", "anchors": ["src/utAlgorithm/MultipleCameraPoseOptimization.h:40-105"]}
{"id": "C124", "title": "Bundle adjustment: the Jacobian matches the projection", "statement": "The matrix MinimizeReprojectionErrorAllPoints::evaluateWithJacobian fills in is the derivative of the projections of all points into all cameras: row 2*(c*n_pts+p)+i, every column of camera c and point p correct, every other column zero.", "quantifier": "for every number of cameras and points and every parameter vector with non-zero depths; along motions that keep the quaternions normalised, and REFUTED for the motions the optimizer really makes, which do not", "why_tests_cant": "the temporaries t2..t52 were generated by a computer algebra system; a numerical check covers a few parameter vectors, and the discrepancy off the unit sphere only slows convergence down", "anchors": ["src/utAlgorithm/BundleAdjustment.cpp:94-213"]}
{"id": "C125", "title": "Bundle adjustment compares every observation with its own prediction", "statement": "The sum of squares the optimizer minimises is the sum over all cameras and all their observations of the squared distance to the image of the observed point in that camera.", "quantifier": "for all cameras, points and observations; holds when every camera sees every point, REFUTED when one camera misses one point", "why_tests_cant": "the packing of ragged lists into one vector and the nested loops over all points agree on the usual test data, where all points are visible; with partial visibility the write behind the end of the vector often goes unnoticed", "anchors": ["src/utAlgorithm/BundleAdjustment.cpp:237-266", "src/utAlgorithm/BundleAdjustment.cpp:105-135"]}
{"id": "C126", "title": "Bundle adjustment returns what it optimised", "statement": "Poses and points survive the packing into the parameter vector and back; returned poses are rigid; the call ends; data that already fit exactly are returned unchanged; the error reported by the optimizer is that of the final parameters, and of the returned poses.", "quantifier": "for all inputs and every linear solver that meets the LAPACK contract; the last part REFUTED because the quaternions are normalised only afterwards", "why_tests_cant": "depends on the index arithmetic of two different loops and on what ten iterations with arbitrary solver results do", "anchors": ["src/utAlgorithm/BundleAdjustment.cpp:272-326"]}
{"id": "C127", "title": "The reprojection error is invariant under similarity transformations", "statement": "Moving and scaling the whole scene together with all cameras changes no prediction, so the result of a bundle adjustment is determined only up to a similarity.", "quantifier": "for every rigid motion, every non-zero scale, all cameras, points and observations", "why_tests_cant": "an equality between real-valued functions of all scenes", "anchors": ["src/utAlgorithm/BundleAdjustment.cpp:94-135", "src/utMath/Pose.h:113-120"]}
{"id": "C128", "title": "Orthogonal iteration: the result is rigid, its error is the reported one, its translation optimal", "statement": "When estimatePose6D_2D3D returns true the pose is a rigid motion of the original (uncentred) object points, the error it reports is the sum of the squared distances of the moved points from the lines of sight of their images, and no other translation with the same rotation has a smaller sum. When it returns false the pose argument is not written.", "quantifier": "for all point sets, iteration limits and thresholds, every eigenvalue routine and matrix inversion that meet their LAPACK contracts", "why_tests_cant": "the closed-form translation and the shift of the object to its centroid are exact only in combination; optimality quantifies over all translations", "anchors": ["src/utAlgorithm/PoseEstimation2D3D/NonPlanarPoseEstimation.cpp:91-177", "src/utAlgorithm/PoseEstimation2D3D/NonPlanarPoseEstimation.cpp:181-273"]}
{"id": "C129", "title": "Orthogonal iteration: more work never gives a worse pose", "statement": "A larger iteration limit or a smaller threshold never makes the reported error larger: every round lowers the object space error or keeps it.", "quantifier": "for all point sets, limits and thresholds, under the LAPACK contracts", "why_tests_cant": "monotonicity over all executions; a test sees finitely many runs", "anchors": ["src/utAlgorithm/PoseEstimation2D3D/NonPlanarPoseEstimation.cpp:213-263"]}
{"id": "C130", "title": "Orthogonal iteration ends by itself", "statement": "For every positive threshold there is a number of rounds, depending on the data only, after which the loop has ended whatever the limit; the call then fails only if the rotation of some round cannot be estimated.", "quantifier": "for all point sets and positive thresholds, under the LAPACK contracts", "why_tests_cant": "a statement about unboundedly long runs", "anchors": ["src/utAlgorithm/PoseEstimation2D3D/NonPlanarPoseEstimation.cpp:213-271"]}
{"id": "C131", "title": "Orthogonal iteration: zero error means exact reprojection, up to the side of the camera", "statement": "A pose has error zero exactly when every object point with non-zero depth projects onto its image. The error does not see the sign of the depth: for a planar object the mirrored pose behind the camera has the same error.", "quantifier": "for all rigid poses, images and objects", "why_tests_cant": "equivalence over all configurations", "anchors": ["src/utAlgorithm/PoseEstimation2D3D/NonPlanarPoseEstimation.cpp:143-164"]}
{"id": "C132", "title": "A homography of a plane gives the pose of the plane", "statement": "poseFromHomography always returns a rigid motion that puts the origin of the plane on the negative z axis side of the camera, with the rotation closest to the two columns it was given; for every non-zero multiple of the exact homography of a plane it returns the exact pose, or the pose turned to the other side of the camera that reprojects identically. The same holds for the version without LAPACK.", "quantifier": "for all matrices, rigid poses, invertible camera matrices and scales; every singular value decomposition", "why_tests_cant": "an identity and an optimality statement over all real matrices; the sign conventions only matter for poses a test does not choose", "anchors": ["src/utAlgorithm/PoseEstimation2D3D/PlanarPoseEstimation.cpp:75-145"]}
{"id": "C133", "title": "Exact images of a planar object give its pose", "statement": "computePose started on four or more exactly observed coplanar points, no three of them collinear, finds the pose they were observed from.", "quantifier": "for all such points, poses and cameras; holds for points in the plane z = 0 and for slanted planes, REFUTED for points with a common z other than zero: the code drops the z coordinate and the pose is off by that distance", "why_tests_cant": "quantifies over all scenes; the usual test grid lies in z = 0", "anchors": ["src/utAlgorithm/PoseEstimation2D3D/PlanarPoseEstimation.cpp:393-487"]}
{"id": "C134", "title": "Exact images of a spatial object give its pose", "statement": "With six or more exactly observed points that determine the projection matrix computePose finds the pose they were observed from.", "quantifier": "for all such points and poses and every camera matrix with a third row of length one; REFUTED otherwise: the translation is multiplied by the squared length of that row", "why_tests_cant": "every usual camera matrix has the third row (0,0,1) or (0,0,-1), for which the division by the product of all three singular values happens to be harmless", "anchors": ["src/utAlgorithm/PoseEstimation2D3D/PlanarPoseEstimation.cpp:345-391"]}
{"id": "C135", "title": "Refining a pose never makes it worse", "statement": "optimizePose ends, returns a rigid motion, the value returned is the sum of the squared reprojection errors of exactly that pose, and it is not larger than that of the start.", "quantifier": "for all points, images, cameras, start poses, iteration limits and every linear solver that does not invent numbers out of NaN", "why_tests_cant": "depends on all intermediate parameter vectors of the optimizer, including those with points at depth zero", "anchors": ["src/utAlgorithm/PoseEstimation2D3D/PlanarPoseEstimation.cpp:149-171", "src/utMath/Optimization/LevenbergMarquardt.h:90-232"]}
{"id": "C136", "title": "Residual and covariance returned by computePose", "statement": "The returned residual is the root mean square of all 2n coordinate differences of the returned pose, and the returned covariance is that of a pose estimated from measurements with that variance.", "quantifier": "for all inputs and all results of the linear algebra routines; the first part holds, the second is REFUTED: the sum instead of the mean of the squares is used as the variance, so the covariance is 2n times too large", "why_tests_cant": "a scale factor of a covariance is not observable in single results", "anchors": ["src/utAlgorithm/PoseEstimation2D3D/PlanarPoseEstimation.cpp:189-204", "src/utAlgorithm/PoseEstimation2D3D/PlanarPoseEstimation.cpp:258-305", "src/utAlgorithm/PoseEstimation2D3D/PlanarPoseEstimation.cpp:489-511", "src/utAlgorithm/PoseEstimation2D3D/PlanarPoseEstimation.h:84-97"]}
{"id": "C137", "title": "Collinear points are reported", "statement": "computePose raises its 'three of them are collinear' exception exactly when the first three points of a slanted plane are collinear.", "quantifier": "for all points; REFUTED in both directions: it is raised exactly when the cosine of the angle at the first point exceeds 0.8, so that points at an angle of 30 degrees are rejected and collinear points on two sides of the first are accepted and give NaN", "why_tests_cant": "a characterisation of all inputs; tests use well separated points", "anchors": ["src/utAlgorithm/PoseEstimation2D3D/PlanarPoseEstimation.cpp:431-447"]}
{"id": "C138", "title": "The contracts of the linear algebra routines can be met on every input", "statement": "Every symmetric matrix has an orthonormal basis of eigenvectors with sorted eigenvalues, every matrix of every shape and rank has a singular value decomposition (with all columns of U orthonormal when it has at least as many rows as columns), a pseudo-inverse and a least squares solution, every square matrix has a row-pivoted LU factorisation and every 3x3 matrix an RQ factorisation. So the conditions under which the results of calibration, pose estimation, triangulation, covariance propagation and determinants are claimed to be right are met by some implementation of the LAPACK calls on all inputs.", "quantifier": "all sizes, all real matrices", "why_tests_cant": "a claim that is conditional on the behaviour of an external routine is only as good as the possibility of that behaviour; running one implementation on some matrices cannot show that the demanded factorisation exists for rank-deficient, repeated-eigenvalue or wide matrices", "anchors": ["src/utAlgorithm/Homography.cpp:80-199", "src/utAlgorithm/Projection.cpp", "src/utMath/MatrixOperations.h", "src/utAlgorithm/PoseEstimation3D3D/AbsoluteOrientation.cpp", "src/utMath/Stochastic/BackwardPropagation.h"]}
{"id": "C139", "title": "The online rotation calibration is a least squares fit of all measurements so far", "statement": "After any sequence of measurements (q, r) the state of OnlineRotHec is the unique minimiser of 1e-6 |v|^2 + sum |(q+r) x v - (r-q)|^2 over all v (vector parts, signs chosen so that w >= 0), its covariance is the inverse of the information matrix of these measurements, and both do not depend on the order of the measurements, nor (half turns excepted) on the sign of the quaternions. The result is always a unit quaternion with w > 0 proportional to (v, 1).", "quantifier": "all sequences of measurements, all orders, all correct inversion routines", "why_tests_cant": "the filter updates recursively; that the recursion equals the batch solution for every sequence and every order is a statement about unboundedly many updates", "anchors": ["src/utAlgorithm/OnlineRotHec.cpp:47-94", "src/utMath/Stochastic/Kalman.h:71-136"]}
{"id": "C140", "title": "The online rotation calibration finds the rotation between two sensors", "statement": "If all measurements are exact (a x = x b as rotations), the distance of the estimate from x_v / x_w is at most 1e-6 / (1e-6 + lambda) |x_v / x_w|, where lambda measures how well the axes are spread, and the error of the resulting quaternion is no larger; two measurements about different axes, repeated often enough (with any other exact measurements in between, in any order), bring the result within any distance of the true rotation.", "quantifier": "all calibrations, all sequences of exact measurements, all error bounds", "why_tests_cant": "convergence is a statement about all sufficiently long sequences; the failure for half turns happens only for isolated inputs that random tests do not hit", "anchors": ["src/utAlgorithm/OnlineRotHec.cpp:47-94"]}
{"id": "C141", "title": "The quaternion Kalman filter for rotation calibration never loses a valid state", "statement": "After any sequence of measurements (of any quaternions, even degenerate ones) the state of RotationHecKalmanFilter is a unit quaternion with a symmetric positive definite covariance; the normalisation never divides by zero. Every step moves to the best compromise between the old state and a x = x b, normalised. An exact measurement leaves an exact state unchanged, the sign of b being chosen right for rotations.", "quantifier": "all sequences of measurements", "why_tests_cant": "validity after every sequence of updates is an invariant; the sign rule fails only for some pairs of rotation and calibration, so that test data with small rotations never shows it", "anchors": ["src/utAlgorithm/RotationHecKalmanFilter.cpp:46-67", "src/utAlgorithm/Function/RotHecFunction.h:40-89", "src/utMath/Quaternion.h"]}
{"id": "C142", "title": "The Kalman measurement update is the maximum a posteriori estimate", "statement": "For a linear measurement function of any part of the state, the updated state is the unique minimiser of the squared distance to the prior plus the squared distance to the measurement, each in units of its covariance.", "quantifier": "all sizes, all sub-ranges, all positive definite covariances, all correct inversion routines", "why_tests_cant": "optimality compares the result with every other possible state", "anchors": ["src/utMath/Stochastic/Kalman.h:71-136"]}
{"id": "C143", "title": "Pose from several cameras: residual, covariance and improvement", "statement": "When a pose is estimated from several cameras, the result is a rigid motion with every observed point off the focal planes; the returned residual is the sum of the squared reprojection errors over exactly the observations with non-zero weight in the requested range of points, in all cameras; the covariance is the residual times the identity; the error is never larger than at the given initial pose; and the call returns unless the SVD solver reports an error.", "quantifier": "for all points, images, weights, cameras, ranges, linear solvers that keep NaN", "why_tests_cant": "the optimiser may take any path; the claim is about every measurement set, every range and every solver", "anchors": ["src/utAlgorithm/MultipleCameraPoseOptimization.cpp:58-183", "src/utAlgorithm/MultipleCameraPoseOptimization.h:40-105"]}
{"id": "C144", "title": "Pose from several cameras: the start of the optimisation", "statement": "Without a given pose the optimisation starts at the pose of the object that explains the images of the camera with the most observations.", "quantifier": "for all camera poses and object poses for which the single camera pose is exact", "why_tests_cant": "a test with the camera at the origin, or with measurements from which the optimiser recovers, passes", "anchors": ["src/utAlgorithm/MultipleCameraPoseOptimization.cpp:128-136"]}
{"id": "C145", "title": "Pose from several cameras: local bundles are independent", "statement": "Each bundle of points gets the estimate computed from its own points, images and weights alone, in order, one result for each bundle; an empty bundle has no pose.", "quantifier": "for all lists of bundle sizes within the points", "why_tests_cant": "independence of all other data is a statement about every other data", "anchors": ["src/utAlgorithm/MultipleCameraPoseOptimization.cpp:214-252", "src/utAlgorithm/MultipleCameraPoseOptimization.cpp:58-117"]}
{"id": "C146", "title": "Pose from several cameras: when a pose is estimated", "statement": "A pose is refused exactly when some camera sees fewer points than the minimum or, without initial pose, no camera sees four points; there is no undefined behaviour for data accepted by checkConsistency.", "quantifier": "for all weights, ranges, minima and numbers of cameras", "why_tests_cant": "minimum and maximum range over all cameras; the int to size_t conversions only matter for rare values", "anchors": ["src/utAlgorithm/MultipleCameraPoseOptimization.cpp:119-128", "src/utAlgorithm/MultipleCameraPoseOptimization.cpp:185-211"]}
{"id": "C147", "title": "Covariance of a pose from point pairs: the Jacobian", "statement": "The matrix that estimatePose6DCovariance propagates is the derivative of all transformed points with respect to the errors of the pose (translation, vector part of the error quaternion), and it determines all six errors exactly when the points do not lie on a line.", "quantifier": "for all rigid poses and all lists of points", "why_tests_cant": "the source asks for a review of this Jacobian; a derivative and its null space are statements about all directions and all configurations of points", "anchors": ["src/utAlgorithm/PoseEstimation3D3D/CovarianceEstimation.h:89-123", "src/utAlgorithm/Function/QuaternionRotationError.h:66-96"]}
{"id": "C148", "title": "Covariance of a pose from point pairs: the result", "statement": "The result is the covariance of the pose when every measured coordinate has the variance estimated from the residual: symmetric, positive semidefinite, proportional to the inverse of J^T J, independent of the unit of length of the data, and never smaller than what the data support.", "quantifier": "for all point pairs, poses and units", "why_tests_cant": "one data set in one unit cannot show a wrong dimension, nor that undetermined directions are reported as certain", "anchors": ["src/utAlgorithm/PoseEstimation3D3D/CovarianceEstimation.h:131-158", "src/utAlgorithm/PoseEstimation3D3D/ErrorEstimation.h:69-88", "src/utMath/Stochastic/BackwardPropagation.h:149-184"]}
{"id": "C149", "title": "The pose of a second camera comes back from its fundamental matrix and one image pair", "statement": "poseFromFundamentalMatrix(F, x, x', K1, K2), given the fundamental matrix of a first camera at the origin and a second camera with pose p (for instance the one computed by fundamentalMatrixFromPoses) and the two images of one point in front of both cameras (negative z in camera coordinates, as the code tests) that is not on the baseline, returns the rotation of p and its translation divided by its length: of the four candidates the right one is chosen, whatever signs the singular value decomposition returns. This needs the point to be at different distances from the two cameras: for a point at equal distance the first candidate's triangulation may divide by zero before the right candidate is reached.", "quantifier": "for all rigid poses, intrinsic matrices, points in front of both cameras off the baseline, and all legal singular value decompositions", "why_tests_cant": "a test runs one SVD implementation, whose sign choices determine which of the four candidates is right; the exceptional points form a plane that random tests miss", "anchors": ["src/utAlgorithm/FundamentalMatrix.cpp:221-300", "src/utAlgorithm/FundamentalMatrix.cpp:176-219", "src/utAlgorithm/3DPointReconstruction.cpp:87-103"]}
{"id": "C150", "title": "The homography of a square maps the square to the given corners", "statement": "squareHomography(corners) returns a matrix that maps the four corners of the unit square, in the documented order, to the four given points: for every list of corners each corner's image is a multiple of the given point in homogeneous coordinates; the matrix is regular exactly if no three of the given corners are in a line, and then every corner is mapped exactly and the matrix is the only one up to a factor.", "quantifier": "for all four corners and all legal singular value decompositions", "why_tests_cant": "tests compare a few random quadrilaterals within a tolerance; sign errors in a table of 24 coefficients can cancel for symmetric ones, and degenerate corners are not tried", "anchors": ["src/utAlgorithm/Homography.cpp:122-199", "src/utAlgorithm/Homography.h:67-82"]}
{"id": "C151", "title": "Refining a tool tip calibration does not spoil it", "statement": "The Jacobian of the distances is their derivative, and the refined estimate fits the poses at least as well as the linear one; for perfect measurements it is the true tip.", "quantifier": "all pose lists, linear solvers and termination criteria", "why_tests_cant": "The refinement only fails where a residual component is exactly zero, in particular for perfect synthetic data; noisy test data never hit this.", "anchors": ["src/utAlgorithm/ToolTip/Optimization.h: 60-255"]}
{"id": "C152", "title": "The error estimate of a tool tip calibration means what it says", "statement": "Mean and standard deviation are defined, the mean is zero exactly for a perfect calibration, the deviation exactly for equal distances, together they give the sum of squares that is minimised, and moving the world changes neither.", "quantifier": "all poses, tips and points", "why_tests_cant": "An equivalence over all pose lists; edge cases with fewer than two poses are silent.", "anchors": ["src/utAlgorithm/ToolTip/ErrorEstimation.h: 48-109"]}
{"id": "C153", "title": "Robust absolute orientation ignores wrong matches", "statement": "If some iteration samples true matches only, enough matches support the true motion and no motion is supported by a wrong match together with enough others, the call succeeds with exactly the true motion; wrong matches that contradict enough distances satisfy this.", "quantifier": "all point pairs, true motions, schedules, eigenvector routines and parameters", "why_tests_cant": "Which samples are drawn depends on random_shuffle; a test sees a few schedules and a tolerance, not that every wrong match is removed before the final estimate.", "anchors": ["src/utAlgorithm/PoseEstimation3D3D/Ransac.h: 43-93", "src/utMath/Optimization/Ransac.h: 262-395"]}
{"id": "C154", "title": "Robust tool tip calibration ignores wrong poses", "statement": "Under the same conditions the robust tool tip calibration returns exactly the true tip and the true point; if it fails, the caller's variables are left alone.", "quantifier": "all pose lists, schedules, least squares routines and parameters", "why_tests_cant": "Random sampling and uninitialised memory: a run that fails usually leaves plausible numbers behind.", "anchors": ["src/utAlgorithm/ToolTip/Ransac.h: 43-113", "src/utMath/Optimization/Ransac.h: 127-241"]}
{"id": "C155", "title": "The RANSAC drivers return the best hypothesis they can find", "statement": "The returned consensus set is the largest among the hypotheses of all permitted iterations.", "quantifier": "all data, models and schedules", "why_tests_cant": "Needs the comparison with iterations that were not executed.", "anchors": ["src/utMath/Optimization/Ransac.h: 102-395"]}
{"id": "C156", "title": "A grey value between pixels is a sensible interpolation", "statement": "Looking up a coordinate never reads outside the image, returns the pixel at pixel coordinates, stays between the four surrounding pixels, changes by at most the largest pixel difference per pixel moved, and reproduces affine images exactly; every pixel can be looked up.", "quantifier": "all images and real coordinates", "why_tests_cant": "Statements about every real coordinate, in particular across cell borders.", "anchors": ["src/utMath/Optimization/NewFunction/ImageLookup.h: 53-79"]}
{"id": "C157", "title": "The Jacobian of the image lookup is the derivative of the looked-up value", "statement": "The pair computed with the Sobel operator is the gradient of the interpolated grey value.", "quantifier": "all images and coordinates", "why_tests_cant": "An optimiser still converges with a wrong gradient; only the relation between both functions shows the difference.", "anchors": ["src/utMath/Optimization/NewFunction/ImageLookup.h: 81-120"]}
{"id": "C158", "title": "Values survive the text archives", "statement": "Reading back, in the same order and with the same types, what was written to a SimpleStringOArchive yields the same values and then reports the end; the text determines the values, and asking for more throws.", "quantifier": "all sequences of int, unsigned, unsigned long long, char and double values", "why_tests_cant": "Induction over arbitrary sequences; the failing cases (blank characters, a 32 bit counter, six digits) do not show up in short samples.", "anchors": ["src/utUtil/SimpleStringOArchive.h: 48-127", "src/utUtil/SimpleStringIArchive.h: 48-131"]}
{"id": "C159", "title": "Block timers account for all the time spent in their blocks", "statement": "The total of a block timer is the sum of the durations of all its blocks, the number of runs is the number of ended blocks, the average is their quotient, and the reported code location is that of the first block.", "quantifier": "all interleavings of beginning and ending blocks", "why_tests_cant": "Induction over arbitrary sequences of nested blocks; wrap-around and uninitialised averages do not occur in short tests.", "anchors": ["src/utUtil/BlockTimer.h: 60-180", "src/utUtil/BlockTimer.cpp: 51-62"]}
{"id": "C160", "title": "Short timestamp texts are ordered like the timestamps", "statement": "The short text of a timestamp has a fixed length that fits its buffer, comparing texts orders timestamps like comparing the timestamps to the microsecond, and equal texts mean equal microseconds; now() is strictly monotone in the system clock and loses nothing of it.", "quantifier": "all timestamps and local time zones", "why_tests_cant": "Quantifies over all pairs of 64 bit timestamps.", "anchors": ["src/utMeasurement/Timestamp.cpp: 46-104", "src/utMeasurement/Timestamp.cpp: 137-157"]}
{"id": "C161", "title": "Long timestamp texts identify the second", "statement": "The long text is the asctime text with its line break replaced by the zone, has 28 characters, and two timestamps have the same text exactly if they lie in the same second.", "quantifier": "all 64 bit timestamps", "why_tests_cant": "Needs injectivity of the calendar over 584 years.", "anchors": ["src/utMeasurement/Timestamp.cpp: 107-134"]}
{"id": "C162", "title": "Collecting files yields exactly the files asked for, in a fixed order", "statement": "Globbing a directory appends exactly the existing files whose names match the pattern (or the subdirectories), sorted by path independently of the order of the file system, and throws if there are none; numbered files come in the order of their numbers.", "quantifier": "all directories, listings, patterns and previous list contents", "why_tests_cant": "Listing orders depend on the file system; a test sees only its own.", "anchors": ["src/utUtil/GlobFiles.cpp: 39-104"]}
{"id": "C163", "title": "Random vectors and matrices respect their limits and parameters", "statement": "Uniform random vectors and matrices lie between their limits (given in either order), every value in between can be drawn, every entry has a random number of its own, and normal vectors follow the given mean and covariance.", "quantifier": "all limits, sizes and generator streams", "why_tests_cant": "Random output: a test sees a few draws of one generator.", "anchors": ["src/utMath/Random/Vector.h: 58-171", "src/utMath/Random/Matrix.h: 55-91", "src/utMath/Random/Scalar.h: 69-137"]}
{"id": "C164", "title": "Random rotations are unit quaternions and prefer no direction", "statement": "A random quaternion has unit length, every rotation can be drawn, and the distribution is uniform.", "quantifier": "all three random numbers and all unit quaternions", "why_tests_cant": "Uniformity is an integral over all draws; statistics of samples can only be approximate.", "anchors": ["src/utMath/Random/Rotation.h: 75-87"]}
{"id": "C165", "title": "The opening angles of a camera are the angles between its border rays", "statement": "The horizontal, vertical and diagonal opening angles are the angles between the rays through opposite sides or corners of the image; they grow with the image and shrink with the focal length. Flipping the handedness is an involution that mirrors the depth.", "quantifier": "all image sizes, focal lengths and principal points", "why_tests_cant": "The printed numbers look plausible; only the relation to the rays shows that one of them is wrong.", "anchors": ["src/utMath/CameraIntrinsics.h: 236-274"]}
{"id": "C166", "title": "Vectors can be keys of ordered containers", "statement": "operator< of vectors is a strict total order that decides by the first differing component and agrees with operator==.", "quantifier": "all vectors of all dimensions", "why_tests_cant": "std::map and std::sort rely on order axioms over all triples.", "anchors": ["src/utMath/Vector.h: 192-200", "src/utMath/Vector.h: 335-341"]}
{"id": "C167", "title": "The RMS of an error vector is the root of the mean squared error", "statement": "getRMS is the root of the mean squared length of the error, exists for every covariance, is zero exactly without error and does not depend on the coordinate system.", "quantifier": "all covariances, distributions and rotations", "why_tests_cant": "Statement about all distributions and orthogonal transformations.", "anchors": ["src/utMath/ErrorVector.h: 76-85"]}
{"id": "C168", "title": "Calibration files", "statement": "After any sequence of writeCalibFile calls, readCalibFile of a file returns the value written to it last, whatever the variable held before, and other files are untouched; a failed read of plain data reports a library exception and a missing file or a file without archive header leaves the variable as it was; a measurement is always read into a new object, so holders of the old one see no change; readCalibFileDropMeasurement changes its result only on success; a write that reports no failure can be read back.", "quantifier": "all sequences of writes to any files, all archives and codecs that satisfy the round-trip contract, all file system states", "why_tests_cant": "needs all interleavings of writes and all failure points (missing file, bad header, full disk)", "anchors": ["src/utUtil/CalibFile.h:58-201", "src/utMeasurement/Measurement.h:248-252"]}
{"id": "C169", "title": "Rounding in quaternion products stays bounded over long chains", "statement": "In IEEE double precision the product of quaternions has finite components and lies within a few rounding units of the exact product; after n products of quaternions of nearly unit length the error is at most 60 n rounding units (2^-53) and the length deviates from one by at most n times the single deviation plus rounding.", "quantifier": "all chains of up to 4*10^12 quaternions with finite binary64 components", "why_tests_cant": "The error grows over millions of products of arbitrary doubles; no test bounds it for all of them.", "anchors": ["src/utMath/Quaternion.h: 165-167", "src/utMath/Quaternion.h: 72-74"]}
{"id": "C170", "title": "Inverse cosines are only taken of numbers between -1 and 1", "statement": "After normalising a finite non-zero quaternion, angle(), toAxisAngle(), toLogarithm() and slerp() call acos with arguments in its domain, and the axis consists of finite numbers.", "quantifier": "all quaternions with binary64 components", "why_tests_cant": "Whether a rounded component exceeds one depends on the last bit of particular numbers (49, for instance).", "anchors": ["src/utMath/Quaternion.h: 146-149", "src/utMath/Quaternion.h: 179-180", "src/utMath/Quaternion.h: 322-340", "src/utMath/Quaternion.cpp: 230-250", "src/utMath/Quaternion.cpp: 279-310"]}
{"id": "C171", "title": "Normalising and rotating are accurate to rounding error", "statement": "In IEEE double precision, normalize() yields the exact unit quaternion up to 47 rounding units, and rotating a vector by it yields the exactly rotated vector up to 700 rounding units times the largest component; no overflow or NaN occurs.", "quantifier": "all quaternions with binary64 components whose largest is between 1/1000 and 1000, all vectors with components up to 1000", "why_tests_cant": "All doubles in a range; a test samples a few.", "anchors": ["src/utMath/Quaternion.h: 146-149", "src/utMath/Quaternion.cpp: 206-226"]}
{"id": "C172", "title": "Least squares clock synchronisation survives rounding", "statement": "In IEEE double precision the running means of TimestampSyncLS stay finite and between the smallest and the largest value passed, the first eleven calls return the local time exactly, and later calls return a defined timestamp whenever sensor clock and local clock run in step.", "quantifier": "all sequences of fewer than 2^32 calls, all sensor times up to 2^1022 and local times", "why_tests_cant": "Rounding effects accumulate over arbitrarily long runs; cancellation only shows for particular magnitudes (Unix time in seconds).", "anchors": ["src/utMeasurement/TimestampSyncLS.h: 65-139"]}
{"id": "C173", "title": "Averages and covariances are accurate to rounding error", "statement": "In IEEE double precision the mean of n values is finite and within about n+1 rounding units (2^-53) of the mean size of the values from the exact mean, and each entry of the covariance of Average< ErrorVector > within 4(n+2) rounding units of the square of the largest value; the mean lies between the smallest and the largest value and variances are not negative.", "quantifier": "all non-empty sequences of up to 9*10^12 finite binary64 values without overflow", "why_tests_cant": "Rounding accumulates over arbitrarily long sequences; negative variances appear only for particular last bits (0.1 three times).", "anchors": ["src/utMath/Stochastic/Average.h: 83-150", "src/utMath/Stochastic/Average.h: 200-231"]}
{"id": "C174", "title": "Inner products and lengths are accurate to rounding error", "statement": "In IEEE double precision the inner product of two vectors of n components is within about n+1 rounding units of the exact one, relative to the sum of the absolute products; the 2-norm has a relative error of at most 0.6n+2 rounding units; fixed and dynamic vectors give the same inner product; only the zero vector has length zero.", "quantifier": "all vectors of all dimensions with finite binary64 components without overflow", "why_tests_cant": "All doubles, all dimensions; the order of summation matters only in the last bits.", "anchors": ["src/utMath/Blas1.h: 97-162", "src/utMath/Blas1.h: 264-280"]}
{"id": "C175", "title": "The repeating container stands for copies of one value", "statement": "Used as the second range of std::transform, the identity container combines every element with its value; used as first range with size n, exactly n elements of the other range are read; its iterators move, compare and return like the positions 0..n of a range of n copies, and adding a number to an iterator yields a new iterator.", "quantifier": "all values, sizes, ranges, functors and iterator positions", "why_tests_cant": "All sizes and all ranges; in-place addition shows only if the operand is used again.", "anchors": ["src/utMath/Stochastic/identity_iterator.h: 57-245", "src/utMath/Geometry/PointTransformation.h: 251-253", "src/utMath/Geometry/PointProjection.h: 198-199"]}
{"id": "C176", "title": "Exceptions report where they come from", "statement": "An exception can be thrown at any log level; its printed text determines the line, the file and the message.", "quantifier": "all messages, lines and files, all log levels", "why_tests_cant": "Texts of arbitrary strings; undefined behaviour only at one log level.", "anchors": ["src/utUtil/Exception.cpp: 42-63", "src/utUtil/Exception.h: 46-88", "src/utSerialization/Exception.h: 48-51", "src/utSerialization/ROSBinarySerialization.cpp: 43-46"]}
{"id": "C177", "title": "The simplex search varies every parameter", "statement": "The starting simplex of the downhill simplex search extends along every parameter, so that the search can change each of them.", "quantifier": "all functions, starting points, dimensions and numbers of passes, without normalisation", "why_tests_cant": "A flat simplex stays flat through any number of passes; a test with a start away from zero does not show it.", "anchors": ["src/utMath/Optimization/DownhillSimplex.h: 61-87", "src/utMath/Optimization/DownhillSimplex.h: 118-189"]}
